From Verif Require Import M_Syntax M_Float M_Hash M_Heap S_Heap P_Heap.
Open Scope nat_scope.

Fixpoint nodes (e : ex) : nat := match e with EExpr l => S (list_sum (map nodes l)) | _ => 1 end.

Definition ext (h h1 : heap) : Prop :=
  length (h_objs h) <= length (h_objs h1) /\ (forall b, b < length (h_objs h) -> hget h1 b = hget h b) /\
  length (h_bigs h) <= length (h_bigs h1) /\ (forall b, b < length (h_bigs h) -> bget h1 b = bget h b).
Lemma ext_refl h : ext h h.
Proof. unfold ext. auto. Qed.
Lemma ext_trans h1 h2 h3 : ext h1 h2 -> ext h2 h3 -> ext h1 h3.
Proof.
  intros (A1 & B1 & C1 & D1) (A2 & B2 & C2 & D2). unfold ext. split; [lia|]. split.
  - intros b H. rewrite B2 by lia. auto.
  - split; [lia|]. intros b H. rewrite D2 by lia. auto.
Qed.
Lemma hget_lt h a o : hget h a = Some o -> a < length (h_objs h).
Proof. intros H. apply nth_error_Some. unfold hget in H. congruence. Qed.
Lemma ext_get h h1 a o : ext h h1 -> hget h a = Some o -> hget h1 a = Some o.
Proof. intros (_ & B & _) H. rewrite B; [exact H|]. eapply hget_lt; eauto. Qed.

Lemma ranked_lt rk L r h a : ranked rk L r h -> L a -> a < length (h_objs h).
Proof. intros Rk La. specialize (Rk a La). destruct (hget h a) eqn:E; [|contradiction]. eapply hget_lt; eauto. Qed.
Lemma ranked_ext rk L r h h1 : ext h h1 -> ranked rk L r h -> ranked rk L r h1.
Proof.
  intros X Rk a La. assert (Ra := Rk a La). destruct X as (A & B & C & D). rewrite B by (eapply ranked_lt; eauto).
  destruct (hget h a) as [[]|]; auto. lia.
Qed.
Lemma marked_ext rk L r h h1 : ext h h1 -> ranked rk L r h -> marked L r h -> marked L r h1.
Proof.
  intros X Rk Mk a ps e c La E He. assert (Ha := ranked_lt _ _ _ _ _ Rk La).
  destruct X as (A & B & C & D). rewrite B in E by assumption. destruct (Mk a ps e c La E He) as [-> F]. split; [reflexivity|].
  intros p Hp. specialize (Rk a La). rewrite E in Rk. destruct (Rk p Hp) as [Lp _]. specialize (F p Hp).
  unfold final in *. rewrite B; [exact F|]. destruct (hget h p) eqn:Ep; [|contradiction]. eapply hget_lt; eauto.
Qed.
Lemma means_ext rk L r h h1 : ext h h1 -> ranked rk L r h -> forall a v, L a -> means r h a v -> means r h1 a v.
Proof.
  intros X Rk. assert (G : forall n a v, rk a < n -> L a -> means r h a v -> means r h1 a v); [|intros; eapply G; eauto].
  induction n as [|n IH]; intros a v Hn La M; [lia|]. assert (Ra := Rk a La).
  inversion M as [a0 n0 E0 V0|a0 n0 d v0 E0 V0 M0|a0 e E0|a0 b0 c0 E0|a0 ps e c vs E0 FM]; subst; rewrite E0 in Ra; apply (ext_get _ _ _ _ X) in E0.
  - eapply me_free; eauto.
  - destruct (proj2 Ra d V0). eapply me_var; eauto. apply IH; [lia|assumption|assumption].
  - now apply me_atom.
  - assert (Y : bget h b0 = bget h1 b0) by (symmetry; now apply X). rewrite Y. eapply me_int; eauto.
  - eapply me_expr; eauto. apply (F2_in _ _ _ _ FM). intros p w Hp. destruct (Ra p Hp). apply IH; [lia|assumption].
Qed.

Lemma quiet_part l x : quiet (EExpr l) -> In x l -> quiet x.
Proof. intros Q H n O. apply Q. econstructor; eauto. Qed.

Definition range (i j : nat) (b : nat) : Prop := i <= b < j.
Definition alloc_list := fix go (h : heap) (l : list ex) : list addr * heap :=
  match l with
  | [] => ([], h)
  | x :: t => let (p, h1) := alloc h x in let (ps, h2) := go h1 t in (p :: ps, h2)
  end.
Lemma alloc_expr h l : alloc h (EExpr l) = let '(ps, h1) := alloc_list h l in hnew h1 (OExpr ps 0%N 0%N).
Proof. reflexivity. Qed.

Definition fresh_ok (h h1 : heap) (e : ex -> Prop) : Prop :=
  ranked (fun b => b) (range (length (h_objs h)) (length (h_objs h1))) [] h1 /\
  (forall b ps x c, length (h_objs h) <= b -> hget h1 b = Some (OExpr ps x c) -> x = 0%N) /\
  (forall b n, length (h_objs h) <= b -> hget h1 b = Some (OSym n) -> exists q, e q /\ occurs n q).
Definition alloc_ok (h : heap) (e : ex) (a : addr) (h1 : heap) : Prop :=
  ext h h1 /\ range (length (h_objs h)) (length (h_objs h1)) a /\
  length (h_objs h1) <= length (h_objs h) + nodes e /\ fresh_ok h h1 (eq e) /\ means [] h1 a e.

Lemma hnew_ext h o : ext h (snd (hnew h o)).
Proof.
  unfold ext, hnew. cbn. rewrite app_length. cbn. split; [lia|]. split; [|auto].
  intros b H. unfold hget. cbn. now rewrite nth_error_app1.
Qed.
Lemma hnew_get h o : hget (snd (hnew h o)) (length (h_objs h)) = Some o.
Proof. unfold hget, hnew. cbn. rewrite nth_error_app2 by lia. now rewrite Nat.sub_diag. Qed.
Lemma hnew_inv h o b o' : hget (snd (hnew h o)) b = Some o' -> b = length (h_objs h) /\ o' = o \/ b < length (h_objs h) /\ hget h b = Some o'.
Proof.
  unfold hget, hnew. cbn. intros E. destruct (Nat.lt_ge_cases b (length (h_objs h))).
  - right. split; [assumption|]. now rewrite nth_error_app1 in E.
  - left. rewrite nth_error_app2 in E by assumption. destruct (b - length (h_objs h)) as [|[|k]] eqn:K; try discriminate.
    injection E as <-. split; [lia|reflexivity].
Qed.

Lemma fresh_trans h1 h2 h3 P Q : ext h1 h2 -> ext h2 h3 -> fresh_ok h1 h2 P -> fresh_ok h2 h3 Q -> fresh_ok h1 h3 (fun e => P e \/ Q e).
Proof.
  intros X1 X2 (R1 & E1 & S1) (R2 & E2 & S2).
  assert (W : forall b o, hget h3 b = Some o -> b < length (h_objs h2) -> hget h2 b = Some o).
  { intros b o E H. destruct X2 as (_ & B & _). now rewrite B in E. }
  split; [|split].
  - intros b [Hb1 Hb2]. destruct (Nat.lt_ge_cases b (length (h_objs h2))) as [Hb|Hb].
    + assert (Y := ranked_ext _ _ _ _ _ X2 R1 b (conj Hb1 Hb)). destruct (hget h3 b) as [[]|]; auto; [split; [apply Y|discriminate]|].
      intros p Hp. destruct (Y p Hp) as [[P1 P2] P3]. split; [|exact P3]. unfold range. destruct X2. lia.
    + assert (Y := R2 b (conj Hb Hb2)). destruct (hget h3 b) as [[]|]; auto; [split; [apply Y|discriminate]|].
      intros p Hp. destruct (Y p Hp) as [[P1 P2] P3]. split; [|exact P3]. unfold range. destruct X1. lia.
  - intros b ps x c Hb E. destruct (Nat.lt_ge_cases b (length (h_objs h2))) as [H|H]; [eapply E1; eauto|eapply E2; eauto].
  - intros b n Hb E. destruct (Nat.lt_ge_cases b (length (h_objs h2))) as [H|H].
    + destruct (S1 b n Hb (W _ _ E H)) as (q & Pq & O). eauto.
    + destruct (S2 b n H E) as (q & Pq & O). eauto.
Qed.
Lemma fresh_weaken h h1 (P Q : ex -> Prop) : (forall n q, P q -> occurs n q -> exists q', Q q' /\ occurs n q') -> fresh_ok h h1 P -> fresh_ok h h1 Q.
Proof. intros W (R & E & S0). split; [exact R|]. split; [exact E|]. intros b n Hb En. destruct (S0 b n Hb En) as (q & Pq & O). eauto. Qed.
Lemma fresh_refl h P : fresh_ok h h P.
Proof.
  split; [intros b [H1 H2]; lia|]. split; intros b; intros; exfalso;
    match goal with H : hget h b = Some _ |- _ => apply hget_lt in H; lia end.
Qed.

Lemma hnew_lens h o : length (h_objs (snd (hnew h o))) = S (length (h_objs h)) /\ h_bigs (snd (hnew h o)) = h_bigs h.
Proof. unfold hnew. cbn. rewrite app_length. cbn. split; [lia|reflexivity]. Qed.

Lemma alloc_spec e : forall h, quiet e -> let (a, h1) := alloc h e in alloc_ok h e a h1.
Proof.
  assert (ATOM : forall h q, quiet q -> is_expr q = false -> is_sym q = false -> let (a, h1) := hnew h (OAtom q) in alloc_ok h q a h1).
  { intros h q Qq X1 X2. cbn [hnew]. change (Heap _ _) with (snd (hnew h (OAtom q))). set (h1 := snd (hnew h (OAtom q))).
    assert (E1 : length (h_objs h1) = S (length (h_objs h))) by apply hnew_lens.
    split; [apply hnew_ext|]. split; [unfold range; lia|]. split; [destruct q; try discriminate; cbn [nodes]; lia|]. split.
    - split; [|split].
      + intros b [Hb1 Hb2]. assert (b = length (h_objs h)) by lia. subst b. unfold h1. rewrite hnew_get. auto.
      + intros b ps x c Hb E. apply hnew_inv in E. destruct E as [[_ E]|[E _]]; [discriminate|lia].
      + intros b n Hb E. apply hnew_inv in E. destruct E as [[_ E]|[E _]]; [discriminate|lia].
    - apply me_atom. apply hnew_get. }
  induction e as [n|s0|z|n d|f|a1 a2 IH1 IH2|l IH] using ex_ind'; intros h Q; try (now apply ATOM).
  - cbn [alloc hnew]. change (Heap _ _) with (snd (hnew h (OSym n))). set (h1 := snd (hnew h (OSym n))).
    assert (E1 : length (h_objs h1) = S (length (h_objs h))) by apply hnew_lens.
    split; [apply hnew_ext|]. split; [unfold range; lia|]. split; [cbn [nodes]; lia|]. split.
    + split; [|split].
      * intros b [Hb1 Hb2]. assert (b = length (h_objs h)) by lia. subst b. unfold h1. rewrite hnew_get.
        split; [apply Q; constructor|]. intros d X. discriminate.
      * intros b ps x c Hb E. apply hnew_inv in E. destruct E as [[_ E]|[E _]]; [discriminate|lia].
      * intros b m Hb E. apply hnew_inv in E. destruct E as [[_ E]|[E _]]; [|lia]. injection E as ->.
        exists (ESym n). split; [reflexivity|constructor].
    + apply me_free; [apply hnew_get|reflexivity].
  - cbn [alloc]. unfold hnew_int. cbn [bnew]. set (h0 := Heap (h_objs h) (h_bigs h ++ [z])).
    set (o := OInt (length (h_bigs h)) 0%N). cbn [hnew]. change (Heap _ _) with (snd (hnew h0 o)). set (h1 := snd (hnew h0 o)).
    assert (E0 : length (h_objs h0) = length (h_objs h)) by reflexivity.
    assert (B1 : length (h_bigs h1) = S (length (h_bigs h))) by (unfold h1; rewrite (proj2 (hnew_lens h0 o)); unfold h0; cbn [h_bigs]; rewrite app_length; cbn; lia).
    assert (E1 : length (h_objs h1) = S (length (h_objs h))) by exact (proj1 (hnew_lens h0 o)).
    assert (X0 : ext h h0).
    { unfold ext, h0. cbn [h_objs h_bigs]. rewrite app_length. split; [lia|]. split; [reflexivity|]. split; [lia|].
      intros b Hb. unfold bget. cbn. now rewrite app_nth1. }
    split; [eapply ext_trans; [exact X0|apply hnew_ext]|]. split; [unfold range; lia|]. split; [cbn [nodes]; lia|]. split.
    + split; [|split].
      * intros b [Hb1 Hb2]. assert (b = length (h_objs h0)) by lia. subst b. unfold h1 at 1. rewrite hnew_get. unfold o. lia.
      * intros b ps x c Hb E. apply hnew_inv in E. destruct E as [[_ E]|[E _]]; [discriminate|lia].
      * intros b m Hb E. apply hnew_inv in E. destruct E as [[_ E]|[E _]]; [discriminate|lia].
    + assert (Y : bget h1 (length (h_bigs h)) = z).
      { unfold bget, h1, h0, hnew. cbn. rewrite app_nth2 by lia. now rewrite Nat.sub_diag. }
      replace (EInt z) with (EInt (bget h1 (length (h_bigs h)))) by now rewrite Y. eapply me_int. unfold h1. change (length (h_objs h)) with (length (h_objs h0)). now rewrite hnew_get.
  - rewrite alloc_expr.
    assert (LS : forall l', (forall x, In x l' -> In x l) -> forall h0, let (ps, h1) := alloc_list h0 l' in
       ext h0 h1 /\ (forall p, In p ps -> range (length (h_objs h0)) (length (h_objs h1)) p) /\
       length (h_objs h1) <= length (h_objs h0) + list_sum (map nodes l') /\ fresh_ok h0 h1 (fun q => In q l') /\
       Forall2 (means [] h1) ps l').
    { rewrite Forall_forall in IH. induction l' as [|x l' IHl]; intros Sub h0.
      - cbn. split; [apply ext_refl|]. split; [contradiction|]. split; [lia|]. split; [apply fresh_refl|constructor].
      - cbn [alloc_list]. assert (Ix := IH x (Sub x (or_introl eq_refl)) h0 (quiet_part _ _ Q (Sub x (or_introl eq_refl)))).
        destruct (alloc h0 x) as [p h1]. destruct Ix as (X1 & R1 & N1 & F1 & M1).
        specialize (IHl (fun y Hy => Sub y (or_intror Hy)) h1). fold alloc_list. destruct (alloc_list h1 l') as [ps h2].
        destruct IHl as (X2 & R2 & N2 & F2 & M2).
        split; [eapply ext_trans; eauto|]. split; [|split; [|split]].
        + assert (A1 := proj1 X1). assert (A2 := proj1 X2). intros q [<-|Hq]; unfold range in *; [lia|]. specialize (R2 q Hq). lia.
        + cbn [map list_sum fold_right]. unfold list_sum in N2. lia.
        + eapply fresh_weaken; [|eapply fresh_trans; [exact X1|exact X2|exact F1|exact F2]].
          intros n q [<-|Hq] O; [exists x|exists q]; cbn; auto.
        + constructor; [|exact M2]. eapply means_ext; [exact X2|apply F1|exact R1|exact M1]. }
    specialize (LS l (fun x H => H) h). destruct (alloc_list h l) as [ps h1].
    destruct LS as (X & R & N & F & M). cbn [hnew]. set (o := OExpr ps 0%N 0%N). change (Heap _ _) with (snd (hnew h1 o)). set (h2 := snd (hnew h1 o)).
    assert (E1 : length (h_objs h2) = S (length (h_objs h1))) by apply hnew_lens.
    assert (X2 : ext h1 h2) by apply hnew_ext. assert (A1 := proj1 X).
    split; [eapply ext_trans; eauto|]. split; [unfold range; lia|]. split; [cbn [nodes]; unfold list_sum in *; lia|]. split.
    + destruct F as (F1 & F2 & F3). split; [|split].
      * intros b [Hb1 Hb2]. destruct (Nat.eq_dec b (length (h_objs h1))) as [->|Nb].
        -- unfold h2 at 1. rewrite hnew_get. intros p Hp. specialize (R p Hp). unfold range in *. lia.
        -- assert (Hb3 : b < length (h_objs h1)) by (clear - Hb2 E1 Nb; lia). assert (Y := ranked_ext _ _ _ _ _ X2 F1 b (conj Hb1 Hb3)). destruct (hget h2 b) as [[]|]; auto; [split; [apply Y|discriminate]|].
           intros p Hp. destruct (Y p Hp) as [[P1 P2] P3]. unfold range. lia.
      * intros b qs x c Hb E. apply hnew_inv in E. destruct E as [[_ E]|[_ E]]; [now injection E|eapply F2; eauto].
      * intros b n Hb E. apply hnew_inv in E. destruct E as [[_ E]|[_ E]]; [discriminate|].
        destruct (F3 b n Hb E) as (q & Hq & O). exists (EExpr l). split; [reflexivity|]. econstructor; eauto.
    + eapply me_expr; [apply hnew_get|]. apply (F2_in _ _ _ _ M). intros p v Hp Mp.
      eapply means_ext; [exact X2|apply F|apply R; exact Hp|exact Mp].
Qed.

(* ---- stores whose values mention only unassigned symbols ---- *)
Definition settled (s : store) (f : string -> Prop) : Prop :=
  (forall n v, s n = Some v -> forall m, occurs m v -> f m) /\ (forall n, f n -> s n = None).
Lemma norm_free_id s v : (forall m, occurs m v -> s m = None) -> forall w, norm s v w -> w = v.
Proof.
  induction v as [n|s0|z|n d|f|a1 a2 IH1 IH2|l IH] using ex_ind'; intros F w H; try (inversion H; subst; congruence || reflexivity).
  - assert (s n = None) by (apply F; constructor). inversion H; subst; try congruence; reflexivity.
  - inversion H as [| |e X1 X2|l0 vs FM]; subst; [discriminate|]. f_equal. rewrite Forall_forall in IH.
    clear H. induction FM as [|p v l vs Hp HF IHF]; [reflexivity|]. f_equal.
    + apply IH; [now left| |exact Hp]. intros m O. apply F. econstructor; [now left|exact O].
    + apply IHF; [intros x Hx; apply IH; now right|]. intros m O. inversion O as [|l0 x Hx Ox]; subst. apply F. econstructor; [right; exact Hx|exact Ox].
Qed.
Lemma norm_det s f : settled s f -> forall e v w, norm s e v -> norm s e w -> v = w.
Proof.
  intros [S1 S2]. induction e as [n|s0|z|n d|g|a1 a2 IH1 IH2|l IH] using ex_ind'; intros v w H1 H2;
    try (inversion H1; inversion H2; subst; congruence || reflexivity).
  - inversion H1 as [n1 E1|n1 b1 v1 E1 N1|e1 X1 Y1|]; inversion H2 as [n2 E2|n2 b2 v2 E2 N2|e2 X2 Y2|]; subst; try congruence; try discriminate.
    rewrite E1 in E2. injection E2 as <-.
    assert (F : forall m, occurs m b1 -> s m = None) by (intros m O; apply S2; eapply S1; eauto).
    now rewrite (norm_free_id s b1 F v N1), (norm_free_id s b1 F w N2).
  - inversion H1 as [| |e1 X1 Y1|l1 v1 F1]; inversion H2 as [| |e2 X2 Y2|l2 v2 F2]; subst; try discriminate.
    f_equal. rewrite Forall_forall in IH. clear H1 H2. revert v2 F2. induction F1 as [|p v l vs Hp HF IHF]; intros v2 F2; inversion F2; subst; [reflexivity|].
    f_equal; [eapply IH; eauto; now left|]. apply IHF; [intros x Hx; apply IH; now right|assumption].
Qed.
Lemma norm_occurs s f : settled s f -> forall e v, norm s e v -> forall m, occurs m v -> f m \/ occurs m e /\ s m = None.
Proof.
  intros [S1 S2]. induction e as [n|s0|z|n d|g|a1 a2 IH1 IH2|l IH] using ex_ind'; intros v H m O;
    try (inversion H; subst; inversion O; fail).
  - inversion H as [n1 E1|n1 b1 v1 E1 N1|e1 X1 Y1|]; subst; try discriminate.
    + inversion O; subst. right. split; [constructor|assumption].
    + left. rewrite (norm_free_id s b1 (fun m O => S2 m (S1 _ _ E1 m O)) v N1) in O. eapply S1; eauto.
  - inversion H as [| |e1 X1 Y1|l1 vs F1]; subst; [discriminate|]. inversion O as [|l0 x Hx Ox]; subst. rewrite Forall_forall in IH.
    assert (X : exists y, In y l /\ norm s y x).
    { clear -F1 Hx. induction F1 as [|p v l vs Hp HF IHF]; [destruct Hx|]. destruct Hx as [<-|Hx]; [exists p; cbn; auto|].
      destruct (IHF Hx) as (y & Hy & N). exists y. cbn. auto. }
    destruct X as (y & Hy & N). destruct (IH y Hy x N m Ox) as [?|[? ?]]; [now left|]. right. split; [|assumption]. econstructor; eauto.
Qed.

(* ---- the state of a session between two commands ---- *)
Record sess_ok (B : nat) (f : string -> Prop) (s : store) (h : heap) (r : vars) (rk : addr -> nat) (L : addr -> Prop) : Prop := SO {
  so_inv : inv rk L r h;
  so_fin : forall a, L a -> rk a < B /\ final r h a;
  so_sym : forall b n, L b -> hget h b = Some (OSym n) -> f n;
  so_var : forall n, match vget r n, s n with
                     | None, None => True
                     | Some d, Some v => L d /\ means r h d v
                     | _, _ => False end;
  so_set : settled s f }.

Lemma means_store rk L r h s f : inv rk L r h -> settled s f ->
  (forall n, match vget r n, s n with None, None => True | Some d, Some v => L d /\ means r h d v | _, _ => False end) ->
  forall e a v, L a -> means [] h a e -> norm s e v -> means r h a v.
Proof.
  intros [Rk Mk] [S1 S2] SV.
  induction e as [n|s0|z|n d|g|a1 a2 IH1 IH2|l IH] using ex_ind'; intros a v La M N; assert (Ra := Rk a La);
    inversion M as [a0 n0 E0 V0|a0 n0 d0 v0 E0 V0 M0|a0 e0 E0|a0 b0 c0 E0|a0 ps e0 c vs E0 FM]; subst; try discriminate; rewrite E0 in Ra;
    try (inversion N; subst; try discriminate; now apply me_atom);
    try (exfalso; destruct Ra as [Xa Ya]; (discriminate Xa || discriminate Ya)).
  - specialize (SV n). inversion N as [n1 E1|n1 b1 v1 E1 N1|e1 X1 Y1|]; subst; try discriminate.
    + rewrite E1 in SV. destruct (vget r n) eqn:V; [contradiction|]. now apply me_free.
    + rewrite E1 in SV. destruct (vget r n) as [d|] eqn:V; [|contradiction].
      rewrite (norm_free_id s b1 (fun m O => S2 m (S1 _ _ E1 m O)) v N1). eapply me_var; eauto. apply SV.
  - inversion N; subst. eapply me_int; eauto.
  - inversion N as [| |e1 X1 Y1|l1 ws F1]; subst; [discriminate|]. eapply me_expr; eauto. rewrite Forall_forall in IH.
    clear -IH FM F1 Ra. revert ws F1. induction FM as [|p v ps vs Hp HF IHF]; intros ws F1; inversion F1; subst; constructor.
    + eapply IH; eauto; [now left|]. apply Ra. now left.
    + apply IHF; auto; intros x Hx; [apply IH|apply Ra]; now right.
Qed.

Lemma eval_input B f s h r rk L e v k : sess_ok B f s h r rk L -> quiet e -> norm s e v -> B + nodes e + 4 <= k ->
  let (a, h1) := alloc h e in
  match heval k r h1 a with
  | Done (a', h') => exists rk' L', sess_ok (B + nodes e) (fun n => f n \/ occurs n e /\ s n = None) s h' r rk' L' /\
                       L' a' /\ means r h' a' v /\ tree k h' a' = Some v
  | ZeroHash => True
  | _ => False
  end.
Proof.
  intros SO0 Q N Hk. destruct SO0 as [[Rk Mk] Fin Sym Var Set0]. assert (AS := alloc_spec e h Q).
  destruct (alloc h e) as [a h1]. destruct AS as (X & Ra & Nn & (FR & FE & FS) & M0).
  set (n0 := length (h_objs h)) in *.
  set (rk1 := fun b => if b <? n0 then rk b else B + (b - n0)).
  set (L1 := fun b => L b \/ range n0 (length (h_objs h1)) b).
  assert (LT : forall b, L b -> b < n0) by (intros b Lb; eapply ranked_lt; eauto).
  assert (K0 : forall b, L b -> rk1 b = rk b).
  { intros b Lb. unfold rk1. destruct (Nat.ltb_spec b n0); [reflexivity|]. specialize (LT b Lb). lia. }
  assert (K1 : forall b, n0 <= b -> rk1 b = B + (b - n0)).
  { intros b Hb. unfold rk1. destruct (Nat.ltb_spec b n0); [lia|reflexivity]. }
  assert (Rk1 : ranked rk1 L1 r h1).
  { intros b [Lb|Hb].
    - assert (Y := ranked_ext _ _ _ _ _ X Rk b Lb). destruct (hget h1 b) as [[]|]; auto.
      + split; [apply Y|]. intros d V. destruct (proj2 Y d V) as [Ld Hd]. split; [now left|]. now rewrite !K0.
      + intros p Hp. destruct (Y p Hp) as [Lp Hp']. split; [now left|]. now rewrite !K0.
    - assert (Y := FR b Hb). destruct (hget h1 b) as [[]|]; auto.
      + split; [apply Y|]. intros d V. specialize (Var n). rewrite V in Var. destruct (s n) as [w|]; [|contradiction].
        destruct Var as [Ld _]. split; [now left|]. rewrite K0 by assumption. rewrite K1 by apply Hb. destruct (Fin d Ld). lia.
      + intros p Hp. destruct (Y p Hp) as [Rp Hp']. split; [now right|]. unfold range in *. rewrite !K1 by lia. lia. }
  assert (Mk1 : marked L1 r h1).
  { intros b ps x c [Lb|Hb] E Hx; [exact (marked_ext _ _ _ _ _ X Rk Mk b ps x c Lb E Hx)|]. exfalso. apply Hx. eapply FE; [apply Hb|exact E]. }
  assert (I1 : inv rk1 L1 r h1) by (split; assumption).
  assert (La : L1 a) by (right; exact Ra).
  assert (Bd : forall b, L1 b -> rk1 b < B + nodes e).
  { intros b [Lb|Hb]; [rewrite K0 by assumption; destruct (Fin b Lb); lia|]. unfold range in Hb. rewrite K1 by lia. lia. }
  assert (Var1 : forall n, match vget r n, s n with None, None => True | Some d, Some v => L1 d /\ means r h1 d v | _, _ => False end).
  { intros n. specialize (Var n). destruct (vget r n) as [d|], (s n) as [w|]; auto. destruct Var as [Ld Md]. split; [now left|].
    eapply means_ext; eauto. }
  assert (Ma : means r h1 a v) by (eapply means_store; eauto).
  assert (EV := heval_spec rk1 L1 r k h1 a I1 La ltac:(specialize (Bd a La); lia)).
  destruct (heval k r h1 a) as [[a' h']| | |]; cbn [eval_ok] in EV; try contradiction; [|exact I].
  destruct EV as (La' & Ha' & Fa' & G & Mw). destruct G as (I2 & GM & GF & GK & GB & GS).
  exists rk1, (fun b => L1 b /\ final r h' b).
  assert (Ma' : means r h' a' v) by (apply Mw; apply GM; assumption).
  split; [|split; [split; assumption|]].
  - split.
    + destruct I2 as [Rk2 Mk2]. split.
      * intros b [Lb Fb]. assert (Y := Rk2 b Lb). unfold final in Fb. destruct (hget h' b) as [[]|] eqn:E; auto.
        -- split; [apply Y|]. intros d V. congruence.
        -- destruct (Mk2 b parts evaled cached Lb E Fb) as [_ FP]. intros p Hp. destruct (Y p Hp). split; [split; [assumption|now apply FP]|assumption].
      * intros b ps x c [Lb Fb] E Hx. now apply (Mk2 b ps x c Lb E Hx).
    + intros b [Lb Fb]. split; [now apply Bd|exact Fb].
    + intros b n [Lb Fb] E. assert (E1 := GS b n E). destruct Lb as [Lb|Hb].
      * left. apply (Sym b n Lb). destruct X as (_ & X2 & _). rewrite X2 in E1; [exact E1|]. now apply LT.
      * right. destruct (FS b n (proj1 Hb) E1) as (q & <- & O). split; [exact O|]. unfold final in Fb. rewrite E in Fb.
        specialize (Var n). rewrite Fb in Var. destruct (s n); [contradiction|reflexivity].
    + intros n. specialize (Var n). specialize (Var1 n). destruct (vget r n) as [d|] eqn:V, (s n) as [w|]; auto.
      destruct Var1 as [Ld1 Md1]. split; [split; [assumption|]|now apply GM]. apply GF; [assumption|].
      destruct Var as [Ld _]. destruct (Fin d Ld) as [_ Fd]. unfold final in *.
      destruct X as (_ & X2 & _). rewrite X2 by now apply LT. exact Fd.
    + destruct Set0 as [S1 S2]. split; [intros n w E m O; left; eapply S1; eauto|]. intros n [Fn|[_ E]]; auto.
  - split; [exact Ma'|]. eapply final_tree; eauto. specialize (Bd a' La'). lia.
Qed.

Lemma vget_set r x a n : vget (vset r x a) n = if String.eqb x n then Some a else vget r n.
Proof. reflexivity. Qed.

Lemma set_var B f s h r rk L x a v : sess_ok B f s h r rk L -> L a -> means r h a v -> ~ f x -> (forall m, occurs m v -> f m) ->
  sess_ok B f (upd s x v) h (vset r x a) rk L /\ final (vset r x a) h a.
Proof.
  intros [[Rk Mk] Fin Sym Var [S1 S2]] La M Nx Ov.
  assert (NS : forall b n, L b -> hget h b = Some (OSym n) -> vget (vset r x a) n = vget r n).
  { intros b n Lb E. rewrite vget_set. destruct (String.eqb_spec x n) as [<-|]; [|reflexivity]. exfalso. apply Nx. eapply Sym; eauto. }
  assert (FF : forall b, L b -> final r h b -> final (vset r x a) h b).
  { intros b Lb F. unfold final in *. destruct (hget h b) as [[]|] eqn:E; auto. now rewrite (NS b n Lb E). }
  assert (MM : forall b w, L b -> means r h b w -> means (vset r x a) h b w).
  { assert (G : forall n b w, rk b < n -> L b -> means r h b w -> means (vset r x a) h b w); [|intros; eapply G; eauto].
    induction n as [|n IH]; intros b w Hn Lb Mb; [lia|]. assert (Rb := Rk b Lb). assert (Fb := proj2 (Fin b Lb)).
    inversion Mb as [a0 n0 E0 V0|a0 n0 d v0 E0 V0 M0|a0 e E0|a0 b0 c0 E0|a0 ps e c vs E0 FM]; subst; rewrite E0 in Rb.
    - eapply me_free; [exact E0|]. now rewrite (NS b n0 Lb E0).
    - unfold final in Fb. rewrite E0 in Fb. congruence.
    - now apply me_atom.
    - eapply me_int; eauto.
    - eapply me_expr; eauto. apply (F2_in _ _ _ _ FM). intros p u Hp. destruct (Rb p Hp). apply IH; [lia|assumption]. }
  split; [|apply FF; [assumption|]; now apply Fin]. split.
  - split.
    + intros b Lb. assert (Rb := Rk b Lb). assert (Fb := proj2 (Fin b Lb)). unfold final in Fb.
      destruct (hget h b) as [[]|] eqn:E; auto. split; [apply Rb|]. intros d V. rewrite (NS b n Lb E) in V. congruence.
    + intros b ps e c Lb E He. destruct (Mk b ps e c Lb E He) as [-> FP]. split; [reflexivity|]. intros p Hp. apply FF; [|now apply FP].
      assert (Rb := Rk b Lb). rewrite E in Rb. now apply Rb.
  - intros b Lb. destruct (Fin b Lb). split; [assumption|now apply FF].
  - exact Sym.
  - intros n. rewrite vget_set. unfold upd. rewrite (String.eqb_sym n x). specialize (Var n).
    destruct (String.eqb x n); [split; [assumption|now apply MM]|].
    destruct (vget r n) as [d|], (s n) as [w|]; auto. destruct Var. split; [assumption|now apply MM].
  - split.
    + intros n w E m O. unfold upd in E. destruct (String.eqb n x); [|eapply S1; eauto]. injection E as <-. now apply Ov.
    + intros n Fn. unfold upd. destruct (String.eqb_spec n x) as [->|]; [contradiction|]. now apply S2.
Qed.

Definition cmd_expr (c : cmd) : ex := match c with CSet _ e | CDelay _ e | CRead e => e end.
Definition size (l : list cmd) : nat := list_sum (map (fun c => nodes (cmd_expr c)) l).

Lemma session_spec k l : forall B f s h r rk L os s', sess_ok B f s h r rk L -> assigned_before_use f s l -> shows s l os s' ->
  B + size l + 4 <= k ->
  match exec_all k (Sess h r) l with
  | Done (os', s1) => os' = map Some os /\
      forall n, match vget (s_vars s1) n, s' n with
                | None, None => True
                | Some d, Some v => tree k (s_heap s1) d = Some v
                | _, _ => False end
  | ZeroHash => True
  | _ => False
  end.
Proof.
  induction l as [|c l IH]; intros B f s h r rk L os s' SO0 AB SH Hk.
  - inversion SH; subst. cbn. split; [reflexivity|]. intros n. destruct SO0 as [Inv Fin Sym Var Set0]. specialize (Var n).
    destruct (vget r n) as [d|], (s' n) as [w|]; auto. destruct Var as [Ld Md]. destruct (Fin d Ld). eapply final_tree; eauto. lia.
  - cbn [exec_all]. unfold size in Hk. cbn [map list_sum fold_right] in Hk.
    change (fold_right Nat.add 0 (map (fun c => nodes (cmd_expr c)) l)) with (size l) in Hk.
    inversion AB as [|f0 s0 e t Q AB1|f0 s0 x e v0 t Q Ax N0 Nf Nu AB1]; subst.
    + inversion SH as [| | |s1 e1 v t1 os1 s2 N SH1]; subst. cbn [cmd_expr] in Hk.
      assert (EI := eval_input B f s h r rk L e v k SO0 Q N ltac:(lia)). cbn [exec s_heap s_vars].
      destruct (alloc h e) as [a h1]. destruct (heval k r h1 a) as [[a' h']| | |]; cbn [rbind]; try contradiction; [|exact I].
      destruct EI as (rk' & L' & SO1 & La' & Ma' & T). rewrite T.
      specialize (IH _ _ _ _ _ _ _ _ _ SO1 AB1 SH1 ltac:(lia)).
      destruct (exec_all k (Sess h' r) l) as [[os' s3]| | |]; cbn [rbind]; try contradiction; [|exact I].
      destruct IH as [-> IH]. split; [reflexivity|exact IH].
    + inversion SH as [|s1 x1 e1 v t1 os1 s2 N SH1| |]; subst. cbn [cmd_expr] in Hk.
      assert (v0 = v) by (eapply norm_det; eauto; apply SO0). subst v0.
      assert (EI := eval_input B f s h r rk L e v k SO0 Q N ltac:(lia)). cbn [exec s_heap s_vars].
      destruct (alloc h e) as [a h1]. destruct (heval k r h1 a) as [[a' h']| | |]; cbn [rbind]; try contradiction; [|exact I].
      destruct EI as (rk' & L' & SO1 & La' & Ma' & T).
      destruct (set_var _ _ _ _ _ _ _ x a' v SO1 La' Ma') as [SO2 F2]; [tauto| |].
      { intros m O. eapply norm_occurs; eauto. apply SO0. }
      destruct k as [|[|k]]; try lia. rewrite (heval_final rk' L' (vset r x a') k h' a'); [|apply SO2|assumption|exact F2].
      cbn [rbind]. rewrite T. set (k2 := S (S k)) in *.
      specialize (IH _ _ _ _ _ _ _ _ _ SO2 AB1 SH1 ltac:(lia)).
      destruct (exec_all k2 (Sess h' (vset r x a')) l) as [[os' s3]| | |]; cbn [rbind]; try contradiction; [|exact I].
      destruct IH as [-> IH]. split; [reflexivity|exact IH].
Qed.
Lemma start_ok : sess_ok 0 (fun _ => False) (fun _ => None) (Heap [] []) [] (fun _ => 0) (fun _ => False).
Proof. split; [split; intros b; contradiction|contradiction|contradiction|exact (fun _ => I)|split; [discriminate|contradiction]]. Qed.
