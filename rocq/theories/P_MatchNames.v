(* The matcher only binds names of the pattern; ReplacePD is substitution. *)
From Verif Require Import M_Syntax M_Hash M_Alloc M_Match S_Alloc S_Match P_Hash P_Alloc P_MatchFuel P_MatchSound.
From Coq Require Import Permutation Relations.
Open Scope nat_scope.

Definition kin (N : string -> Prop) (pm : pdm) : Prop := forall x, In x (map fst pm) -> N x.
Lemma kin_set N pm x v : kin N pm -> N x -> kin N (pd_set pm x v).
Proof. intros H Hx y Hy. apply keys_set in Hy as [->|Hy]; [exact Hx|apply H, Hy]. Qed.
Lemma kin_update N add : forall pm, kin N pm -> kin N add -> kin N (pd_update pm add).
Proof.
  induction add as [|[k v] t IH]; intros pm H Ha; [exact H|]. rewrite update_cons. apply IH; [apply kin_set; [exact H|apply Ha; left; reflexivity]|].
  intros x Hx. apply Ha. right; exact Hx.
Qed.
Lemma kin_nil N : kin N []. Proof. intros x []. Qed.

Definition names_in (N : string -> Prop) (p : ex) : Prop := forall x, In x (pattern_names p) -> N x.
Lemma ni_in N l p : names_in N (EExpr l) -> In p l -> names_in N p.
Proof. intros H Hp x Hx. apply H. cbn [pattern_names]. apply in_or_app. right. apply in_flat_map. exists p. auto. Qed.
Lemma ni_head N h x r : names_in N (EExpr (h :: ESym x :: r)) -> is_pattern_head h = true -> N x.
Proof. intros H E. apply H. cbn [pattern_names]. rewrite E. left. reflexivity. Qed.
Lemma ni_cons N s args : (forall p, In p args -> names_in N p) -> is_pattern_head (ESym s) = false -> names_in N (EExpr (ESym s :: args)).
Proof.
  intros H E x Hx. cbn [pattern_names] in Hx. rewrite E in Hx. apply in_app_or in Hx as [Hx|Hx].
  { destruct args as [|[| | | | | |] ?]; destruct Hx. }
  cbn [flat_map pattern_names app] in Hx. apply in_flat_map in Hx as [p [Hp Hx]]. apply (H p Hp x Hx).
Qed.

Lemma ni_core N fl sh c : names_in N c -> names_in N (snd (core_spec fl sh c)).
Proof.
  intro H. unfold core_spec. destruct c as [| | | | | |[|[h| | | | | |] l]]; try exact H.
  assert (Ha : forall p, In p l -> names_in N p) by (intros p Hp; eapply ni_in; [exact H|right; exact Hp]).
  assert (B : names_in N (EExpr (sys "Blank" :: firstn 1 l))).
  { unfold sys. apply ni_cons; [|reflexivity]. intros p Hp. apply Ha. destruct l; [destruct Hp|]. destruct Hp as [<-|[]]. left; reflexivity. }
  destruct (String.eqb h nBNS); [exact B|]. destruct (String.eqb h nBS); [exact B|].
  destruct (String.eqb h nBlank).
  { destruct fl; [|exact H]. destruct l as [|[g| | | | | |] t]; try exact H. destruct (String.eqb g sh); [intros x []|exact H]. }
  destruct (String.eqb h nRepeated).
  { destruct l as [|q [|sp r]]; [exact H|apply Ha; left; reflexivity|].
    assert (Hq : names_in N q) by (apply Ha; left; reflexivity).
    destruct sp as [| | | | | |[|[lst| | | | | |] [|[| |k| | | |] [|]]]]; try exact H.
    destruct (String.eqb lst nList); [|exact H]. destruct (Z.eqb k (-1)); [exact Hq|]. destruct (Z.ltb k 0); exact Hq. }
  destruct (String.eqb h nRepeatedNull); [|exact H]. destruct l as [|q [|]]; try exact H. apply Ha. left; reflexivity.
Qed.
Lemma ni_element N fl sh p : names_in N p -> names_in N (element_pattern fl sh (view p)) /\ forall x, cv_name (view p) = Some x -> N x.
Proof.
  intro H. unfold element_pattern. rewrite view_peel. cbv zeta. cbn [cv_opt cv_test cv_core cv_name].
  set (p1 := match peel_opt p with Some (q, _) => q | None => p end).
  assert (H1 : names_in N p1).
  { subst p1. destruct (peel_opt p) as [[q r]|] eqn:E; [|exact H]. apply peel_opt_some in E as ->. eapply ni_in; [exact H|right; left; reflexivity]. }
  set (p2 := match peel_test p1 with Some (q, _) => q | None => p1 end).
  assert (H2 : names_in N p2).
  { subst p2. destruct (peel_test p1) as [[q t]|] eqn:E; [|exact H1]. apply peel_test_some in E as [r E]. rewrite E in H1. eapply ni_in; [exact H1|right; left; reflexivity]. }
  set (p3 := match peel_name p2 with Some (_, q) => q | None => p2 end).
  assert (H3 : names_in N p3).
  { subst p3. destruct (peel_name p2) as [[x q]|] eqn:E; [|exact H2]. apply peel_name_some in E as [r E]. rewrite E in H2. eapply ni_in; [exact H2|right; right; left; reflexivity]. }
  split.
  - set (c := match match peel_opt p with Some (_, r) => Some (hd_error r) | None => None end with Some _ => p3 | None => snd (core_spec fl sh p3) end).
    assert (Hc : names_in N c) by (subst c; destruct (peel_opt p) as [[q r]|]; [exact H3|apply ni_core, H3]).
    destruct (peel_test p1) as [[q t]|] eqn:E; [|exact Hc].
    apply peel_test_some in E as [r E]. rewrite E in H1.
    unfold sys. apply ni_cons; [|reflexivity]. intros y [<-|[<-|[]]]; [exact Hc|]. eapply ni_in; [exact H1|right; right; left; reflexivity].
  - intros x Hx. destruct (peel_name p2) as [[y q]|] eqn:E; [|discriminate Hx]. injection Hx as ->. apply peel_name_some in E as [r E]. rewrite E in H2.
    apply (ni_head N (ESym nPattern) x (q :: r) H2). reflexivity.
Qed.
(* what matching the parts of b needs *)
Definition top_in (N : string -> Prop) (b : ex) : Prop :=
  (forall l p, b = EExpr l -> In p l -> names_in N p) /\ (forall x r, b = EExpr (ESym nPattern :: ESym x :: r) -> N x).
Lemma ni_top N b : names_in N b -> top_in N b.
Proof. intro H. split; [intros l p -> Hp; eapply ni_in; eauto|]. intros x r ->. apply (ni_head N _ _ _ H). reflexivity. Qed.
Lemma ni_verbatim N a b b' : verbatim_op a b = Some b' -> names_in N b -> top_in N b'.
Proof.
  unfold verbatim_op. destruct a as [| | | | | |[|h ta]]; try discriminate. destruct b as [| | | | | |[|[| | | | | |[|[s| | | | | |] [|v [|]]]] args]]; try discriminate.
  destruct (String.eqb_spec s nVerbatim) as [->|]; [|discriminate]. destruct (is_sameq h v); [|discriminate]. intro E; injection E as <-. intros H. split.
  - intros l p El Hp. injection El as <-. destruct Hp as [<-|Hp]; [|eapply ni_in; [exact H|right; exact Hp]].
    eapply ni_in; [eapply ni_in; [exact H|left; reflexivity]|right; left; reflexivity].
  - intros x r El. injection El as -> ->. apply (ni_head N _ _ _ H). reflexivity.
Qed.

Definition key_at (M : matcher) (a b : ex) : Prop := forall N pm, names_in N b -> kin N pm ->
  kin N (snd (M a b pm)) /\ forall m, In m (fst (M a b pm)) -> kin N m.

Section keys.
  Variable env : menv.
  Lemma comps_key M N form : names_in N form -> (forall c, key_at M c form) -> forall comps pm pm', kin N pm -> In pm' (ami_comps M form comps pm) -> kin N pm'.
  Proof.
    intros Hn HM. induction comps as [|c r IH]; intros pm pm' K Hin.
    - destruct Hin as [<-|[]]. exact K.
    - cbn [ami_comps] in Hin. destruct (HM c N pm Hn K) as [K1 Km]. destruct (M c form pm) as [ms pm1]. cbn [fst snd] in *.
      apply in_flat_map in Hin as [m [Hm Hin]]. eapply IH; [|exact Hin]. apply kin_update; [exact K1|apply Km, Hm].
  Qed.
  Lemma forms_key M N sh : forall bl, (forall x, In x bl -> names_in N (pf_form (fst x)) /\ (forall y, pf_pat (fst x) = Some y -> N y) /\ forall c, key_at M c (pf_form (fst x))) ->
    forall pm pm', kin N pm -> In pm' (ami_forms M env sh bl pm) -> kin N pm'.
  Proof.
    induction bl as [|[lhs comps] bl IH]; intros HM pm pm' K Hin.
    - destruct Hin as [<-|[]]. exact K.
    - cbn [ami_forms] in Hin. apply in_flat_map in Hin as [pm1 [H1 Hin]]. destruct (HM _ (or_introl eq_refl)) as [A [B C]]. cbn [fst] in *.
      pose proof (comps_key M N _ A C comps pm pm1 K H1) as K1.
      destruct (define_sequence env lhs comps sh pm1) as [pm2|] eqn:D; [|destruct Hin].
      eapply IH; [intros x Hx; apply HM; right; exact Hx| |exact Hin].
      unfold define_sequence in D. destruct (pf_pat lhs) as [x|] eqn:Ep; [|injection D as <-; exact K1].
      destruct (pd_get pm1 x); [destruct (is_sameq _ _); [|discriminate D]|]; injection D as <-; apply kin_set; auto.
  Qed.
  Lemma parts_key M N fo la lb pm pm' : (forall p, In p lb -> names_in N p) -> (forall p, ex_size p < ex_size (EExpr lb) -> forall c, key_at M c p) -> kin N pm ->
    In pm' (match_parts M env fo la lb pm) -> kin N pm'.
  Proof.
    intros Hn HM K Hin.
    assert (D : forall ps comps fl sh ord, (forall p, In p ps -> In p lb) ->
       In pm' (seq_match M env comps (map (fun p => parse_form p fl sh (me_default env sh)) ps) ord sh pm) -> kin N pm').
    { intros ps comps fl sh ord Hps Q. unfold seq_match in Q. destruct (enough_matches _ _ _); [|destruct Q].
      apply in_flat_map in Q as [assn [_ Q]]. eapply forms_key; [|exact K|exact Q].
      intros [f bl] Hx. apply in_combine_l in Hx. apply in_map_iff in Hx as [p [<- Hp]]. cbn [fst]. rewrite parse_form_view. cbn [pform_of pf_pat pf_form].
      destruct (ni_element N fl sh p (Hn p (Hps p Hp))) as [A B]. split; [exact A|]. split; [exact B|]. intro c. apply HM.
      pose proof (element_size fl sh p). pose proof (in_size p lb (Hps p Hp)). lia. }
    unfold match_parts in Hin.
    destruct la as [|[s| | | | | |] ta]; try (revert Hin; apply D; auto; fail).
    destruct lb as [|[s'| | | | | |] tb]; try (revert Hin; apply D; auto; fail).
    destruct (String.eqb s s'); [|revert Hin; apply D; auto]. revert Hin. apply D. intros p Hp; right; exact Hp.
  Qed.
  Lemma capture_key N b a hd pm : top_in N b -> kin N pm -> kin N (snd (blank_capture b a hd pm)).
  Proof.
    intros [_ T] K. unfold blank_capture. destruct (args_of b nPattern) as [[|s [|q r]]|] eqn:E.
    1,2,4: destruct (blank_like b); exact K.
    apply args_of_some in E. destruct (blank_like q); [|exact K]. destruct (blank_head_ok l hd); [|exact K].
    destruct s as [n| | | | | |]; try exact K. destruct (pd_get pm n); [exact K|]. apply kin_set; [exact K|]. apply (T n (q :: r) E).
  Qed.
  Lemma key_normal M a b : (forall c f, pat_fuel c f < pat_fuel a b -> key_at M c f) -> key_at (fun x y => match_normal M env x y) a b.
  Proof.
    intros HM N pm Hn K. unfold match_normal.
    set (bf := match verbatim_op a b with Some b' => (b', true) | None => (b, false) end).
    assert (Hb : ex_size (fst bf) <= ex_size b /\ top_in N (fst bf) /\ (is_num_atom a = true -> names_in N (fst bf))).
    { unfold bf. destruct (verbatim_op a b) eqn:V; (split; [|split]).
      - apply (verbatim_size _ _ _ V).
      - apply (ni_verbatim N _ _ _ V Hn).
      - intro Q. rewrite (verbatim_num a b Q) in V. discriminate.
      - reflexivity.
      - apply ni_top, Hn.
      - intros _. exact Hn. }
    destruct bf as [b' fo]. cbn [fst] in Hb. destruct Hb as [Hb [Ht Hnum]].
    destruct (is_blank_type_only b').
    { pose proof (capture_key N b' a (head_ex a) pm Ht K) as Q. destruct (blank_capture b' a (head_ex a) pm) as [ok pm1]. cbn [snd] in Q.
      destruct ok; cbn [fst snd]; (split; [apply Q|]); [|intros m []]. intros m [<-|[]]. exact Q. }
    assert (First : forall c, pat_fuel c b' < pat_fuel a b -> is_num_atom a = true ->
      let r := (let '(ms, pm1) := M c b' pm in (match ms with [] => [] | m :: _ => [m] end, pm1)) in kin N (snd r) /\ forall m, In m (fst r) -> kin N m).
    { intros c L Q. destruct (HM c b' L N pm (Hnum Q) K) as [A C]. destruct (M c b' pm) as [ms pm1]. cbn [fst snd] in *.
      split; [exact A|]. intros m Hm. apply C. destruct ms; [destruct Hm|]. destruct Hm as [->|[]]. left. reflexivity. }
    assert (Parts : forall la, is_expr b' = true -> let r := (match_parts M env fo la (parts_of b') pm, pm) in kin N (snd r) /\ forall m, In m (fst r) -> kin N m).
    { intros la He. cbn. split; [exact K|]. intros m Hm. destruct b' as [| | | | | |lb]; try discriminate.
      eapply parts_key; [|  |exact K|exact Hm].
      - intros p Hp. apply (proj1 Ht _ p eq_refl Hp).
      - intros p Hp c. apply HM. unfold pat_fuel. cbn [parts_of] in Hp. destruct (is_num_atom c), (is_num_atom a); lia. }
    assert (Nil : kin N (snd (@nil pdm, pm)) /\ forall m, In m (fst (@nil pdm, pm)) -> kin N m) by (cbn; split; [exact K|intros m []]).
    assert (Atom : forall q : bool, let r := (if q then [[]] else [] : list pdm, pm) in kin N (snd r) /\ forall m, In m (fst r) -> kin N m).
    { intros q. cbn. split; [exact K|]. destruct q; intros m Hm; [|destruct Hm]. destruct Hm as [<-|[]]. apply kin_nil. }
    destruct (is_expr b') eqn:Eb.
    2: { destruct b'; try discriminate Eb; destruct a; cbn [assume_head]; first [apply Atom|apply Nil]. }
    destruct b' as [| | | | | |lb]; try discriminate Eb.
    destruct a as [s|s|z|n d|f|r i|la].
    4,6: apply First; [unfold pat_fuel; cbn [is_num_atom]; lia|reflexivity].
    all: destruct (assume_head env _ (EExpr lb)) as [a'|]; [apply Parts; auto|]; try apply Atom.
    apply (Parts la); auto.
  Qed.
  Lemma key_alts M N a ps : (forall p, In p ps -> key_at M a p /\ names_in N p) -> forall pm, kin N pm ->
    kin N (snd (match_alts M a ps pm)) /\ forall m, In m (fst (match_alts M a ps pm)) -> kin N m.
  Proof.
    induction ps as [|p t IH]; intros H pm K; cbn [match_alts].
    - cbn. split; [exact K|intros m []].
    - destruct (H p (or_introl eq_refl)) as [Kp Np]. destruct (Kp N pm Np K) as [A C]. destruct (M a p pm) as [ms pm1]. cbn [fst snd] in *.
      destruct ms as [|m ms]; cbn [fst snd]; [apply IH; [intros q Hq; apply H; right; exact Hq|exact A]|].
      split; [exact A|]. intros m' [<-|[]]. apply C. left. reflexivity.
  Qed.
  Lemma key_step M a b : (forall c f, pat_fuel c f < pat_fuel a b -> key_at M c f) -> key_at (fun x y => mi_step M env x y) a b.
  Proof.
    intro HM. pose proof (key_normal M a b HM) as Nm. unfold key_at in Nm. cbv beta in Nm. intros N pm Hn K.
    assert (P : forall args s, b = EExpr (ESym s :: args) -> forall p, In p args -> key_at M a p /\ names_in N p).
    { intros args s -> p Hp. split; [|eapply ni_in; [exact Hn|right; exact Hp]]. apply HM. unfold pat_fuel. rewrite size_cons, size_sym. pose proof (in_size p args Hp). lia. }
    specialize (fun pm => Nm N pm Hn).
    unfold mi_step. destruct b as [| | | | | |[|[s| | | | | |] args]]; try (apply Nm, K).
    specialize (P args s eq_refl).
    assert (Q : forall p pm, In p args -> kin N pm -> kin N (snd (M a p pm)) /\ forall m, In m (fst (M a p pm)) -> kin N m).
    { intros p qm Hp Kq. destruct (P p Hp) as [A B]. apply (A N qm B Kq). }
    destruct (String.eqb s nExcept).
    { destruct args as [|p [|q [|]]]; try (apply Nm, K).
      - destruct (Q p pm (or_introl eq_refl) K) as [A C]. destruct (M a p pm) as [ms pm1]. cbn [fst snd] in *.
        destruct ms; cbn [fst snd]; (split; [exact A|]); [|intros m []]. intros m [<-|[]]. exact A.
      - destruct (Q p pm (or_introl eq_refl) K) as [A C]. destruct (M a p pm) as [ms pm1]. cbn [fst snd] in *.
        destruct ms; cbn [fst snd]; [|split; [exact A|intros m []]].
        destruct (Q q pm1 (or_intror (or_introl eq_refl)) A) as [A' C']. destruct (M a q pm1) as [ms2 pm2]. cbn [fst snd] in *.
        split; [exact A'|]. intros m Hm. apply C'. destruct ms2; [destruct Hm|]. destruct Hm as [->|[]]. left. reflexivity. }
    destruct (String.eqb s nAlt); [apply key_alts; [exact P|exact K]|].
    destruct (String.eqb s nPatTest).
    { destruct args as [|p [|q [|]]]; try (apply Nm, K).
      destruct (Q p pm (or_introl eq_refl) K) as [A C]. destruct (M a p pm) as [ms pm1]. cbn [fst snd] in *.
      destruct ms as [|m0 ms]; cbn [fst snd]; [split; [exact A|intros m []]|].
      assert (G : forall (t : bool), let r := ((if t then [m0] else []), pm1) in kin N (snd r) /\ forall m, In m (fst r) -> kin N m).
      { intros t. cbn. split; [exact A|]. destruct t; intros m Hm; [|destruct Hm]. destruct Hm as [<-|[]]. apply C. left. reflexivity. }
      destruct (match q with ESym tn => _ | _ => _ end); apply G. }
    destruct (String.eqb s nCondition).
    { destruct args as [|p [|q [|]]]; try (apply Nm, K).
      destruct (Q p pm (or_introl eq_refl) K) as [A C]. destruct (M a p pm) as [ms pm1]. cbn [fst snd] in *.
      destruct (filter _ ms) as [|m0 r] eqn:F; cbn [fst snd]; [apply Nm, A|].
      split; [exact A|]. intros m [<-|[]]. apply C.
      assert (X : In m0 (m0 :: r)) by (left; reflexivity). rewrite <- F in X. apply filter_In in X. apply X. }
    destruct (String.eqb s nOptional).
    { destruct args as [|p [|q]]; try (apply Nm, K).
      destruct (Q p pm (or_introl eq_refl) K) as [A C]. destruct (M a p pm) as [ms pm1]. cbn [fst snd] in *.
      destruct ms as [|m0 r]; cbn [fst snd]; [apply Nm, A|].
      split; [exact A|]. intros m [<-|[]]. apply C. left. reflexivity. }
    destruct (String.eqb s nHoldPattern); [|apply Nm, K].
    destruct args as [|p [|q]]; try (apply Nm, K). apply Q; [left; reflexivity|exact K].
  Qed.
  Lemma key_all : forall n a b, pat_fuel a b < n -> key_at (match_iter env) a b.
  Proof.
    induction n as [|n IH]; intros a b L; [lia|]. intros N pm. rewrite match_iter_eq.
    apply (key_step (match_iter env) a b). intros c f Lc. apply IH. lia.
  Qed.
  Lemma key_match a b pm m x : In m (fst (match_iter env a b pm)) -> In x (map fst m) -> In x (map fst pm) \/ In x (pattern_names b).
  Proof.
    intros Hm Hx. refine (proj2 (key_all (S (pat_fuel a b)) a b _ (fun x => In x (map fst pm) \/ In x (pattern_names b)) pm _ _) m Hm x Hx); [lia| |].
    - intros y Hy. right; exact Hy.
    - intros y Hy. left; exact Hy.
  Qed.
End keys.

(* ---- ReplacePD ---- *)
Lemma contains_occurs x e : contains_symbol e x = true <-> occurs x e.
Proof.
  induction e as [s|s|z|n d|f|a1 a2 IH1 IH2|l IH] using ex_ind'; cbn [contains_symbol]; try (split; [discriminate|intro H; inversion H]).
  - rewrite String.eqb_eq. split; [intros ->; constructor|intro H; inversion H; reflexivity].
  - rewrite existsb_exists, Forall_forall in *. split.
    + intros [p [Hp Hc]]. econstructor; [exact Hp|]. apply IH; assumption.
    + intro H. inversion H as [|l' p Hp Ho]; subst. exists p. split; [exact Hp|]. apply IH; assumption.
Qed.
Lemma replace_pd_subst pm e : subst pm e (replace_pd pm e).
Proof.
  induction e as [s|s|z|n d|f|a1 a2 IH1 IH2|l IH] using ex_ind'; cbn [replace_pd]; try (apply S_other; reflexivity).
  - destruct (pd_get pm s) as [v|] eqn:E; constructor; exact E.
  - constructor. induction IH as [|x l Hx _ IHl]; cbn [map]; constructor; assumption.
Qed.
Lemma subst_unique pm e : forall e1 e2, subst pm e e1 -> subst pm e e2 -> e1 = e2.
Proof.
  induction e as [s|s|z|n d|f|a1 a2 IH1 IH2|l IH] using ex_ind'; intros e1 e2 H1 H2; inversion H1; inversion H2; subst; try congruence; try discriminate.
  match goal with A : Forall2 _ l ?x, B : Forall2 _ l ?y |- _ => rename A into F1; rename B into F2; rename x into l1; rename y into l2 end.
  f_equal. clear H1 H2. revert l1 l2 F1 F2. induction IH as [|x l Hx _ IHl]; intros l1 l2 F1 F2; inversion F1; inversion F2; subst; [reflexivity|].
  f_equal; [apply Hx; assumption|apply IHl; assumption].
Qed.
Lemma subst_fresh pm e : (forall x, In x (map fst pm) -> ~ occurs x e) -> subst pm e e.
Proof.
  induction e as [s|s|z|n d|f|a1 a2 IH1 IH2|l IH] using ex_ind'; intro H; try (apply S_other; reflexivity).
  - apply S_free. apply pd_get_none. intro Q. apply (H s Q). constructor.
  - apply S_parts. assert (G : forall l', (forall p, In p l' -> In p l) -> Forall2 (subst pm) l' l').
    { induction l' as [|p l' IHl]; intro Q; constructor; [|apply IHl; intros q Hq; apply Q; right; exact Hq].
      rewrite Forall_forall in IH. apply IH; [apply Q; left; reflexivity|]. intros x Hx Ho. apply (H x Hx). econstructor; [apply Q; left; reflexivity|exact Ho]. }
    apply G. auto.
Qed.
Lemma replace_pd_go_eq pm e : replace_pd_go pm e = replace_pd pm e.
Proof.
  unfold replace_pd_go. destruct (existsb (contains_symbol e) (map fst pm)) eqn:E; [reflexivity|].
  apply (subst_unique pm e); [|apply replace_pd_subst]. apply subst_fresh. intros x Hx Ho. apply contains_occurs in Ho.
  assert (existsb (contains_symbol e) (map fst pm) = true) by (apply existsb_exists; exists x; auto). congruence.
Qed.
