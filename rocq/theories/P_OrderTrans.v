From Verif Require Import M_Syntax M_Float M_Order S_Syntax S_Order P_Float P_Order.
From Coq Require Import ZifyBool ZifyNat.
Open Scope Z_scope.

Lemma order_anti a b : wf a = true -> wf b = true -> ex_order b a = - ex_order a b.
Proof. intros Ha Hb. apply (order_anti_range a b Ha Hb). Qed.
Lemma order_range a b : wf a = true -> wf b = true -> -1 <= ex_order a b <= 1.
Proof. intros Ha Hb. apply (order_anti_range a b Ha Hb). Qed.
Lemma order_refl a : wf a = true -> ex_order a a = 0.
Proof. intro H. pose proof (order_anti a a H H). lia. Qed.

(* "trans at x y z" in a form that also gives strictness *)
Definition tr (r : ex -> ex -> Z) (x y z : ex) : Prop :=
  0 <= r x y -> 0 <= r y z -> 0 <= r x z /\ (r x z = 0 -> r x y = 0 /\ r y z = 0).

Section LexTrans.
  Variable r : ex -> ex -> Z.
  Definition fine (la lb : list ex) : Prop :=
    0 < lex r la lb \/ (lex r la lb = 0 /\ length la = length lb).
  Lemma lex_trans la : forall lb lc,
    (forall x y z, In x la -> In y lb -> In z lc -> tr r x y z) ->
    fine la lb -> fine lb lc ->
    fine la lc /\ (lex r la lc = 0 -> lex r la lb = 0 /\ lex r lb lc = 0).
  Proof.
    unfold fine.
    induction la as [|x ta IH]; intros [|y tb] [|z tc] HT; cbn [lex length]; try lia.
    intros Hab Hbc.
    pose proof (HT x y z (or_introl eq_refl) (or_introl eq_refl) (or_introl eq_refl)) as T.
    unfold tr in T.
    assert (HT' : forall x y z, In x ta -> In y tb -> In z tc -> tr r x y z)
      by (intros; apply HT; right; assumption).
    specialize (IH tb tc HT').
    destruct (Z.eqb_spec (r x y) 0) as [E1|E1], (Z.eqb_spec (r y z) 0) as [E2|E2],
      (Z.eqb_spec (r x z) 0) as [E3|E3]; try lia.
  Qed.
End LexTrans.

(* cmp_plain is a length-then-lexicographic preorder *)
Lemma cmp_plain_trans r la lb lc :
  (forall x y z, In x la -> In y lb -> In z lc -> tr r x y z) ->
  0 <= cmp_plain r la lb -> 0 <= cmp_plain r lb lc ->
  0 <= cmp_plain r la lc /\ (cmp_plain r la lc = 0 -> cmp_plain r la lb = 0 /\ cmp_plain r lb lc = 0).
Proof.
  intros HT. unfold cmp_plain. pose proof (lex_trans r la lb lc HT) as L. unfold fine in L.
  destruct (Nat.ltb_spec (length la) (length lb)), (Nat.ltb_spec (length lb) (length la)); try lia;
  destruct (Nat.ltb_spec (length lb) (length lc)), (Nat.ltb_spec (length lc) (length lb)); try lia;
  destruct (Nat.ltb_spec (length la) (length lc)), (Nat.ltb_spec (length lc) (length la)); try lia.
Qed.

(* product comparison: numbers identified *)
Definition rid (r : ex -> ex -> Z) (x y : ex) : Z := if numberQ x && numberQ y then 0 else r x y.

Lemma lex_back_lex r la : forall lb, lex_back r la lb = lex (rid r) la lb.
Proof.
  induction la as [|x ta IH]; intros [|y tb]; cbn [lex_back lex]; try reflexivity.
  assert (E : rid r x y = if numberQ x && numberQ y then 0 else r x y) by reflexivity.
  rewrite E, IH. destruct (numberQ x && numberQ y); reflexivity.
Qed.

Lemma order_num_lt x y : wf x = true -> numberQ x = true -> numberQ y = false -> ex_order x y = 1.
Proof.
  intros Hx Nx Ny. destruct (wf_number x Hx Nx) as [f Hf].
  rewrite ex_order_eq. unfold order_step. rewrite Hf, (non_number_flt y Ny).
  destruct x; try discriminate Nx; destruct y; try discriminate Ny; reflexivity.
Qed.

Lemma order_num_gt x y : wf y = true -> numberQ x = false -> numberQ y = true -> ex_order x y = -1.
Proof.
  intros Hy Nx Ny. destruct (wf_number y Hy Ny) as [f Hf].
  rewrite ex_order_eq. unfold order_step. rewrite Hf, (non_number_flt x Nx).
  destruct x; try discriminate Nx; destruct y; try discriminate Ny; reflexivity.
Qed.

Lemma rid_tr x y z : wf x = true -> wf y = true -> wf z = true ->
  tr ex_order x y z -> tr (rid ex_order) x y z.
Proof.
  unfold tr, rid. intros Hx Hy Hz T.
  destruct (numberQ x) eqn:Nx, (numberQ y) eqn:Ny, (numberQ z) eqn:Nz; cbn [andb]; auto;
    try lia.
  - rewrite (order_num_lt y z), (order_num_lt x z) by assumption. lia.
  - rewrite (order_num_gt y z) by assumption. lia.
  - rewrite (order_num_gt x y) by assumption. lia.
Qed.

(* aligned number comparison *)
Lemma lex_nums_trans r la : forall lb lc,
  (forall x y z, In x la -> In y lb -> In z lc -> tr r x y z) ->
  Forall2 (fun x y => numberQ x = numberQ y) la lb ->
  Forall2 (fun x y => numberQ x = numberQ y) lb lc ->
  0 <= lex_nums r la lb -> 0 <= lex_nums r lb lc ->
  0 <= lex_nums r la lc /\ (lex_nums r la lc = 0 -> lex_nums r la lb = 0 /\ lex_nums r lb lc = 0).
Proof.
  induction la as [|x ta IH]; intros lb lc HT F1 F2.
  { inversion F1; subst. inversion F2; subst. cbn. lia. }
  inversion F1 as [|? y ? tb E1 F1']; subst. inversion F2 as [|? z ? tc E2 F2']; subst.
  pose proof (HT x y z (or_introl eq_refl) (or_introl eq_refl) (or_introl eq_refl)) as T.
  assert (HT' : forall x y z, In x ta -> In y tb -> In z tc -> tr r x y z)
      by (intros; apply HT; right; assumption).
  specialize (IH tb tc HT' F1' F2'). cbn [lex_nums].
  rewrite E1, E2. destruct (numberQ z); cbn [andb]; [|assumption].
  unfold tr in T.
  destruct (Z.eqb_spec (r x y) 0) as [G1|G1], (Z.eqb_spec (r y z) 0) as [G2|G2],
      (Z.eqb_spec (r x z) 0) as [G3|G3]; try lia.
Qed.

Lemma lex_back_zero_aligned ra : forall rb,
  (forall x, In x ra -> wf x = true) -> (forall x, In x rb -> wf x = true) ->
  length ra = length rb -> lex_back ex_order ra rb = 0 ->
  Forall2 (fun x y => numberQ x = numberQ y) ra rb.
Proof.
  induction ra as [|x ta IH]; intros [|y tb] W1 W2; cbn [length lex_back]; try discriminate; [constructor|].
  intros Hl H0. injection Hl as Hl.
  assert (Wx : wf x = true) by (apply W1; left; reflexivity).
  assert (Wy : wf y = true) by (apply W2; left; reflexivity).
  assert (W1' : forall x, In x ta -> wf x = true) by (intros; apply W1; right; assumption).
  assert (W2' : forall x, In x tb -> wf x = true) by (intros; apply W2; right; assumption).
  destruct (numberQ x) eqn:Nx, (numberQ y) eqn:Ny; cbn [andb] in H0.
  - constructor; [congruence|]. apply IH; assumption.
  - rewrite (order_num_lt x y) in H0 by assumption. discriminate H0.
  - rewrite (order_num_gt x y) in H0 by assumption. discriminate H0.
  - constructor; [congruence|]. destruct (Z.eqb_spec (ex_order x y) 0); [|contradiction].
    apply IH; assumption.
Qed.

Lemma Forall2_rev_iff {A} (R : A -> A -> Prop) l l' : Forall2 R (rev l) (rev l') -> Forall2 R l l'.
Proof.
  assert (H : forall l l', Forall2 R l l' -> Forall2 R (rev l) (rev l')).
  { clear. induction 1; cbn; [constructor|]. apply Forall2_app; [assumption|]. constructor; auto. }
  intro F. apply H in F. rewrite !rev_involutive in F. exact F.
Qed.

(* zero backward comparison forces equal length *)
Definition zlen (la lb : list ex) : Prop :=
  lex_back ex_order (rev la) (rev lb) = 0 -> length la = length lb.

Lemma cmp_times_trans la lb lc :
  (forall x, In x la -> wf x = true) -> (forall x, In x lb -> wf x = true) ->
  (forall x, In x lc -> wf x = true) ->
  (forall x y z, In x la -> In y lb -> In z lc -> tr ex_order x y z) ->
  zlen la lb -> zlen lb lc ->
  0 <= cmp_times ex_order la lb -> 0 <= cmp_times ex_order lb lc ->
  0 <= cmp_times ex_order la lc /\
  (cmp_times ex_order la lc = 0 -> cmp_times ex_order la lb = 0 /\ cmp_times ex_order lb lc = 0).
Proof.
  intros Wa Wb Wc HT Zab Zbc.
  assert (L : fine (rid ex_order) (rev la) (rev lb) -> fine (rid ex_order) (rev lb) (rev lc) ->
     fine (rid ex_order) (rev la) (rev lc) /\
     (lex (rid ex_order) (rev la) (rev lc) = 0 ->
      lex (rid ex_order) (rev la) (rev lb) = 0 /\ lex (rid ex_order) (rev lb) (rev lc) = 0)).
  { apply lex_trans. intros x y z Hx Hy Hz. rewrite <- in_rev in Hx, Hy, Hz.
    apply rid_tr; auto. }
  unfold fine in L. rewrite <- !lex_back_lex, !rev_length in L.
  unfold zlen in Zab, Zbc. unfold cmp_times.
  assert (AL : forall la lb, (forall x, In x la -> wf x = true) -> (forall x, In x lb -> wf x = true) ->
     lex_back ex_order (rev la) (rev lb) = 0 -> length la = length lb ->
     Forall2 (fun x y => numberQ x = numberQ y) la lb).
  { intros l l' W W' Hz Hl. apply Forall2_rev_iff. apply lex_back_zero_aligned; auto.
    - intros x Hx; rewrite <- in_rev in Hx; auto.
    - intros x Hx; rewrite <- in_rev in Hx; auto.
    - rewrite !rev_length; assumption. }
  destruct (Z.eqb_spec (lex_back ex_order (rev la) (rev lb)) 0) as [E1|E1];
  destruct (Z.eqb_spec (lex_back ex_order (rev lb) (rev lc)) 0) as [E2|E2];
  destruct (Z.eqb_spec (lex_back ex_order (rev la) (rev lc)) 0) as [E3|E3]; cbn [negb]; try lia.
  pose proof (lex_nums_trans ex_order la lb lc HT (AL la lb Wa Wb E1 (Zab E1)) (AL lb lc Wb Wc E2 (Zbc E2))) as N.
  specialize (Zab E1). specialize (Zbc E2).
  destruct (Nat.ltb_spec (length la) (length lb)), (Nat.ltb_spec (length lb) (length la)); try lia;
  destruct (Nat.ltb_spec (length lb) (length lc)), (Nat.ltb_spec (length lc) (length lb)); try lia;
  destruct (Nat.ltb_spec (length la) (length lc)), (Nat.ltb_spec (length lc) (length la)); try lia.
  destruct (Z.eqb_spec (lex_nums ex_order la lb) 0) as [G1|G1];
  destruct (Z.eqb_spec (lex_nums ex_order lb lc) 0) as [G2|G2];
  destruct (Z.eqb_spec (lex_nums ex_order la lc) 0) as [G3|G3]; cbn [negb]; try lia.
Qed.

(* ---- class C: symbols and expressions ---- *)
Definition inC (e : ex) : bool := match e with ESym _ | EExpr _ => true | _ => false end.
Definition times_e (e : ex) : bool := match e with EExpr l => is_times l | _ => false end.
Definition power_e (e : ex) : bool := match e with EExpr l => is_power l | _ => false end.
Definition toT (e : ex) : list ex := match e with EExpr l => if is_times l then l else wrap_times e | _ => wrap_times e end.
Definition toP (e : ex) : list ex := match e with EExpr l => if is_power l then l else wrap_power e | _ => wrap_power e end.

Lemma toT_times e : times_e e = true -> exists l, e = EExpr l /\ toT e = l.
Proof. destruct e; cbn; try discriminate. intros ->. eauto. Qed.
Lemma toT_wrap e : times_e e = false -> toT e = wrap_times e.
Proof. destruct e; cbn; try reflexivity. intros ->. reflexivity. Qed.
Lemma toP_power e : power_e e = true -> exists l, e = EExpr l /\ toP e = l.
Proof. destruct e; cbn; try discriminate. intros ->. eauto. Qed.
Lemma toP_wrap e : power_e e = false -> toP e = wrap_power e.
Proof. destruct e; cbn; try reflexivity. intros ->. reflexivity. Qed.

Lemma order_int_refl z : ex_order (EInt z) (EInt z) = 0.
Proof. rewrite ex_order_eq. cbn. rewrite Z.compare_refl. reflexivity. Qed.
Lemma order_sym_refl s : ex_order (ESym s) (ESym s) = 0.
Proof. rewrite ex_order_eq. cbn. apply compare_strings_zero. reflexivity. Qed.

Lemma cmp_times_wrapped a b : inC a = true ->
  cmp_times ex_order (wrap_times a) (wrap_times b) = ex_order a b.
Proof.
  intro Ha. assert (Na : numberQ a = false) by (destruct a; try discriminate Ha; reflexivity).
  unfold cmp_times, wrap_times. cbn [rev app lex_back lex_nums length Nat.ltb Nat.leb].
  rewrite Na. cbn [andb numberQ]. rewrite order_int_refl, order_sym_refl.
  destruct (Z.eqb_spec (ex_order a b) 0) as [->|E]; cbn; [reflexivity|].
  destruct (Z.eqb_spec (ex_order a b) 0); [contradiction|reflexivity].
Qed.

Lemma cmp_plain_wrapped a b : cmp_plain ex_order (wrap_power a) (wrap_power b) = ex_order a b.
Proof.
  unfold cmp_plain, wrap_power. cbn [length Nat.ltb Nat.leb lex].
  rewrite order_int_refl, order_sym_refl. cbn.
  destruct (Z.eqb_spec (ex_order a b) 0) as [->|E]; reflexivity.
Qed.

Lemma order_toT a b : inC a = true -> inC b = true ->
  ex_order a b = cmp_times ex_order (toT a) (toT b).
Proof.
  intros Ha Hb.
  destruct (times_e a) eqn:Ta, (times_e b) eqn:Tb.
  - destruct a as [| | | | | |la]; try discriminate Ta. destruct b as [| | | | | |lb]; try discriminate Tb.
    cbn in Ta, Tb. cbn [toT]. rewrite Ta, Tb, ex_order_eq. cbn [order_step as_flt].
    unfold cmp_exprs. rewrite Ta, Tb, (is_times_power _ Ta), (is_times_power _ Tb). reflexivity.
  - destruct a as [| | | | | |la]; try discriminate Ta. cbn in Ta.
    rewrite (toT_wrap b Tb). cbn [toT]. rewrite Ta.
    destruct b as [s| | | | | |lb]; try discriminate Hb; rewrite ex_order_eq; cbn [order_step as_flt].
    + rewrite (is_times_power _ Ta), Ta. reflexivity.
    + cbn in Tb. unfold cmp_exprs. rewrite Ta, Tb, (is_times_power _ Ta). reflexivity.
  - destruct b as [| | | | | |lb]; try discriminate Tb. cbn in Tb.
    rewrite (toT_wrap a Ta). cbn [toT]. rewrite Tb.
    destruct a as [s| | | | | |la]; try discriminate Ha; rewrite ex_order_eq; cbn [order_step as_flt].
    + rewrite (is_times_power _ Tb), Tb. reflexivity.
    + cbn in Ta. unfold cmp_exprs. rewrite Ta, Tb. reflexivity.
  - rewrite (toT_wrap a Ta), (toT_wrap b Tb). symmetry. apply cmp_times_wrapped. assumption.
Qed.

Lemma order_toP a b : inC a = true -> inC b = true -> times_e a = false -> times_e b = false ->
  ex_order a b = cmp_plain ex_order (toP a) (toP b).
Proof.
  intros Ha Hb Ta Tb.
  destruct (power_e a) eqn:Pa, (power_e b) eqn:Pb.
  - destruct a as [| | | | | |la]; try discriminate Pa. destruct b as [| | | | | |lb]; try discriminate Pb.
    cbn in Ta, Tb, Pa, Pb. cbn [toP]. rewrite Pa, Pb, ex_order_eq. cbn [order_step as_flt].
    unfold cmp_exprs. rewrite Ta, Tb, Pa, Pb. reflexivity.
  - destruct a as [| | | | | |la]; try discriminate Pa. cbn in Ta, Pa.
    rewrite (toP_wrap b Pb). cbn [toP]. rewrite Pa.
    destruct b as [s| | | | | |lb]; try discriminate Hb; rewrite ex_order_eq; cbn [order_step as_flt].
    + rewrite Pa. reflexivity.
    + cbn in Tb, Pb. unfold cmp_exprs. rewrite Ta, Tb, Pa, Pb. reflexivity.
  - destruct b as [| | | | | |lb]; try discriminate Pb. cbn in Tb, Pb.
    rewrite (toP_wrap a Pa). cbn [toP]. rewrite Pb.
    destruct a as [s| | | | | |la]; try discriminate Ha; rewrite ex_order_eq; cbn [order_step as_flt].
    + rewrite Pb. reflexivity.
    + cbn in Ta, Pa. unfold cmp_exprs. rewrite Ta, Tb, Pa, Pb. reflexivity.
  - rewrite (toP_wrap a Pa), (toP_wrap b Pb). symmetry. apply cmp_plain_wrapped.
Qed.

(* the symbol Times compares equal only to itself among tidy expressions *)
Definition symT := ESym nTimes.

Lemma last_in_tl {A} (x : A) l d : l <> [] -> In (last (x :: l) d) l.
Proof.
  revert x. induction l as [|y t IH]; intros x H; [contradiction|].
  destruct t as [|z t']; [left; reflexivity|].
  change (last (x :: y :: z :: t') d) with (last (y :: z :: t') d).
  right. apply IH. discriminate.
Qed.

Lemma rev_last {A} (l : list A) d : l <> [] -> rev l = last l d :: rev (removelast l).
Proof.
  intro H. rewrite (app_removelast_last d H) at 1. rewrite rev_app_distr. reflexivity.
Qed.

Lemma T_nonzero : forall n y, (ex_size y <= n)%nat -> wf y = true -> tidy y = true ->
  bare_times y = false -> ex_order symT y <> 0.
Proof.
  induction n as [|n IH]; intros y Hn Wy Ty Bt; [pose proof (ex_size_pos y); lia|].
  destruct (numberQ y) eqn:Ny.
  { unfold symT. rewrite (order_num_gt (ESym nTimes) y Wy eq_refl Ny). lia. }
  destruct y as [s|s|z|a b|f|re im|l]; try discriminate Ny.
  - rewrite ex_order_eq. cbn [order_step symT as_flt]. intro H. apply compare_strings_zero in H.
    subst s. discriminate Bt.
  - rewrite ex_order_eq. cbn. lia.
  - destruct l as [|h args]; [discriminate Wy|].
    destruct (tidy_args h args Ty) as [Th [Targs Hne]].
    rewrite ex_order_eq. cbn [order_step symT as_flt].
    destruct (is_power (h :: args)) eqn:Pw.
    + unfold cmp_plain, wrap_power. cbn [length].
      destruct (Nat.ltb_spec 3 (S (length args))) as [L1|L1]; [discriminate|].
      destruct (Nat.ltb_spec (S (length args)) 3) as [L2|L2]; [discriminate|].
      destruct args as [|p [|q [|? ?]]]; cbn [length] in *; try lia. cbn [lex].
      apply is_power_inv in Pw. destruct Pw as [t Et]. injection Et as -> Et. clear t Et.
      rewrite order_sym_refl. cbn [Z.eqb].
      assert (Wp : wf p = true) by (apply (wf_expr _ Wy); cbn; auto).
      destruct (Targs p (or_introl eq_refl)) as [Tp Bp].
      assert (Hp : ex_order symT p <> 0) by (apply IH; auto; cbn in Hn; lia).
      fold symT. destruct (Z.eqb_spec (ex_order symT p) 0) as [E0|E0]; [contradiction|]. exact Hp.
    + destruct (is_times (h :: args)) eqn:Tm; [|lia].
      apply is_times_inv in Tm. destruct Tm as [t Et]. injection Et as -> Et. subst t. rename args into t.
      assert (Hne' : t <> []) by (apply Hne; reflexivity).
      set (y := last (ESym nTimes :: t) symT).
      assert (Hy : In y t) by (apply last_in_tl; assumption).
      destruct (Targs y Hy) as [Ty' By'].
      assert (Wy' : wf y = true) by (apply (wf_expr _ Wy); right; assumption).
      assert (Hyn : ex_order symT y <> 0).
      { apply IH; auto. rewrite ex_size_expr in Hn. cbn [list_size fold_right] in Hn.
        apply list_size_in in Hy. unfold list_size in Hy. lia. }
      assert (EL : lex_back ex_order (rev (wrap_times symT)) (rev (symT :: t)) = ex_order symT y).
      { rewrite (rev_last (symT :: t) symT) by discriminate. change (last (symT :: t) symT) with y.
        cbn [wrap_times rev app lex_back]. change (numberQ symT) with false. cbn [andb].
        apply Z.eqb_neq in Hyn. rewrite Hyn. reflexivity. }
      unfold cmp_times. fold symT. rewrite EL. apply Z.eqb_neq in Hyn. rewrite Hyn. cbn [negb].
      apply Z.eqb_neq in Hyn. exact Hyn.
Qed.

Lemma lex_back_nth ra : forall rb i x y, lex_back ex_order ra rb = 0 ->
  nth_error ra i = Some x -> nth_error rb i = Some y ->
  numberQ x && numberQ y = true \/ ex_order x y = 0.
Proof.
  induction ra as [|u ta IH]; intros [|v tb] i x y H Hx Hy; try (destruct i; discriminate).
  cbn [lex_back] in H. destruct i as [|i]; cbn in Hx, Hy.
  - injection Hx as ->. injection Hy as ->. destruct (numberQ x && numberQ y); [left; reflexivity|right].
    destruct (Z.eqb_spec (ex_order x y) 0); [assumption|contradiction].
  - eapply IH; eauto. destruct (numberQ u && numberQ v); [assumption|].
    destruct (Z.eqb_spec (ex_order u v) 0); [assumption|contradiction].
Qed.

Lemma toT_zlen_aux a b : wf a = true -> wf b = true -> tidy a = true -> tidy b = true ->
  inC a = true -> inC b = true ->
  lex_back ex_order (rev (toT a)) (rev (toT b)) = 0 -> (length (toT b) <= length (toT a))%nat ->
  length (toT a) = length (toT b).
Proof.
  intros Wa Wb Ta Tb Ca Cb H Hl.
  destruct (Nat.eq_dec (length (toT a)) (length (toT b))) as [|Hne]; [assumption|exfalso].
  assert (Hlt : (length (toT b) < length (toT a))%nat) by lia. clear Hl Hne.
  (* head of toT b is T; at least 2 long *)
  assert (HB : exists t, toT b = symT :: t /\ t <> []).
  { destruct (times_e b) eqn:Eb.
    - destruct (toT_times b Eb) as [l [-> ->]]. cbn in Eb. apply is_times_inv in Eb.
      destruct Eb as [t ->]. exists t. split; [reflexivity|].
      apply (tidy_args _ _ Tb). reflexivity.
    - rewrite (toT_wrap b Eb). eexists; split; [reflexivity|discriminate]. }
  destruct HB as [t [EB Ht]].
  set (i := (length (toT b) - 1)%nat).
  assert (Hrb : nth_error (rev (toT b)) i = Some symT).
  { unfold i. rewrite EB. cbn [rev length]. rewrite nth_error_app2; rewrite rev_length; [|lia].
    replace (S (length t) - 1 - length t)%nat with 0%nat by lia. reflexivity. }
  assert (Hra : exists x, nth_error (rev (toT a)) i = Some x /\ wf x = true /\ tidy x = true /\ bare_times x = false).
  { destruct (times_e a) eqn:Ea.
    - destruct (toT_times a Ea) as [l [-> El]]. rewrite El in *. cbn in Ea. apply is_times_inv in Ea.
      destruct Ea as [u ->]. cbn [length] in Hlt. rewrite EB in Hlt. cbn [length] in Hlt.
      destruct (nth_error (rev u) i) as [x|] eqn:Ex.
      + exists x. cbn [rev]. split; [rewrite nth_error_app1; [assumption|]|].
        { apply nth_error_Some. congruence. }
        apply nth_error_In in Ex. rewrite <- in_rev in Ex.
        split; [apply (wf_expr _ Wa); right; assumption|].
        apply (tidy_args _ _ Ta). assumption.
      + apply nth_error_None in Ex. rewrite rev_length in Ex. unfold i in Ex. rewrite EB in Ex. cbn in Ex. lia.
    - rewrite (toT_wrap a Ea) in *. cbn [wrap_times length] in Hlt.
      assert (i = 1)%nat as ->. { unfold i. rewrite EB in *. cbn [length] in *. destruct t; [contradiction|]. cbn in *. lia. }
      exists (EInt 1). cbn. auto. }
  destruct Hra as [x [Ex [Wx [Tx Bx]]]].
  destruct (lex_back_nth _ _ i x symT H Ex Hrb) as [Hn|Hz].
  - cbn in Hn. rewrite andb_false_r in Hn. discriminate Hn.
  - apply (T_nonzero (ex_size x) x (le_n _) Wx Tx Bx).
    rewrite order_anti, Hz; auto.
Qed.

Lemma toT_zlen a b : wf a = true -> wf b = true -> tidy a = true -> tidy b = true ->
  inC a = true -> inC b = true -> zlen (toT a) (toT b).
Proof.
  intros Wa Wb Ta Tb Ca Cb H.
  assert (Wl : forall e, wf e = true -> forall x, In x (toT e) -> wf x = true).
  { intros e We x. destruct (times_e e) eqn:Te.
    - destruct (toT_times e Te) as [l [-> ->]]. apply wf_expr; assumption.
    - rewrite (toT_wrap e Te). apply wt_in_wf; assumption. }
  destruct (Nat.le_gt_cases (length (toT b)) (length (toT a))) as [Hle|Hlt].
  - apply toT_zlen_aux; assumption.
  - symmetry. apply toT_zlen_aux; auto; [|lia].
    rewrite (lex_back_anti ex_order (rev (toT a)) (rev (toT b))); [lia|].
    intros x y Hx Hy. rewrite <- in_rev in Hx, Hy. apply order_anti; eauto.
Qed.

(* elements of toT / toP: wf, tidy, and not larger *)
Lemma toT_elem e x : wf e = true -> tidy e = true -> In x (toT e) ->
  wf x = true /\ tidy x = true /\ (ex_size x <= ex_size e)%nat /\
  (times_e e = true -> (ex_size x < ex_size e)%nat).
Proof.
  intros We Te Hx. destruct (times_e e) eqn:E.
  - destruct (toT_times e E) as [l [-> El]]. rewrite El in Hx. clear El.
    destruct l as [|h args]; [discriminate We|].
    pose proof (wf_expr _ We x Hx) as Wx.
    destruct (tidy_args h args Te) as [T1 [T2 _]].
    assert (tidy x = true) by (destruct Hx as [<-|Hx]; [assumption|apply T2; assumption]).
    pose proof (list_size_in x _ Hx). rewrite ex_size_expr. repeat split; auto; lia.
  - rewrite (toT_wrap e E) in Hx. pose proof (ex_size_pos e).
    destruct Hx as [<-|[<-|[<-|[]]]]; cbn; repeat split; auto; try lia; discriminate.
Qed.

Lemma toP_elem e x : wf e = true -> tidy e = true -> In x (toP e) ->
  wf x = true /\ tidy x = true /\ (ex_size x <= ex_size e)%nat /\
  (power_e e = true -> (ex_size x < ex_size e)%nat).
Proof.
  intros We Te Hx. destruct (power_e e) eqn:E.
  - destruct (toP_power e E) as [l [-> El]]. rewrite El in Hx. clear El.
    destruct l as [|h args]; [discriminate We|].
    pose proof (wf_expr _ We x Hx) as Wx.
    destruct (tidy_args h args Te) as [T1 [T2 _]].
    assert (tidy x = true) by (destruct Hx as [<-|Hx]; [assumption|apply T2; assumption]).
    pose proof (list_size_in x _ Hx). rewrite ex_size_expr. repeat split; auto; lia.
  - rewrite (toP_wrap e E) in Hx. pose proof (ex_size_pos e).
    destruct Hx as [<-|[<-|[<-|[]]]]; cbn; repeat split; auto; try lia; discriminate.
Qed.

(* numbers: key comparison *)
Definition numcmp (ia ib : bool) (x y ka kb : Z) : Z :=
  if ia && ib then cmp2z (y ?= x)
  else let c := cmp2z (kb ?= ka) in
    if (c =? 0) && (ia && negb ib) then 1
    else if (c =? 0) && (negb ia && ib) then -1 else c.

Lemma numcmp_trans ia ib ic x y z ka kb kc :
  (ia = true -> ib = true -> (x <= y -> ka <= kb) /\ (y <= x -> kb <= ka)) ->
  (ib = true -> ic = true -> (y <= z -> kb <= kc) /\ (z <= y -> kc <= kb)) ->
  (ia = true -> ic = true -> (x <= z -> ka <= kc) /\ (z <= x -> kc <= ka)) ->
  0 <= numcmp ia ib x y ka kb -> 0 <= numcmp ib ic y z kb kc ->
  0 <= numcmp ia ic x z ka kc /\
  (numcmp ia ic x z ka kc = 0 -> numcmp ia ib x y ka kb = 0 /\ numcmp ib ic y z kb kc = 0).
Proof.
  intros M1 M2 M3. unfold numcmp.
  destruct ia, ib, ic; cbn [andb negb];
    try specialize (M1 eq_refl eq_refl); try specialize (M2 eq_refl eq_refl);
    try specialize (M3 eq_refl eq_refl);
    rewrite ?andb_false_r, ?andb_true_r;
    repeat match goal with |- context [?u ?= ?v] => destruct (Z.compare_spec u v) end;
    cbn [cmp2z Z.eqb andb]; lia.
Qed.

Definition int_val (e : ex) : Z := match e with EInt z => z | _ => 0 end.

Lemma num_trans a b c : wf a = true -> wf b = true -> wf c = true ->
  numberQ a = true -> numberQ b = true -> numberQ c = true -> tr ex_order a b c.
Proof.
  intros Wa Wb Wc Na Nb Nc.
  destruct (wf_number a Wa Na) as [f Hf]. destruct (wf_number b Wb Nb) as [g Hg].
  destruct (wf_number c Wc Nc) as [h Hh]. unfold tr.
  destruct (fcmp_common f g h) as [k Hk].
  assert (K : forall u v, In u [f;g;h] -> In v [f;g;h] -> fcmp u v = (k u ?= k v)) by exact Hk.
  assert (N : forall u v fu fv, as_flt u = Some fu -> as_flt v = Some fv ->
     In fu [f;g;h] -> In fv [f;g;h] ->
     ex_order u v = numcmp (is_int u) (is_int v) (int_val u) (int_val v) (k fu) (k fv)).
  { intros u v fu fv Hu Hv Iu Iv. rewrite (order_num u v fu fv Hu Hv). unfold numcmp, cmp_flts.
    rewrite (K fv fu) by assumption.
    destruct u; destruct v; reflexivity. }
  assert (M : forall u v fu fv, as_flt u = Some fu -> as_flt v = Some fv ->
     In fu [f;g;h] -> In fv [f;g;h] -> is_int u = true -> is_int v = true ->
     (int_val u <= int_val v -> k fu <= k fv) /\ (int_val v <= int_val u -> k fv <= k fu)).
  { assert (M0 : forall x y, x <= y -> In (int_to_flt x) [f;g;h] -> In (int_to_flt y) [f;g;h] ->
       k (int_to_flt x) <= k (int_to_flt y)).
    { intros x y Hxy Hx Hy. pose proof (int_to_flt_mono x y Hxy) as F. unfold fle in F.
      rewrite K in F by assumption. rewrite Z.compare_ngt_iff in F. lia. }
    intros u v fu fv Hu Hv Iu Iv Zu Zv.
    destruct u as [| |x| | | |]; try discriminate Zu. destruct v as [| |y| | | |]; try discriminate Zv.
    cbn in Hu, Hv. injection Hu as <-. injection Hv as <-. cbn [int_val].
    split; intro; apply M0; assumption. }
  assert (If : In f [f;g;h]) by (cbn; auto). assert (Ig : In g [f;g;h]) by (cbn; auto).
  assert (Ih : In h [f;g;h]) by (cbn; auto).
  rewrite (N a b f g), (N b c g h), (N a c f h) by assumption.
  apply numcmp_trans; intros; apply M; assumption.
Qed.

Definition rank (e : ex) : Z := if numberQ e then 0 else if is_str e then 1 else 2.

Lemma order_rank a b : wf a = true -> wf b = true -> rank a <> rank b ->
  ex_order a b = if rank a <? rank b then 1 else -1.
Proof.
  intros Wa Wb. unfold rank.
  destruct (numberQ a) eqn:Na, (numberQ b) eqn:Nb; cbn.
  - lia.
  - intros _. rewrite (order_num_lt a b) by assumption. destruct (is_str b); reflexivity.
  - intros _. rewrite (order_num_gt a b) by assumption. destruct (is_str a); reflexivity.
  - rewrite ex_order_eq. destruct a; try discriminate Na; destruct b; try discriminate Nb; cbn; lia.
Qed.

Ltac nlia := repeat match goal with
  | H : @eq bool _ _ |- _ => clear H
  | H : forall _, _ |- _ => clear H end; lia.

Lemma order_trans_n : forall n a b c,
  (ex_size a + ex_size b + ex_size c <= n)%nat ->
  wf a = true -> wf b = true -> wf c = true ->
  tidy a = true -> tidy b = true -> tidy c = true -> tr ex_order a b c.
Proof.
  induction n as [|n IH]; intros a b c Hn Wa Wb Wc Ta Tb Tc;
    [pose proof (ex_size_pos a); lia|].
  destruct (Z.eq_dec (rank a) (rank b)) as [Rab|Rab];
  [destruct (Z.eq_dec (rank b) (rank c)) as [Rbc|Rbc]|].
  2,3: unfold tr.
  2: { rewrite (order_rank b c) by assumption. rewrite (order_rank a c) by (try assumption; lia).
       rewrite Rab. destruct (Z.ltb_spec (rank b) (rank c)); lia. }
  2: { rewrite (order_rank a b) by assumption.
       destruct (Z.ltb_spec (rank a) (rank b)); [|lia].
       destruct (Z.eq_dec (rank b) (rank c)) as [Rbc|Rbc].
       - rewrite (order_rank a c) by (try assumption; lia).
         destruct (Z.ltb_spec (rank a) (rank c)); lia.
       - rewrite (order_rank b c) by assumption.
         destruct (Z.ltb_spec (rank b) (rank c)); [|lia].
         rewrite (order_rank a c) by (try assumption; lia).
         destruct (Z.ltb_spec (rank a) (rank c)); lia. }
  unfold rank in Rab, Rbc.
  destruct (numberQ a) eqn:Na.
  { destruct (numberQ b) eqn:Nb; [|destruct (is_str b); discriminate Rab].
    destruct (numberQ c) eqn:Nc; [|destruct (is_str c); discriminate Rbc].
    apply num_trans; assumption. }
  destruct (numberQ b) eqn:Nb; [destruct (is_str a); discriminate Rab|].
  destruct (numberQ c) eqn:Nc; [destruct (is_str b); discriminate Rbc|].
  destruct (is_str a) eqn:Sa.
  { destruct (is_str b) eqn:Sb; [|discriminate Rab]. destruct (is_str c) eqn:Sc; [|discriminate Rbc].
    destruct a; try discriminate Sa. destruct b; try discriminate Sb. destruct c; try discriminate Sc.
    unfold tr. rewrite !ex_order_eq. cbn [order_step as_flt]. apply compare_strings_trans. }
  destruct (is_str b) eqn:Sb; [discriminate Rab|]. destruct (is_str c) eqn:Sc; [discriminate Rbc|].
  clear Rab Rbc.
  assert (Ca : inC a = true) by (destruct a; try discriminate Na; try discriminate Sa; reflexivity).
  assert (Cb : inC b = true) by (destruct b; try discriminate Nb; try discriminate Sb; reflexivity).
  assert (Cc : inC c = true) by (destruct c; try discriminate Nc; try discriminate Sc; reflexivity).
  destruct (times_e a || times_e b || times_e c) eqn:Tt.
  { unfold tr. rewrite (order_toT a b), (order_toT b c), (order_toT a c) by assumption.
    apply cmp_times_trans.
    - intros x Hx. apply (toT_elem a x); assumption.
    - intros x Hx. apply (toT_elem b x); assumption.
    - intros x Hx. apply (toT_elem c x); assumption.
    - intros x y z Hx Hy Hz.
      destruct (toT_elem a x Wa Ta Hx) as [? [? [? Sx]]].
      destruct (toT_elem b y Wb Tb Hy) as [? [? [? Sy]]].
      destruct (toT_elem c z Wc Tc Hz) as [? [? [? Sz]]].
      apply IH; auto.
      destruct (times_e a); [specialize (Sx eq_refl); nlia|].
      destruct (times_e b); [specialize (Sy eq_refl); nlia|].
      destruct (times_e c); [specialize (Sz eq_refl); nlia|discriminate Tt].
    - apply toT_zlen; assumption.
    - apply toT_zlen; assumption. }
  apply orb_false_iff in Tt. destruct Tt as [Tt Tte_c]. apply orb_false_iff in Tt. destruct Tt as [Tte_a Tte_b].
  destruct (power_e a || power_e b || power_e c) eqn:Pp.
  { unfold tr. rewrite (order_toP a b), (order_toP b c), (order_toP a c) by assumption.
    apply cmp_plain_trans.
    intros x y z Hx Hy Hz.
    destruct (toP_elem a x Wa Ta Hx) as [? [? [? Sx]]].
    destruct (toP_elem b y Wb Tb Hy) as [? [? [? Sy]]].
    destruct (toP_elem c z Wc Tc Hz) as [? [? [? Sz]]].
    apply IH; auto.
    destruct (power_e a); [specialize (Sx eq_refl); nlia|].
    destruct (power_e b); [specialize (Sy eq_refl); nlia|].
    destruct (power_e c); [specialize (Sz eq_refl); nlia|discriminate Pp]. }
  apply orb_false_iff in Pp. destruct Pp as [Pp Pe_c]. apply orb_false_iff in Pp. destruct Pp as [Pe_a Pe_b].
  unfold tr. rewrite (ex_order_eq a b), (ex_order_eq b c), (ex_order_eq a c).
  destruct a as [s|s|z|p q|f|re im|la]; try discriminate Ca;
  destruct b as [s'|s'|z'|p' q'|f'|re' im'|lb]; try discriminate Cb;
  destruct c as [s''|s''|z''|p'' q''|f''|re'' im''|lc]; try discriminate Cc;
  cbn [times_e power_e] in *; cbn [order_step as_flt];
  rewrite ?Tte_a, ?Tte_b, ?Tte_c, ?Pe_a, ?Pe_b, ?Pe_c; try nlia.
  - apply compare_strings_trans.
  - unfold cmp_exprs. rewrite Tte_a, Tte_b, Tte_c, Pe_a, Pe_b, Pe_c. cbn [negb andb].
    apply cmp_plain_trans. intros x y z Hx Hy Hz.
    pose proof (list_size_in x _ Hx). pose proof (list_size_in y _ Hy). pose proof (list_size_in z _ Hz).
    rewrite !ex_size_expr in Hn.
    assert (TD : forall l e, wf (EExpr l) = true -> tidy (EExpr l) = true -> In e l -> tidy e = true).
    { intros [|h args] e W T He; [contradiction|]. destruct (tidy_args h args T) as [T1 [T2 _]].
      destruct He as [<-|He]; [assumption|]. apply T2; assumption. }
    apply IH; [nlia|exact (wf_expr _ Wa x Hx)|exact (wf_expr _ Wb y Hy)|exact (wf_expr _ Wc z Hz)
      |exact (TD la x Wa Ta Hx)|exact (TD lb y Wb Tb Hy)|exact (TD lc z Wc Tc Hz)].
Qed.

Lemma order_trans a b c : wf a = true -> wf b = true -> wf c = true ->
  tidy a = true -> tidy b = true -> tidy c = true ->
  0 <= ex_order a b -> 0 <= ex_order b c -> 0 <= ex_order a c.
Proof.
  intros. apply (order_trans_n _ a b c (le_n _)); assumption.
Qed.

Lemma order_trans_strict a b c : wf a = true -> wf b = true -> wf c = true ->
  tidy a = true -> tidy b = true -> tidy c = true ->
  0 <= ex_order a b -> 0 <= ex_order b c -> ex_order a c = 0 -> ex_order a b = 0 /\ ex_order b c = 0.
Proof.
  intros ? ? ? ? ? ? H1 H2. apply (order_trans_n _ a b c (le_n _)); assumption.
Qed.
