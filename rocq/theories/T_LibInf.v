(* Property theorems: arithmetic with Infinity (C126), closed forms of sums
   (C127). *)
From Verif Require Import M_Syntax M_Float M_Hash M_Compare M_LibCalc M_LibTrig M_LibInf S_Num S_Compare S_Real S_Trig T_LibCalc T_LibTrig T_Compare P_Num P_Hash P_Compare P_Basel.
From Coq Require Import QArith Reals Lra Lia Psatz List Permutation SeqProp.
Import ListNotations.
Open Scope R_scope.

(* ---- specification ---- *)
(* Infinity stands for a variable u that grows beyond all bounds: [at_inf r t]
   gives it the value t *)
Definition at_inf (r : var -> R) (t : R) : var -> R := upd r (VSym (sysname "Infinity")) t.
Definition along (r : var -> R) (u : nat -> R) (e : ex) : nat -> R := fun n => val (at_inf r (u n)) e.
(* s grows, or falls, beyond all bounds *)
Definition up_to_infinity (s : nat -> R) : Prop := cv_infty s.
Definition down_to_infinity (s : nat -> R) : Prop := cv_infty (fun n => - s n).
Definition settled_seq (s : nat -> R) : Prop := exists l, Un_cv s l.
(* an expression without Infinity: its value does not change with u *)
Definition finite_part (e : ex) : Prop := freeq eInf e.

(* the limit of v, v^2, v^3, ... (of 1/v, 1/v^2, ...) as one writes it:
   Indeterminate for the bases 1 and -1, ComplexInfinity when only the absolute
   values grow beyond all bounds *)
Inductive limit_of (v : R) (s : nat -> R) : ex -> Prop :=
| L_zero : Un_cv s 0 -> limit_of v s (EInt 0)
| L_inf : 0 < v -> cv_infty s -> limit_of v s eInf
| L_cinf : v <= 0 -> (v = 0 \/ cv_infty (fun n => Rabs (s n))) -> limit_of v s eCInf
| L_indet : Rabs v = 1 -> limit_of v s eIndet.

(* exact real numbers *)
Definition num_val (e : ex) : R := match e with EInt z => IZR z | ERat n d => IZR n / IZR d | _ => 0 end.
(* b is compared with -1, 0 and 1 without error *)
Definition compared (b : ex) : Prop :=
  (forall o k, In k [-1; 0; 1]%Z ->
    (cmp2 o b (EInt k) = true <->
     match o with RLess => num_val b < IZR k | RLessEqual => num_val b <= IZR k
                | RGreater => IZR k < num_val b | RGreaterEqual => IZR k <= num_val b end)) /\
  (forall k, In k [-1; 1]%Z -> (is_sameq b (EInt k) = true <-> num_val b = IZR k)).

(* ---- C126 ---- *)
Lemma free_along r u e n : finite_part e -> along r u e n = val r e.
Proof. intro F. unfold along, at_inf. apply (den_free trig_fn r (VSym (sysname "Infinity")) (u n) e F). Qed.
Lemma along_inf r u n : along r u eInf n = u n.
Proof. unfold along, at_inf, eInf, val. cbn [den]. unfold upd. reflexivity. Qed.
Lemma along_plus r u l n : along r u (cPlus l) n = rsum (map (fun e => along r u e n) l).
Proof. apply v_plus. Qed.
Lemma rsum_perm l l' : Permutation l l' -> rsum l = rsum l'.
Proof. induction 1; cbn [rsum fold_right] in *; unfold rsum in *; lra. Qed.
Lemma infty_shift s t c : (forall n, s n = t n + c) -> cv_infty s <-> cv_infty t.
Proof.
  intro E. split; intros H M.
  - destruct (H (M + c)) as [N HN]. exists N. intros n L. specialize (HN n L). rewrite E in HN. lra.
  - destruct (H (M - c)) as [N HN]. exists N. intros n L. specialize (HN n L). rewrite E. lra.
Qed.
Lemma along_drop r u l x a rest n : Permutation l (x :: a :: rest) -> finite_part a ->
  along r u (cPlus l) n = along r u (cPlus (x :: rest)) n + val r a.
Proof.
  intros P F. rewrite !along_plus.
  rewrite (rsum_perm _ _ (Permutation_map (fun e => along r u e n) P)). cbn [map rsum fold_right].
  rewrite (free_along r u a n F). unfold rsum. ring.
Qed.
(* dropping a finite term next to Infinity or -Infinity: the sum and what is
   left of it grow, or fall, beyond all bounds together *)
Theorem C126_infinity_absorbs_partial : forall lhs rhs, plus_inf lhs rhs ->
  forall r u, cv_infty u ->
  (forall l a rest, lhs = cPlus l -> (Permutation l (eInf :: a :: rest) \/ Permutation l (neg_inf :: a :: rest)) -> finite_part a) ->
  (up_to_infinity (along r u lhs) <-> up_to_infinity (along r u rhs)) /\
  (down_to_infinity (along r u lhs) <-> down_to_infinity (along r u rhs)).
Proof.
  intros lhs rhs H r u U A. destruct H as [l a rest P|l a rest P|l rest P].
  - assert (Fa : finite_part a) by (apply (A l a rest); auto). split.
    + apply (infty_shift _ _ (val r a)). intro n. apply along_drop; assumption.
    + apply (infty_shift _ _ (- val r a)). intro n. rewrite (along_drop r u l eInf a rest n P Fa). ring.
  - assert (Fa : finite_part a) by (apply (A l a rest); auto). split.
    + apply (infty_shift _ _ (val r a)). intro n. apply along_drop; assumption.
    + apply (infty_shift _ _ (- val r a)). intro n. rewrite (along_drop r u l neg_inf a rest n P Fa). ring.
  - exfalso. assert (Fa : finite_part neg_inf) by (apply (A l neg_inf rest); auto). vm_compute in Fa. discriminate Fa.
Qed.
Print Assumptions C126_infinity_absorbs_partial.
Example C126_absorbs_nonvacuous : plus_inf (cPlus [EInt (-1); eInf]) (cPlus [eInf]) /\
  up_to_infinity (along (fun _ => 0) INR (cPlus [eInf])).
Proof.
  split.
  - apply (pi_pos _ (EInt (-1)) []). apply perm_swap.
  - intro M. destruct (above M) as [N HN]. exists N. intros n L. rewrite along_plus. cbn [map rsum fold_right]. rewrite along_inf.
    assert (INR N <= INR n) by (apply le_INR; exact L). unfold rsum. cbn [fold_right]. lra.
Qed.

(* Infinity also absorbs what is not finite: Infinity + Indeterminate is
   Infinity, and Infinity - 2 Infinity is, although u - 2u falls *)
Theorem C126_absorbs_everything_refuted : exists l rhs,
  plus_inf (cPlus l) rhs /\ rhs = cPlus [eInf] /\
  forall r u, cv_infty u -> up_to_infinity (along r u rhs) /\ down_to_infinity (along r u (cPlus l)).
Proof.
  exists [eInf; cTimes [EInt (-2); eInf]], (cPlus [eInf]). split; [|split; [reflexivity|]].
  - apply (pi_pos _ (cTimes [EInt (-2); eInf]) []). apply Permutation_refl.
  - intros r u U. split; intro M; destruct (U M) as [N HN]; exists N; intros n L; specialize (HN n L); rewrite along_plus; cbn [map rsum fold_right].
    + rewrite along_inf. unfold rsum. cbn [fold_right]. lra.
    + change (along r u (cTimes [EInt (-2); eInf]) n) with (val (at_inf r (u n)) (cTimes [EInt (-2); eInf])). rewrite v_times.
      cbn [map rprod fold_right]. change (val (at_inf r (u n)) eInf) with (along r u eInf n). rewrite along_inf. unfold rsum, rprod. cbn [fold_right].
      change (val (at_inf r (u n)) (EInt (-2))) with (-2). lra.
Qed.
Print Assumptions C126_absorbs_everything_refuted.
Theorem C126_indeterminate_refuted : plus_inf (cPlus [eInf; eIndet]) (cPlus [eInf]).
Proof. apply (pi_pos _ eIndet []). apply Permutation_refl. Qed.
Print Assumptions C126_indeterminate_refuted.

(* A sum without Indeterminate becomes Indeterminate just when it has both
   infinities among its terms; the other terms stay. *)
Theorem C126_opposite_infinities : forall l, ~ In eIndet l -> forall rest,
  (plus_inf (cPlus l) (cPlus (eIndet :: rest)) <-> Permutation l (eInf :: neg_inf :: rest)).
Proof.
  intros l N rest. split.
  - intro H. inversion H; subst; assumption.
  - intro P. apply pi_both. exact P.
Qed.
Print Assumptions C126_opposite_infinities.

Lemma pow_big x : 1 < Rabs x -> cv_infty (fun n => Rabs (x ^ n)).
Proof.
  intros H M. destruct (Pow_x_infinity x H (M + 1)) as [N HN]. exists N. intros n L. specialize (HN n L). lra.
Qed.
Lemma pow_small x : Rabs x < 1 -> Un_cv (fun n => x ^ n) 0.
Proof.
  intros H eps E. destruct (pow_lt_1_zero x H eps E) as [N HN]. exists N. intros n L. unfold R_dist. rewrite Rminus_0_r. apply HN. exact L.
Qed.
Lemma pow_up x : 1 < x -> cv_infty (fun n => x ^ n).
Proof.
  intros H M. destruct (pow_big x ltac:(rewrite Rabs_pos_eq; lra) M) as [N HN]. exists N. intros n L. specialize (HN n L).
  rewrite Rabs_pos_eq in HN; [exact HN|]. apply pow_le. lra.
Qed.
Lemma inv_abs x : x <> 0 -> Rabs (/ x) = / Rabs x. Proof. intros _. apply Rabs_inv. Qed.

(* b^Infinity is the limit of b, b^2, ... and b^-Infinity that of 1/b, 1/b^2,
   ..., for numbers that are compared without error *)
Theorem C126_power_of_infinity : forall b, compared b ->
  limit_of (num_val b) (fun n => num_val b ^ n) (pow_inf b) /\
  limit_of (num_val b) (fun n => (/ num_val b) ^ n) (pow_neg_inf b).
Proof.
  intros b [C S]. set (v := num_val b) in *.
  pose proof (C RLess (-1)%Z ltac:(cbn; auto)) as C1. pose proof (C RLess 1%Z ltac:(cbn; auto)) as C2. pose proof (C RGreater 1%Z ltac:(cbn; auto)) as C3.
  pose proof (C RLessEqual 0%Z ltac:(cbn; auto)) as C4. pose proof (S (-1)%Z ltac:(cbn; auto)) as S1. pose proof (S 1%Z ltac:(cbn; auto)) as S2.
  clear C S. unfold pow_inf, pow_neg_inf, e1, em1. clearbody v.
  destruct (cmp2 RLess b (EInt (-1))) eqn:E1.
  { assert (v < -1) by (apply C1; reflexivity). split.
    - apply L_cinf; [lra|]. right. apply pow_big. rewrite Rabs_left by lra. lra.
    - apply L_zero, pow_small. rewrite inv_abs by lra. rewrite Rabs_left by lra.
      rewrite <- Rinv_1. apply Rinv_lt_contravar; lra. }
  assert (N1 : ~ v < -1) by (intro L; apply C1 in L; discriminate L).
  destruct (is_sameq b (EInt (-1))) eqn:E2.
  { assert (v = -1) by (apply S1; reflexivity). subst v. assert (A : Rabs (-1) = 1) by (rewrite Rabs_left; lra).
    split; apply L_indet, A. }
  assert (N2 : v <> -1) by (intro L; apply S1 in L; discriminate L).
  destruct (cmp2 RLess b (EInt 1)) eqn:E3.
  { assert (v < 1) by (apply C2; reflexivity). split.
    - apply L_zero, pow_small. apply Rabs_def1; lra.
    - destruct (cmp2 RLessEqual b (EInt 0)) eqn:E4.
      + assert (v <= 0) by (apply C4; reflexivity). apply L_cinf; [lra|]. destruct (Req_dec v 0) as [Z|Z]; [left; exact Z|right].
        apply pow_big. rewrite inv_abs by exact Z. rewrite Rabs_left by lra. rewrite <- Rinv_1 at 1. apply Rinv_lt_contravar; lra.
      + assert (~ v <= 0) by (intro L; apply C4 in L; discriminate L). apply L_inf; [lra|]. apply pow_up.
        rewrite <- Rinv_1 at 1. apply Rinv_lt_contravar; lra. }
  assert (N3 : ~ v < 1) by (intro L; apply C2 in L; discriminate L).
  assert (E4 : cmp2 RLessEqual b (EInt 0) = false) by (destruct (cmp2 RLessEqual b (EInt 0)); [|reflexivity]; assert (v <= 0) by (apply C4; reflexivity); lra).
  rewrite E4.
  destruct (is_sameq b (EInt 1)) eqn:E5.
  { assert (v = 1) by (apply S2; reflexivity). subst v. split; apply L_indet, Rabs_R1. }
  assert (N5 : v <> 1) by (intro L; apply S2 in L; discriminate L).
  assert (E6 : cmp2 RGreater b (EInt 1) = true) by (apply C3; lra). rewrite E6. split.
  - apply L_inf; [lra|]. apply pow_up. lra.
  - apply L_zero, pow_small. rewrite inv_abs by lra. rewrite Rabs_pos_eq by lra. rewrite <- Rinv_1. apply Rinv_lt_contravar; lra.
Qed.
Print Assumptions C126_power_of_infinity.
(* integers below 2^53 are compared so, provided their hashes do not meet *)
Theorem C126_integers_compared : forall z, (Z.abs z <= 2 ^ 53)%Z ->
  (forall k, In k [-1; 1]%Z -> hash (EInt z) = hash (EInt k) -> z = k) -> compared (EInt z).
Proof.
  intros z B Hh. split.
  - intros o k K. cbn [num_val]. assert (Bk : (Z.abs k <= 2 ^ 53)%Z) by (destruct K as [<-|[<-|[<-|[]]]]; vm_compute; discriminate).
    destruct (C12_small_integers_partial o [z; k]) as [E1 E2].
    { intros y [<-|[<-|[]]]; assumption. }
    unfold cmp2. cbn [map] in E1, E2. cbn [chain] in E1.
    assert (R : rel_of o (EInt z) (EInt k) <-> match o with RLess => IZR z < IZR k | RLessEqual => IZR z <= IZR k
                | RGreater => IZR k < IZR z | RGreaterEqual => IZR k <= IZR z end).
    { rewrite rel_of_q by reflexivity.
      destruct o; cbn [rel_q]; unfold qval0; cbn [qval]; rewrite <- ?Zlt_Qlt, <- ?Zle_Qle; split; intro;
        try (apply IZR_lt; assumption); try (apply IZR_le; assumption); try (apply lt_IZR; assumption); apply le_IZR; assumption. }
    rewrite <- R. unfold holds. destruct (comparison_eval o [EInt z; EInt k]) eqn:E.
    + split; [intros _; tauto|reflexivity].
    + split; [discriminate|]. intro X. exfalso. apply (proj1 E2 eq_refl). cbn [chain]. tauto.
    + destruct (C12_decides o [EInt z; EInt k]) as [D|D]; [|rewrite E in D; discriminate D|rewrite E in D; discriminate D].
      intros e [<-|[<-|[]]]; reflexivity.
  - intros k K. cbn [num_val]. split.
    + intro E. rewrite is_sameq_hash in E by reflexivity. apply N.eqb_eq in E. f_equal. apply Hh; [exact K|exact E].
    + intro E. apply eq_IZR in E. subst. apply sameq_refl.
Qed.
Print Assumptions C126_integers_compared.
Example C126_compared_nonvacuous : compared (EInt 3) /\ compared (EInt (-2)) /\ pow_inf (EInt 3) = eInf /\
  pow_inf (ERat 1 2) = EInt 0 /\ pow_neg_inf (ERat 1 2) = eInf /\ pow_neg_inf (EInt 0) = eCInf.
Proof.
  split; [|split; [|vm_compute; repeat split]].
  all: apply C126_integers_compared; [vm_compute; discriminate|]; intros k [<-|[<-|[]]] E; vm_compute in E; discriminate E.
Qed.
(* without that: a number a little below -1 is compared as -1 and its powers,
   which grow, "tend to" 0 *)
Theorem C126_rounded_base_refuted : exists n d, (0 < d)%Z /\ IZR n / IZR d < -1 /\
  pow_inf (ERat n d) = EInt 0 /\ cv_infty (fun k => Rabs ((IZR n / IZR d) ^ k)).
Proof.
  exists (- (2 ^ 60 + 1))%Z, (2 ^ 60)%Z.
  assert (L : IZR (- (2 ^ 60 + 1)) / IZR (2 ^ 60) < -1).
  { rewrite opp_IZR, plus_IZR. assert (P : 0 < IZR (2 ^ 60)) by (apply IZR_lt; reflexivity).
    generalize dependent (IZR (2 ^ 60)). intros c P. apply Rmult_lt_reg_r with c; [exact P|].
    replace (- (c + 1) / c * c) with (- (c + 1)) by (field; lra). lra. }
  split; [reflexivity|]. split; [exact L|]. split; [vm_compute; reflexivity|]. apply pow_big. rewrite Rabs_left by lra. lra.
Qed.
Print Assumptions C126_rounded_base_refuted.
(* SameQ tells the machine real 1. from 1: (-1.)^Infinity is 0, and 1.^Infinity
   is the symbol that was to be unreachable *)
Theorem C126_machine_base_refuted : pow_inf (EFlt (int_to_flt (-1))) = EInt 0 /\
  pow_inf (EFlt (int_to_flt 1)) = sys "UnexpectedInfinitePowerBase" /\
  pow_neg_inf (EFlt (int_to_flt 1)) = sys "UnexpectedInfinitePowerBase".
Proof. vm_compute. repeat split. Qed.
Print Assumptions C126_machine_base_refuted.

(* ---- C127 ---- *)
(* the value of the body when the variable i has the value k *)
Definition term (r : var -> R) (i : string) (body : ex) (k : Z) : R := val (upd r (VSym i) (IZR k)) body.
(* term m + ... + term (m + n - 1) *)
Fixpoint partial (f : Z -> R) (m : Z) (n : nat) : R :=
  match n with O => 0 | S k => partial f m k + f (m + Z.of_nat k)%Z end.
(* the value of Sum[body, {i, m, e}] and Sum[body, {i, e}]; no terms if the
   upper limit is below the lower one *)
Inductive sum_value (r : var -> R) : ex -> R -> Prop :=
| SV_range i m e body N : e <> eInf -> val r e = IZR N ->
    sum_value r (eSum body [ESym i; EInt m; e]) (partial (term r i body) m (Z.to_nat (N - m + 1)))
| SV_to i e body N : e <> eInf -> val r e = IZR N ->
    sum_value r (eSum body [ESym i; e]) (partial (term r i body) 1 (Z.to_nat N))
| SV_series i m body v : Un_cv (partial (term r i body) m) v -> sum_value r (eSum body [ESym i; EInt m; eInf]) v
| SV_series1 i body v : Un_cv (partial (term r i body) 1) v -> sum_value r (eSum body [ESym i; eInf]) v.

Lemma partial_id r i m n : partial (term r i (ESym i)) m n = INR n * (2 * IZR m + INR n - 1) / 2.
Proof.
  induction n as [|k IH]; [cbn [partial INR]; field|]. cbn [partial]. rewrite IH. unfold term, val. cbn [den]. unfold upd.
  cbn [var_eqb]. rewrite String.eqb_refl. rewrite plus_IZR, <- INR_IZR_INZ, S_INR. field.
Qed.
Lemma val_half_product r e : val r (half_product e) = val r e * (1 + val r e) / 2.
Proof.
  unfold half_product. rewrite v_times. cbn [map]. rewrite v_plus. cbn [map]. unfold rprod, rsum. cbn [fold_right].
  change (val r (ERat 1 2)) with (1 / 2). change (val r (EInt 1)) with 1. field.
Qed.
Lemma no_series r i m v : ~ Un_cv (partial (term r i (ESym i)) m) v.
Proof.
  intro H. destruct (H 1 ltac:(lra)) as [N HN].
  destruct (above (Rabs v + 2 + Rabs (IZR m))) as [M HM]. set (n := S (S (N + 2 * M)%nat)).
  assert (A := HN n ltac:(unfold n; lia)). unfold R_dist in A. rewrite partial_id in A.
  assert (B : 2 * INR M + 2 <= INR n). { unfold n. rewrite !S_INR, plus_INR, mult_INR. cbn [INR]. pose proof (pos_INR N). lra. }
  pose proof (pos_INR M). pose proof (Rabs_pos v). pose proof (Rabs_pos (IZR m)).
  assert (D1 := Rle_abs v). assert (D2 : - IZR m <= Rabs (IZR m)) by (rewrite <- Rabs_Ropp; apply Rle_abs).
  apply Rabs_def2 in A. destruct A as [A _].
  assert (C : INR n * 2 <= INR n * (2 * IZR m + INR n - 1)).
  { apply Rmult_le_compat_l; lra. }
  lra.
Qed.
Lemma Z_nat_R N : (0 <= N)%Z -> INR (Z.to_nat N) = IZR N.
Proof. intro H. rewrite INR_IZR_INZ, Z2Nat.id by exact H. reflexivity. Qed.

Lemma term_inv_square r i k : k <> 0%Z -> term r i (cPower (ESym i) (EInt (-2))) k = / (IZR k * IZR k).
Proof.
  intro K. unfold term. rewrite v_pow_int. unfold val at 1. cbn [den]. unfold upd. cbn [var_eqb]. rewrite String.eqb_refl.
  cbn [powerRZ]. change (Pos.to_nat 2) with 2%nat. cbn [pow]. f_equal. ring.
Qed.
Lemma partial_squares r i n : partial (term r i (cPower (ESym i) (EInt (-2)))) 1 n = inv_squares n.
Proof.
  induction n as [|m IH]; [reflexivity|]. cbn [partial inv_squares]. rewrite IH, term_inv_square by lia.
  rewrite plus_IZR, <- INR_IZR_INZ. replace (1 + INR m) with (INR m + 1) by ring. reflexivity.
Qed.
Lemma partial_num r i num n : freeq (ESym i) num ->
  partial (term r i (cTimes [num; cPower (cPower (ESym i) (EInt 2)) (EInt (-1))])) 1 n = val r num * inv_squares n.
Proof.
  intro F. induction n as [|m IH]; [cbn [partial inv_squares]; ring|]. cbn [partial inv_squares]. rewrite IH.
  unfold term at 1. rewrite v_times. cbn [map]. rewrite !v_pow_int. unfold rprod. cbn [fold_right].
  assert (E : val (upd r (VSym i) (IZR (1 + Z.of_nat m))) num = val r num) by (apply (den_free trig_fn r (VSym i) _ num F)).
  rewrite E. assert (V : val (upd r (VSym i) (IZR (1 + Z.of_nat m))) (ESym i) = INR m + 1).
  { unfold val. cbn [den]. unfold upd. cbn [var_eqb]. rewrite String.eqb_refl, plus_IZR, <- INR_IZR_INZ. ring. }
  rewrite V. cbn [powerRZ]. change (Pos.to_nat 2) with 2%nat. change (Pos.to_nat 1) with 1%nat. cbn [pow]. pose proof (pos_INR m). field. lra.
Qed.
(* the value of the closed form is the sum, if the upper limit is at least -1
   and the factor num does not contain the variable of the sum *)
Theorem C127_closed_forms_partial : forall r lhs rhs v, constants r -> sum_rule lhs rhs -> sum_value r lhs v ->
  (forall i e N, lhs = eSum (ESym i) [ESym i; e] \/ (exists m, lhs = eSum (ESym i) [ESym i; EInt m; e]) ->
     e <> eInf -> val r e = IZR N -> (-1 <= N)%Z) ->
  (forall i num l, lhs = eSum (cTimes [num; cPower (cPower (ESym i) (EInt 2)) (EInt (-1))]) l -> freeq (ESym i) num) ->
  val r rhs = v.
Proof.
  intros r lhs rhs v C H V Hn Hf.
  assert (G : forall m N, m = 0%Z \/ m = 1%Z -> (-1 <= N)%Z -> INR (Z.to_nat (N - m + 1)) * (2 * IZR m + INR (Z.to_nat (N - m + 1)) - 1) / 2 = IZR N * (1 + IZR N) / 2).
  { intros m N M B. destruct (Z.eq_dec N (-1)) as [->|Nz].
    - destruct M as [-> | ->]; cbn [Z.to_nat Z.add Z.sub Z.opp Z.pos_sub INR]; simpl; field.
    - rewrite Z_nat_R by lia. rewrite plus_IZR, minus_IZR. destruct M as [-> | ->]; field. }
  destruct H as [i m n M|i e|i m n M|i|i num].
  - inversion V; subst; try (match goal with E : Un_cv _ _ |- _ => idtac end; fail).
    + rewrite partial_id, val_half_product. change (val r (EInt n)) with (IZR n).
      match goal with E : val r (EInt n) = IZR ?N |- _ => change (IZR n = IZR N) in E; apply eq_IZR in E; subst end.
      symmetry. apply G; [exact M|]. apply (Hn i (EInt N) N); [right; eexists; reflexivity|discriminate|reflexivity].
  - inversion V; subst.
    + match goal with E : val r e = IZR ?N |- _ => rewrite partial_id, val_half_product, E;
        assert (B : (-1 <= N)%Z) by (apply (Hn i e N); auto) end.
      match goal with B : (-1 <= ?N)%Z |- _ => pose proof (G 1%Z N (or_intror eq_refl) B) as Q; replace (N - 1 + 1)%Z with N in Q by ring end.
      symmetry. exact Q.
    + exfalso. eapply no_series. eassumption.
  - inversion V; subst.
    + match goal with E : val r (ESym n) = IZR ?N |- _ => rewrite partial_id, val_half_product, E;
        assert (B : (-1 <= N)%Z) by (apply (Hn i (ESym n) N); eauto) end.
      symmetry. apply G; assumption.
    + exfalso. eapply no_series. eassumption.
  - inversion V; subst; try congruence.
    match goal with E : Un_cv _ v |- _ => rename E into U end.
    rewrite v_times. cbn [map]. rewrite v_pow_int, (v_pi r C). unfold rprod. cbn [fold_right powerRZ].
    change (Pos.to_nat 2) with 2%nat. cbn [pow]. change (val r (ERat 1 6)) with (1 / 6).
    rewrite <- (UL_sequence _ _ _ basel (Un_cv_ext _ _ (fun n => partial_squares r i n) _ U)). field.
  - inversion V; subst; try congruence.
    match goal with E : Un_cv _ v |- _ => rename E into U end.
    assert (F : freeq (ESym i) num) by (eapply Hf; reflexivity).
    rewrite v_times. cbn [map]. rewrite v_pow_int, (v_pi r C). unfold rprod. cbn [fold_right powerRZ].
    change (Pos.to_nat 2) with 2%nat. cbn [pow]. change (val r (ERat 1 6)) with (1 / 6).
    assert (L : Un_cv (fun n => val r num * inv_squares n) (val r num * (PI * PI / 6))).
    { apply (CV_mult (fun _ => val r num)); [|apply basel]. intros eps He. exists O. intros. unfold R_dist. rewrite Rminus_diag_eq, Rabs_R0 by reflexivity. exact He. }
    rewrite (UL_sequence _ _ _ (Un_cv_ext _ _ (fun n => partial_num r i num n F) _ U) L). field.
Qed.
Print Assumptions C127_closed_forms_partial.
(* the series rule is the theorem of Euler, in full *)
Theorem C127_inverse_squares : forall r i rhs, constants r ->
  sum_rule (eSum (cPower (ESym i) (EInt (-2))) [ESym i; EInt 1; eInf]) rhs ->
  Un_cv (partial (term r i (cPower (ESym i) (EInt (-2)))) 1) (val r rhs).
Proof.
  intros r i rhs C H. apply (Un_cv_ext inv_squares); [intro n; symmetry; apply partial_squares|].
  enough (val r rhs = PI * PI / 6) as -> by apply basel. inversion H; subst.
  rewrite v_times. cbn [map]. rewrite v_pow_int, (v_pi r C). unfold rprod. cbn [fold_right powerRZ].
  change (Pos.to_nat 2) with 2%nat. cbn [pow]. change (val r (ERat 1 6)) with (1 / 6). field.
Qed.
Print Assumptions C127_inverse_squares.
Example C127_nonvacuous : forall r, constants r ->
  sum_rule (eSum (ESym "Global`i") [ESym "Global`i"; EInt 1; ESym "Global`n"]) (half_product (ESym "Global`n")) /\
  (val r (ESym "Global`n") = 3 -> sum_value r (eSum (ESym "Global`i") [ESym "Global`i"; EInt 1; ESym "Global`n"]) 6).
Proof.
  intros r _. split; [apply su_sym; auto|]. intro E.
  replace 6 with (partial (term r "Global`i" (ESym "Global`i")) 1 (Z.to_nat (3 - 1 + 1))).
  - apply SV_range; [discriminate|exact E].
  - rewrite partial_id. change (INR (Z.to_nat (3 - 1 + 1))) with (1 + 1 + 1). field.
Qed.
(* below -1 the closed form is not the sum: Sum[i, {i, 1, n}] at n = -5 is 10,
   but the sum has no terms *)
Theorem C127_negative_limit_refuted : exists lhs rhs, sum_rule lhs rhs /\
  forall r, val r (ESym "Global`n") = -5 -> sum_value r lhs 0 /\ val r rhs = 10.
Proof.
  exists (eSum (ESym "Global`i") [ESym "Global`i"; EInt 1; ESym "Global`n"]), (half_product (ESym "Global`n")).
  split; [apply su_sym; auto|]. intros r E. split.
  - apply (SV_range r "Global`i" 1 (ESym "Global`n") (ESym "Global`i") (-5)); [discriminate|exact E].
  - rewrite val_half_product, E. field.
Qed.
Print Assumptions C127_negative_limit_refuted.
(* the factor in front of 1/i^2 may be i itself: Sum[i/(i^2), {i, 1, Infinity}]
   has a value, which still mentions i, although the series has none *)
Lemma harmonic_block f n : (forall k, (0 < k)%Z -> f k = / IZR k) -> partial f 1 (n + n) >= partial f 1 n + / 2 \/ n = O.
Proof.
  intro H. destruct n as [|n]; [right; reflexivity|left]. set (m := S n).
  assert (G : forall j, (j <= m)%nat -> partial f 1 (m + j) >= partial f 1 m + INR j * / (2 * INR m)).
  { assert (P : 0 < INR m) by (apply lt_0_INR; unfold m; lia).
    induction j as [|j IH]; intro L; [rewrite Nat.add_0_r; cbn [INR]; lra|]. rewrite Nat.add_succ_r. cbn [partial].
    specialize (IH ltac:(lia)). rewrite H by lia. rewrite S_INR.
    assert (Q : / (2 * INR m) <= / IZR (1 + Z.of_nat (m + j))).
    { apply Rinv_le_contravar; [apply IZR_lt; lia|]. rewrite plus_IZR, <- INR_IZR_INZ, plus_INR.
      assert (INR j + 1 <= INR m) by (rewrite <- S_INR; apply le_INR; exact L). lra. }
    lra. }
  specialize (G m (Nat.le_refl m)). assert (P : 0 < INR m) by (apply lt_0_INR; unfold m; lia).
  replace (INR m * / (2 * INR m)) with (/ 2) in G by (field; lra). exact G.
Qed.
Lemma harmonic_diverges f v : (forall k, (0 < k)%Z -> f k = / IZR k) -> ~ Un_cv (partial f 1) v.
Proof.
  intros H U. destruct (U (/ 4) ltac:(lra)) as [N HN].
  pose proof (HN (S N) ltac:(lia)) as A. pose proof (HN (S N + S N)%nat ltac:(lia)) as B.
  destruct (harmonic_block f (S N) H) as [G|]; [|discriminate].
  unfold R_dist in A, B. apply Rabs_def2 in A. apply Rabs_def2 in B. lra.
Qed.
Theorem C127_bound_variable_refuted : exists lhs rhs, sum_rule lhs rhs /\
  lhs = eSum (cTimes [ESym "Global`i"; cPower (cPower (ESym "Global`i") (EInt 2)) (EInt (-1))]) [ESym "Global`i"; EInt 1; eInf] /\
  ~ freeq (ESym "Global`i") rhs /\ forall r v, ~ sum_value r lhs v.
Proof.
  eexists; eexists; split; [apply (su_num "Global`i" (ESym "Global`i"))|]. split; [reflexivity|]. split.
  - intro F. vm_compute in F. discriminate F.
  - intros r v V. inversion V; subst; try congruence.
    match goal with E : Un_cv _ v |- _ => rename E into U end. revert U. apply harmonic_diverges. intros k K.
    unfold term. rewrite v_times. cbn [map]. rewrite !v_pow_int. unfold rprod. cbn [fold_right].
    assert (W : val (upd r (VSym "Global`i") (IZR k)) (ESym "Global`i") = IZR k) by reflexivity.
    rewrite W. cbn [powerRZ]. change (Pos.to_nat 2) with 2%nat. change (Pos.to_nat 1) with 1%nat. cbn [pow].
    assert (0 < IZR k) by (apply IZR_lt, K). field. lra.
Qed.
Print Assumptions C127_bound_variable_refuted.
