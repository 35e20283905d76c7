(* C89: isolating a variable. *)
From Coq Require Import Reals Lra Lia Psatz Bool List Permutation.
From Verif Require Import M_Syntax M_LibCalc M_LibPower M_LibTrig M_LibComplex M_LibSolve S_Real S_Trig S_Polar S_Complex S_Solve P_Polar T_LibTrig T_LibPower T_LibComplex T_LibComplex2 P_Complex P_Algebra T_LibSolve.
Import ListNotations.
Open Scope R_scope.

(* occurrences *)
Lemma ex_eqb_refl e : ex_eqb e e = true.
Proof. apply ex_eqb_eq. reflexivity. Qed.
Lemma occ_sym v s : occurs (ESym v) (ESym s) = true <-> v = s.
Proof. cbn [occurs]. rewrite orb_false_r, ex_eqb_eq. split; congruence. Qed.
Lemma occ_expr v l : occurs (ESym v) (EExpr l) = existsb (occurs (ESym v)) l.
Proof. reflexivity. Qed.
Lemma free_expr v l : freeq (ESym v) (EExpr l) <-> Forall (freeq (ESym v)) l.
Proof.
  unfold freeq. rewrite occ_expr. induction l as [|a l IH]; cbn [existsb]; [split; auto|].
  rewrite orb_false_iff, IH. split; [intros [A B]; constructor; auto|intros H; inversion H; auto].
Qed.
Lemma free_sys v n : user_symbol v -> freeq (ESym v) (sys n).
Proof. intros H. unfold freeq, sys. destruct (occurs (ESym v) (ESym (sysname n))) eqn:E; [|reflexivity]. apply occ_sym in E. destruct (H n E). Qed.
Lemma occ_head v n l : user_symbol v -> occurs (ESym v) (EExpr (sys n :: l)) = existsb (occurs (ESym v)) l.
Proof. intros H. rewrite occ_expr. cbn [existsb]. pose proof (free_sys v n H) as F. unfold freeq in F. rewrite F. reflexivity. Qed.
Lemma free_app v n l : user_symbol v -> freeq (ESym v) (EExpr (sys n :: l)) <-> Forall (freeq (ESym v)) l.
Proof. intros H. rewrite free_expr. split; [intros F; inversion F; assumption|intros F; constructor; [apply free_sys, H|exact F]]. Qed.
Lemma free_int v n : freeq (ESym v) (EInt n). Proof. reflexivity. Qed.
Lemma occ_part v a e : part a e -> occurs (ESym v) a = true -> occurs (ESym v) e = true.
Proof.
  induction 1 as [e|e a l Hp IH Hin]; [auto|]. intros H. rewrite occ_expr. apply existsb_exists. exists a. auto.
Qed.
Lemma part_trans a b c : part a b -> part b c -> part a c.
Proof. intros H1 H2. induction H2 as [e|e x l Hp IH Hin]; [assumption|]. apply (part_arg a x l); auto. Qed.
Lemma coeff_part v z a e : part a e -> coefficients_nonzero v z e -> coefficients_nonzero v z a.
Proof. intros Hp H l f Hl. apply H. eapply part_trans; eauto. Qed.
Lemma coeff_free v z e : freeq (ESym v) e -> coefficients_nonzero v z e.
Proof. intros F l f Hp Ho _ _ _. pose proof (occ_part _ _ _ Hp Ho) as O. unfold freeq in F. congruence. Qed.

(* n-th roots *)
Definition rho (n : R) : cplx := cpowc (real (-1)) (real (1 / n)).
Lemma y_root z a b : cval z (cPower a (ERat 1 b)) = cpowc (cval z a) (real (1 / IZR b)).
Proof. rewrite w_pow by discriminate. reflexivity. Qed.
Lemma rho_exp n k : n <> 0 -> cpowc (real (-1)) (real (k / n)) = cexp (0, k * PI / n).
Proof.
  intros Hn. rewrite cpowc_ne by (apply real_ne; lra). rewrite clog_neg by lra. replace (- -1) with 1 by ring. rewrite ln_1.
  f_equal. apply cplx_eq; cbn [cmul real fst snd]; field; exact Hn.
Qed.
Lemma rho_pow n (k : nat) : n <> 0 -> cpow_nat (rho n) k = cpowc (real (-1)) (real (INR k / n)).
Proof.
  intros Hn. unfold rho. rewrite !rho_exp by exact Hn. rewrite cpow_nat_exp. f_equal. apply cplx_eq; cbn [cmul real fst snd]; field; exact Hn.
Qed.
Lemma cexp_ipi : cexp (0, PI) = (- (1))%C.
Proof. unfold cexp. cbn [fst snd]. rewrite exp_0, cos_PI, sin_PI. apply cplx_eq; cbn [copp real fst snd]; ring. Qed.
Lemma rho_3 : let p := rho 3 in (p * p - p + 1 = 0)%C.
Proof.
  intros p. assert (H3 : (p * (p * p) = - (1))%C).
  { unfold p, rho. rewrite ccbrt_cube. rewrite <- real_opp. reflexivity. }
  assert (N : (p + 1)%C <> real 0).
  { intros E. unfold p, rho in E. rewrite rho_exp in E by lra. unfold cexp in E. cbn [fst snd] in E. apply (f_equal snd) in E. cbn [cadd real fst snd] in E.
    rewrite exp_0 in E. assert (0 < sin (1 * PI / 3)) by (apply sin_gt_0; pose proof PI_RGT_0; lra). lra. }
  assert (E : ((p + 1) * (p * p - p + 1) = 0)%C) by (transitivity (p * (p * p) + 1)%C; [ring|rewrite H3; ring]).
  apply cmul_0 in E. destruct E as [E|E]; [contradiction|exact E].
Qed.
Lemma rho_5 : let p := rho 5 in (p * p * (p * p) - p * (p * p) + p * p - p + 1 = 0)%C /\ (p * (p * p * (p * p)) = - (1))%C.
Proof.
  intros p. assert (H5 : (p * (p * p * (p * p)) = - (1))%C).
  { pose proof (rho_pow 5 5 ltac:(lra)) as H. rewrite rho_exp in H by lra. cbn [cpow_nat INR] in H. replace ((1 + 1 + 1 + 1 + 1) * PI / 5) with PI in H by field.
    rewrite cexp_ipi in H. rewrite <- H. unfold p. ring. }
  split; [|exact H5].
  assert (N : (p + 1)%C <> real 0).
  { intros E. unfold p, rho in E. rewrite rho_exp in E by lra. unfold cexp in E. cbn [fst snd] in E. apply (f_equal snd) in E. cbn [cadd real fst snd] in E.
    rewrite exp_0 in E. assert (0 < sin (1 * PI / 5)) by (apply sin_gt_0; pose proof PI_RGT_0; lra). lra. }
  assert (E : ((p + 1) * (p * p * (p * p) - p * (p * p) + p * p - p + 1) = 0)%C) by (transitivity (p * (p * p * (p * p)) + 1)%C; [ring|rewrite H5; ring]).
  apply cmul_0 in E. destruct E as [E|E]; [contradiction|exact E].
Qed.
Lemma y_rho z n d : (0 < d)%Z -> (0 <= n)%Z -> cval z (root_of_m1 n d) = cpow_nat (rho (IZR d)) (Z.to_nat n).
Proof.
  intros Hd Hn. unfold root_of_m1. rewrite w_pow by discriminate. rewrite w_int, w_rat. rewrite rho_pow by (apply not_0_IZR; lia).
  rewrite INR_IZR_INZ, Z2Nat.id by exact Hn. reflexivity.
Qed.
Lemma y_4 z a : cval z (ipow a 4) = (cval z a * (cval z a * (cval z a * cval z a)))%C.
Proof. unfold ipow. rewrite w_powZ. change (cpow_Z (cval z a) 4) with (cval z a * (cval z a * (cval z a * (cval z a * 1))))%C. rewrite cmul_1_r. reflexivity. Qed.
Lemma y_5 z a : cval z (ipow a 5) = (cval z a * (cval z a * (cval z a * (cval z a * cval z a))))%C.
Proof. unfold ipow. rewrite w_powZ. change (cpow_Z (cval z a) 5) with (cval z a * (cval z a * (cval z a * (cval z a * (cval z a * 1)))))%C. rewrite cmul_1_r. reflexivity. Qed.
Lemma root_cubes (x t p : cplx) : (p * p - p + 1 = 0)%C ->
  (x * (x * x) = t * (t * t))%C <-> x = t \/ x = (- p * t)%C \/ x = (p * p * t)%C.
Proof.
  intros Hp. rewrite <- csub_0.
  assert (E : (x * (x * x) - t * (t * t) = (x - t) * ((x - - p * t) * (x - p * p * t)))%C).
  { transitivity (x * (x * x) - t * (t * t) + (- (p * p - p + 1) * (x * (x - t) * t + (p + 1) * (t * t * (x - t))) ))%C.
    - rewrite Hp. ring.
    - ring. }
  rewrite E, !prod0, !csub_0. tauto.
Qed.
Lemma root_fourths (x t : cplx) :
  (x * (x * (x * x)) = t * (t * (t * t)))%C <-> x = (- t)%C \/ x = (- ci * t)%C \/ x = (ci * t)%C \/ x = t.
Proof.
  rewrite <- csub_0.
  assert (Hi : (ci * ci = - (1))%C) by (apply cplx_eq; cbn [cmul ci copp real fst snd]; ring).
  assert (E : (x * (x * (x * x)) - t * (t * (t * t)) = (x - - t) * ((x - - ci * t) * ((x - ci * t) * (x - t))))%C).
  { transitivity ((x * x - t * t) * (x * x - (ci * ci) * (t * t)))%C; [rewrite Hi; ring|ring]. }
  rewrite E, !prod0, !csub_0. tauto.
Qed.
Lemma root_fifths (x t p : cplx) : (p * p * (p * p) - p * (p * p) + p * p - p + 1 = 0)%C -> (p * (p * p * (p * p)) = - (1))%C ->
  (x * (x * (x * (x * x))) = t * (t * (t * (t * t))))%C <->
  x = t \/ x = (- p * t)%C \/ x = (p * p * t)%C \/ x = (- (p * (p * p)) * t)%C \/ x = (p * p * (p * p) * t)%C.
Proof.
  intros Hp H5. rewrite <- csub_0.
  set (al := (p - p * p * (p * p))%C). set (be := (p * (p * p) - p * p)%C).
  assert (Hab : (al + be = 1)%C).
  { unfold al, be. transitivity (1 - (p * p * (p * p) - p * (p * p) + p * p - p + 1))%C; [ring|rewrite Hp; ring]. }
  assert (Hm : (al * be = - (1))%C).
  { unfold al, be. transitivity (p * p * (p * p) - p * (p * p) - p * (p * p * (p * p)) * (p * p) + p * (p * p * (p * p)) * p)%C; [ring|]. rewrite H5.
    transitivity (p * p * (p * p) - p * (p * p) + p * p - p + 1 - 1)%C; [ring|rewrite Hp; ring]. }
  assert (E : (x * (x * (x * (x * x))) - t * (t * (t * (t * t))) =
     (x - t) * ((x - - p * t) * ((x - p * p * t) * ((x - - (p * (p * p)) * t) * (x - p * p * (p * p) * t)))))%C).
  { transitivity ((x - t) * ((x * x + al * (t * x) - p * (p * p * (p * p)) * (t * t)) * (x * x + be * (t * x) - p * (p * p * (p * p)) * (t * t))))%C.
    - rewrite H5. transitivity ((x - t) * (x * x * (x * x) + (al + be) * (t * (x * (x * x))) + (two + al * be) * (t * t * (x * x)) + (al + be) * (t * (t * t) * x) + t * t * (t * t)))%C.
      + rewrite Hab, Hm. ring.
      + ring.
    - unfold al, be. ring. }
  rewrite E, !prod0, !csub_0. tauto.
Qed.

(* PowerExpand of a square root may change its value (C87_sqrt_refuted) but not its square *)
Lemma cinv_mul x y : cinv (x * y)%C = (cinv x * cinv y)%C.
Proof.
  destruct (czero_dec x) as [-> | Hx]; [replace (0 * y)%C with (real 0) by ring; rewrite cinv_0; ring|].
  destruct (czero_dec y) as [-> | Hy]; [replace (x * 0)%C with (real 0) by ring; rewrite cinv_0; ring|].
  apply (inv_mul_fact _ _ _ _ _ _ _ _ _ cplx_field); assumption.
Qed.
Lemma cinv_inv x : cinv (cinv x) = x.
Proof.
  destruct (czero_dec x) as [-> | Hx]; [rewrite !cinv_0; reflexivity|].
  apply (inv_inv_fact _ _ _ _ _ _ _ _ _ cplx_field). exact Hx.
Qed.
Lemma cpow_Z_exp x n : x <> real 0 -> cpow_Z x n = cexp (real (IZR n) * clog x)%C.
Proof.
  intros Hx. assert (Hn : forall k, cpow_nat x k = cexp (real (INR k) * clog x)%C).
  { intros k. rewrite <- cpow_nat_exp, cexp_log by exact Hx. reflexivity. }
  destruct n as [|p|p]; cbn [cpow_Z].
  - replace (real 0 * clog x)%C with (real 0) by ring. rewrite cexp_real, exp_0. reflexivity.
  - rewrite Hn, INR_IZR_INZ, positive_nat_Z. reflexivity.
  - rewrite Hn, INR_IZR_INZ, positive_nat_Z. change (Zneg p) with (- Zpos p)%Z. rewrite opp_IZR, real_opp.
    set (w := (real (IZR (Z.pos p)) * clog x)%C). replace (- real (IZR (Z.pos p)) * clog x)%C with (- w)%C by (unfold w; ring).
    assert (E : (cexp w * cexp (- w) = 1)%C).
    { rewrite <- cexp_add. replace (w + - w)%C with (real 0) by ring. rewrite cexp_real, exp_0. reflexivity. }
    transitivity (cinv (cexp w) * (cexp w * cexp (- w)))%C; [rewrite E; ring|].
    transitivity (cinv (cexp w) * cexp w * cexp (- w))%C; [ring|]. rewrite (Finv_l cplx_field) by apply cexp_ne. ring.
Qed.
Lemma cpow_Z_0 n : n <> 0%Z -> cpow_Z (real 0) n = real 0.
Proof.
  intros Hn. assert (H : forall k, (0 < k)%nat -> cpow_nat (real 0) k = real 0).
  { intros k Hk. destruct k as [|k]; [lia|]. cbn [cpow_nat]. ring. }
  destruct n as [|p|p]; cbn [cpow_Z]; [congruence| |]; rewrite H by lia; [reflexivity|apply cinv_0].
Qed.
Lemma y_half_pow z a : cval z (cPower a half) = cpowc (cval z a) (real (1 / 2)).
Proof. unfold half. rewrite w_pow by discriminate. reflexivity. Qed.
Lemma sqrt_expand_sq z r s : power_expand_rule (cPower r half) s -> (forall a, r <> cPower a (EInt 0)) -> (cval z s * cval z s)%C = cval z r.
Proof.
  intros H N. inversion H as [| |a E|a E|a b E|a b n d E1 E2]; subst.
  - rewrite !w_times2, y_half_pow, w_i, y_m1c. rewrite <- (csqrt_sq (cval z a)) at 3.
    set (k := cpowc (cval z a) (real (1 / 2))). transitivity ((ci * ci) * (k * k))%C; [ring|].
    replace (ci * ci)%C with (- (1))%C by (apply cplx_eq; cbn [cmul ci copp real fst snd]; ring). ring.
  - pose proof (y_2 z s) as E2. unfold ipow in E2. rewrite E2. reflexivity.
  - rewrite !w_times2, !y_inv, !y_half_pow. rewrite <- (csqrt_sq (cval z a)) at 3. rewrite <- (csqrt_sq (cval z b)) at 3. rewrite cinv_mul. ring.
  - rewrite w_pow by discriminate. rewrite w_powZ, w_times2, w_int, w_rat.
    destruct (czero_dec (cval z a)) as [-> | Ha].
    + rewrite cpowc_0, cpow_Z_0; [ring|]. intros ->. apply (N a). reflexivity.
    + rewrite cpowc_ne by exact Ha. rewrite <- cexp_add, cpow_Z_exp by exact Ha. f_equal.
      transitivity ((real (1 / 2) + real (1 / 2)) * (real (IZR b) * clog (cval z a)))%C; [ring|].
      replace (real (1 / 2) + real (1 / 2))%C with (real 1) by (apply cplx_eq; cbn [cadd real fst snd]; field). ring.
Qed.
Lemma sq_eq (x s r : cplx) : (s * s = r)%C -> (x * x = r)%C <-> x = (- s)%C \/ x = s.
Proof.
  intros <-. rewrite <- csub_0. replace (x * x - s * s)%C with ((x - - s) * (x - s))%C by ring. rewrite prod0, !csub_0. reflexivity.
Qed.
Lemma free_cval_times v z l x nv : Permutation l (x :: nv) -> user_symbol v -> occurs (ESym v) x = true -> Forall (freeq (ESym v)) nv ->
  coefficients_nonzero v z (cTimes l) -> cval z (cTimes nv) <> real 0.
Proof.
  intros Hp Hu Ho Hf Hc. assert (Hl : occurs (ESym v) (cTimes l) = true).
  { unfold cTimes; rewrite occ_head by exact Hu. apply existsb_exists. exists x. split; [|exact Ho]. eapply Permutation_in; [symmetry; exact Hp|left; reflexivity]. }
  assert (Hin : forall f, In f nv -> cval z f <> real 0).
  { intros f Hin. apply (Hc l f); [constructor|exact Hl| |].
    - eapply Permutation_in; [symmetry; exact Hp|right; exact Hin].
    - rewrite Forall_forall in Hf. auto. }
  clear Hf Hp. induction nv as [|f nv IH].
  - rewrite y_nil_t. apply real_ne. lra.
  - rewrite w_timesc. apply cmul_ne; [apply Hin; left; reflexivity|]. apply IH. intros g Hg. apply Hin. right. exact Hg.
Qed.
Ltac one_of := cbn [In]; tauto.
Lemma inverse_value v z l r eqs : inverse v l r eqs -> user_symbol v -> coefficients_nonzero v z l ->
  (cval z l = cval z r <-> exists x s, In (x, s) eqs /\ cval z x = cval z s).
Proof.
  intros H Hu Hc. destruct H as [l x nv rhs Hp Ho Hf|l x nv rhs Hp Ho Hf|x rhs|x rhs s Hs|x rhs k|x rhs k|x rhs k].
  - rewrite (w_plus_perm z _ _ Hp), w_plusc. split.
    + intros E. exists x, (esub rhs (cPlus nv)). split; [one_of|]. rewrite y_sub, <- E. ring.
    + intros (x' & s & Hin & E). cbn [In] in Hin. destruct Hin as [Hin|[]]. injection Hin as <- <-. rewrite E, y_sub. ring.
  - pose proof (free_cval_times v z l x nv Hp Hu Ho Hf Hc) as N. rewrite (w_times_perm z _ _ Hp), w_timesc.
    assert (K : cval z (ediv rhs (cTimes nv)) = (cval z rhs * cinv (cval z (cTimes nv)))%C) by apply y_div. split.
    + intros E. exists x, (ediv rhs (cTimes nv)). split; [one_of|]. rewrite K, <- E.
      transitivity (cval z x * (cinv (cval z (cTimes nv)) * cval z (cTimes nv)))%C; [rewrite (Finv_l cplx_field) by exact N; ring|ring].
    + intros (x' & s & Hin & E). cbn [In] in Hin. destruct Hin as [Hin|[]]. injection Hin as <- <-. rewrite E, K.
      transitivity (cval z rhs * (cinv (cval z (cTimes nv)) * cval z (cTimes nv)))%C; [ring|rewrite (Finv_l cplx_field) by exact N; ring].
  - unfold ipow. rewrite y_inv. split.
    + intros E. exists x, (ediv (EInt 1) rhs). split; [one_of|]. rewrite y_div, w_int, <- E. unfold cdiv. rewrite cinv_inv. ring.
    + intros (x' & s & Hin & E). cbn [In] in Hin. destruct Hin as [Hin|[]]. injection Hin as <- <-. rewrite E, y_div, w_int. unfold cdiv.
      rewrite cmul_1_l. apply cinv_inv.
  - assert (Hss : (cval z s * cval z s)%C = cval z rhs).
    { destruct Hs as [-> | [Hs N]]; [rewrite y_sqrt; apply csqrt_sq|apply sqrt_expand_sq; assumption]. }
    rewrite y_2, (sq_eq _ _ _ Hss), <- y_neg. split.
    + intros [E|E]; [exists x, (eneg s)|exists x, s]; (split; [one_of|exact E]).
    + intros (x' & s' & Hin & E). cbn [In] in Hin. destruct Hin as [Hin|[Hin|[]]]; injection Hin as <- <-; tauto.
  - set (t := cval z k). assert (Ht : (t * (t * t))%C = cval z rhs) by (unfold t, k; rewrite y_root; apply ccbrt_cube).
    rewrite y_3, <- Ht, (root_cubes _ _ _ rho_3).
    assert (E1 : cval z (cTimes [EInt (-1); root_of_m1 1 3; k]) = (- rho 3 * t)%C).
    { rewrite w_times3, y_m1c, y_rho by lia. change (Z.to_nat 1) with 1%nat. cbn [cpow_nat]. fold t. ring. }
    assert (E2 : cval z (cTimes [root_of_m1 2 3; k]) = (rho 3 * rho 3 * t)%C).
    { rewrite w_times2, y_rho by lia. change (Z.to_nat 2) with 2%nat. cbn [cpow_nat]. fold t. ring. }
    rewrite <- E1, <- E2. split.
    + intros [E|[E|E]]; (eexists; eexists; split; [|exact E]); one_of.
    + intros (x' & s' & Hin & E). cbn [In] in Hin. repeat (destruct Hin as [Hin|Hin]; [injection Hin as <- <-; unfold t; tauto|]). destruct Hin.
  - set (t := cval z k). assert (Ht : (t * (t * (t * t)))%C = cval z rhs).
    { unfold t, k. rewrite y_root. pose proof (cpowc_nat_inv (cval z rhs) 4 ltac:(lia)) as H. rewrite INR_IZR_INZ in H. cbn [cpow_nat Z.of_nat Pos.of_succ_nat Pos.succ] in H.
      rewrite cmul_1_r in H. replace (1 / 4) with (/ 4) by field. exact H. }
    rewrite y_4, <- Ht, root_fourths.
    assert (E1 : cval z (cTimes [EInt (-1); eI; k]) = (- ci * t)%C) by (rewrite w_times3, y_m1c, w_i; fold t; ring).
    assert (E2 : cval z (cTimes [eI; k]) = (ci * t)%C) by (rewrite w_times2, w_i; reflexivity).
    assert (E3 : cval z (eneg k) = (- t)%C) by apply y_neg.
    rewrite <- E1, <- E2, <- E3. split.
    + intros [E|[E|[E|E]]]; (eexists; eexists; split; [|exact E]); one_of.
    + intros (x' & s' & Hin & E). cbn [In] in Hin. repeat (destruct Hin as [Hin|Hin]; [injection Hin as <- <-; unfold t; tauto|]). destruct Hin.
  - set (t := cval z k). assert (Ht : (t * (t * (t * (t * t))))%C = cval z rhs).
    { unfold t, k. rewrite y_root. pose proof (cpowc_nat_inv (cval z rhs) 5 ltac:(lia)) as H. rewrite INR_IZR_INZ in H. cbn [cpow_nat Z.of_nat Pos.of_succ_nat Pos.succ] in H.
      rewrite cmul_1_r in H. replace (1 / 5) with (/ 5) by field. exact H. }
    rewrite y_5, <- Ht, (root_fifths _ _ _ (proj1 rho_5) (proj2 rho_5)).
    assert (E1 : cval z (cTimes [EInt (-1); root_of_m1 1 5; k]) = (- rho 5 * t)%C).
    { rewrite w_times3, y_m1c, y_rho by lia. change (Z.to_nat 1) with 1%nat. cbn [cpow_nat]. fold t. ring. }
    assert (E2 : cval z (cTimes [root_of_m1 2 5; k]) = (rho 5 * rho 5 * t)%C).
    { rewrite w_times2, y_rho by lia. change (Z.to_nat 2) with 2%nat. cbn [cpow_nat]. fold t. ring. }
    assert (E3 : cval z (cTimes [EInt (-1); root_of_m1 3 5; k]) = (- (rho 5 * (rho 5 * rho 5)) * t)%C).
    { rewrite w_times3, y_m1c, y_rho by lia. change (Z.to_nat 3) with 3%nat. cbn [cpow_nat]. fold t. ring. }
    assert (E4 : cval z (cTimes [root_of_m1 4 5; k]) = (rho 5 * rho 5 * (rho 5 * rho 5) * t)%C).
    { rewrite w_times2, y_rho by lia. change (Z.to_nat 4) with 4%nat. cbn [cpow_nat]. fold t. ring. }
    rewrite <- E1, <- E2, <- E3, <- E4. split.
    + intros [E|[E|[E|[E|E]]]]; (eexists; eexists; split; [|exact E]); one_of.
    + intros (x' & s' & Hin & E). cbn [In] in Hin. repeat (destruct Hin as [Hin|Hin]; [injection Hin as <- <-; unfold t; tauto|]). destruct Hin.
Qed.

(* the sides of the equations an inverse leads to *)
Ltac free_tac Hu := repeat first [ assumption | reflexivity | apply free_int | apply (free_app _ _ _ Hu) | apply Forall_cons | apply Forall_nil ].
Lemma sqrt_expand_free v r s : user_symbol v -> freeq (ESym v) r -> power_expand_rule (cPower r half) s -> freeq (ESym v) s.
Proof.
  intros Hu Hr H. inversion H as [| |a E|a E|a b E|a b n d E1 E2]; subst; apply (free_app v _ _ Hu) in Hr.
  - inversion Hr as [|? ? _ Hr']; subst. inversion Hr'; subst. unfold cTimes, cPower, half, eI. free_tac Hu.
  - inversion Hr; assumption.
  - inversion Hr as [|? ? Ha Hr']; subst. inversion Hr' as [|? ? Hb _]; subst. apply (free_app v _ _ Hu) in Hb. inversion Hb; subst.
    unfold cTimes, cPower, half. free_tac Hu.
  - inversion Hr; subst. unfold cTimes, cPower. free_tac Hu.
Qed.
Lemma inverse_sides v l r eqs : inverse v l r eqs -> user_symbol v -> occurs (ESym v) l = true -> freeq (ESym v) r ->
  forall x s, In (x, s) eqs -> part x l /\ occurs (ESym v) x = true /\ freeq (ESym v) s.
Proof.
  intros H Hu Ho Hr x' s' Hin.
  assert (Hpow : forall x n, occurs (ESym v) (ipow x n) = true -> occurs (ESym v) x = true /\ part x (ipow x n)).
  { intros x n Hx. unfold ipow, cPower in *. rewrite occ_head in Hx by exact Hu. cbn [existsb occurs ex_eqb orb] in Hx. rewrite !orb_false_r in Hx.
    split; [exact Hx|]. apply (part_arg x x); [constructor|cbn [In]; tauto]. }
  destruct H as [l x nv rhs Hp Ho' Hf|l x nv rhs Hp Ho' Hf|x rhs|x rhs s Hs|x rhs k|x rhs k|x rhs k].
  1-2: cbn [In] in Hin; destruct Hin as [Hin|[]]; injection Hin as <- <-; split;
    [apply (part_arg x x); [constructor|right; eapply Permutation_in; [symmetry; exact Hp|left; reflexivity]]|split; [exact Ho'|]].
  - unfold esub, eneg, cPlus, cTimes. free_tac Hu.
  - unfold ediv, cPower, cTimes. free_tac Hu.
  - destruct (Hpow x _ Ho) as [Hx Hx']. cbn [In] in Hin. destruct Hin as [Hin|[]]. injection Hin as <- <-. split; [exact Hx'|]. split; [exact Hx|].
    unfold ediv, cPower, cTimes. free_tac Hu.
  - destruct (Hpow x _ Ho) as [Hx Hx']. assert (Hsf : freeq (ESym v) s).
    { destruct Hs as [-> | [Hs _]]; [unfold esqrt, app1; free_tac Hu|eapply sqrt_expand_free; eassumption]. }
    cbn [In] in Hin. destruct Hin as [Hin|[Hin|[]]]; injection Hin as <- <-; (split; [exact Hx'|split; [exact Hx|]]); unfold eneg, cTimes; free_tac Hu.
  - destruct (Hpow x _ Ho) as [Hx Hx']. cbn [In] in Hin.
    repeat (destruct Hin as [Hin|Hin]; [injection Hin as <- <-; split; [exact Hx'|split; [exact Hx|unfold k, root_of_m1, eneg, cTimes, cPower; free_tac Hu]]|]). destruct Hin.
  - destruct (Hpow x _ Ho) as [Hx Hx']. cbn [In] in Hin.
    repeat (destruct Hin as [Hin|Hin]; [injection Hin as <- <-; split; [exact Hx'|split; [exact Hx|unfold k, root_of_m1, eneg, eI, cTimes, cPower; free_tac Hu]]|]). destruct Hin.
  - destruct (Hpow x _ Ho) as [Hx Hx']. cbn [In] in Hin.
    repeat (destruct Hin as [Hin|Hin]; [injection Hin as <- <-; split; [exact Hx'|split; [exact Hx|unfold k, root_of_m1, eneg, cTimes, cPower; free_tac Hu]]|]). destruct Hin.
Qed.

Scheme isolate_ind' := Minimality for isolate Sort Prop with isolate_all_ind' := Minimality for isolate_all Sort Prop.
Combined Scheme isolate_mut from isolate_ind', isolate_all_ind'.
(* C89: the solutions the isolation of v finds are exactly the values of v at
   which the equation holds, and none of them contains v *)
Lemma isolate_both v (Hu : user_symbol v) :
  (forall l r sols, isolate v l r sols -> one_sided v l r ->
     Forall (freeq (ESym v)) sols /\
     forall z, coefficients_nonzero v z l -> coefficients_nonzero v z r ->
       (cval z l = cval z r <-> exists s, In s sols /\ cval z (ESym v) = cval z s)) /\
  (forall eqs sols, isolate_all v eqs sols -> (forall l r, In (l, r) eqs -> occurs (ESym v) l = true /\ freeq (ESym v) r) ->
     Forall (freeq (ESym v)) sols /\
     forall z, (forall l r, In (l, r) eqs -> coefficients_nonzero v z l) ->
       ((exists l r, In (l, r) eqs /\ cval z l = cval z r) <-> exists s, In s sols /\ cval z (ESym v) = cval z s)).
Proof.
  apply isolate_mut.
  - intros rest Hone. assert (Hr : freeq (ESym v) rest).
    { destruct Hone as [[_ Hr]|[Hl _]]; [exact Hr|]. assert (O : occurs (ESym v) (ESym v) = true) by (apply occ_sym; reflexivity). unfold freeq in Hl. congruence. }
    split; [constructor; [exact Hr|constructor]|]. intros z _ _. split.
    + intros E. exists rest. split; [left; reflexivity|exact E].
    + intros (s & [<-|[]] & E). exact E.
  - intros l r sols Hl Hr _ IH Hone. destruct (IH (or_introl (conj Hr Hl))) as [F V]. split; [exact F|].
    intros z Cl Cr. rewrite <- (V z Cr Cl). split; congruence.
  - intros l r eqs sols Hne Hl Hr Hinv _ IH Hone.
    pose proof (inverse_sides v l r eqs Hinv Hu Hl Hr) as Sides.
    destruct IH as [F V]; [intros l' r' Hin; destruct (Sides _ _ Hin) as (_ & A & B); auto|]. split; [exact F|].
    intros z Cl Cr. rewrite (inverse_value v z l r eqs Hinv Hu Cl). apply V.
    intros l' r' Hin. destruct (Sides _ _ Hin) as (A & _ & _). eapply coeff_part; eassumption.
  - intros _. split; [constructor|]. intros z _. split; [intros (l & r & [] & _)|intros (s & [] & _)].
  - intros l r eqs s sols _ IH1 _ IH2 Hall.
    destruct (Hall l r (or_introl eq_refl)) as [Hl Hr]. destruct (IH1 (or_introl (conj Hl Hr))) as [F1 V1].
    destruct IH2 as [F2 V2]; [intros l' r' Hin; apply Hall; right; exact Hin|].
    split; [apply Forall_app; auto|]. intros z Hc.
    assert (C1 : cval z l = cval z r <-> exists s0, In s0 s /\ cval z (ESym v) = cval z s0).
    { apply V1; [eapply Hc; left; reflexivity|apply coeff_free; exact Hr]. }
    specialize (V2 z (fun l' r' Hin => Hc l' r' (or_intror Hin))). split.
    + intros (l' & r' & [Hin|Hin] & E).
      * injection Hin as <- <-. apply C1 in E. destruct E as (s0 & Hs & E). exists s0. split; [apply in_or_app; auto|exact E].
      * destruct (proj1 V2) as (s0 & Hs & E'); [exists l', r'; auto|]. exists s0. split; [apply in_or_app; auto|exact E'].
    + intros (s0 & Hs & E). apply in_app_or in Hs. destruct Hs as [Hs|Hs].
      * exists l, r. split; [left; reflexivity|]. apply C1. exists s0. auto.
      * destruct (proj2 V2) as (l' & r' & Hin & E'); [exists s0; auto|]. exists l', r'. split; [right; exact Hin|exact E'].
Qed.
Theorem C89_isolate v z l r sols : user_symbol v -> isolate v l r sols -> one_sided v l r ->
  coefficients_nonzero v z l -> coefficients_nonzero v z r ->
  (cval z l = cval z r <-> exists s, In s sols /\ cval z (ESym v) = cval z s).
Proof. intros Hu H Hone. apply (proj1 (isolate_both v Hu) l r sols H Hone). Qed.
Print Assumptions C89_isolate.
Theorem C89_isolate_free v l r sols : user_symbol v -> isolate v l r sols -> one_sided v l r -> Forall (freeq (ESym v)) sols.
Proof. intros Hu H Hone. apply (proj1 (isolate_both v Hu) l r sols H Hone). Qed.
Print Assumptions C89_isolate_free.

(* base^pow = rhs *)
Lemma arg_2pi a b : cexp a = cexp b <-> exists k, a = (b + real 2 * (ci * (real PI * real (IZR k))))%C.
Proof.
  split.
  - intros E. assert (Er : fst a = fst b).
    { assert (M : forall w, fst (cexp w) * fst (cexp w) + snd (cexp w) * snd (cexp w) = exp (fst w) * exp (fst w)).
      { intros w. unfold cexp. cbn [fst snd]. pose proof (sin2_cos2 (snd w)) as T. unfold Rsqr in T.
        transitivity (exp (fst w) * exp (fst w) * (sin (snd w) * sin (snd w) + cos (snd w) * cos (snd w))); [ring|rewrite T; ring]. }
      pose proof (M a) as Ma. rewrite E, (M b) in Ma. rewrite <- !exp_plus in Ma. apply exp_inv in Ma. lra. }
    unfold cexp in E. rewrite Er in E. injection E as Ec Es. pose proof (exp_pos (fst b)) as P.
    apply Rmult_eq_reg_l in Ec; [|lra]. apply Rmult_eq_reg_l in Es; [|lra].
    assert (C1 : cos (snd a - snd b) = 1).
    { rewrite cos_minus, Ec, Es. pose proof (sin2_cos2 (snd b)) as T. unfold Rsqr in T. lra. }
    assert (S0 : sin ((snd a - snd b) / 2) = 0).
    { assert (T : cos (2 * ((snd a - snd b) / 2)) = 1) by (replace (2 * ((snd a - snd b) / 2)) with (snd a - snd b) by field; exact C1).
      rewrite cos_2a_sin in T. nra. }
    apply sin_eq_0_0 in S0. destruct S0 as [k Hk]. exists k.
    apply cplx_eq; cbn [cadd cmul real ci fst snd]; [rewrite Er; ring|]. nra.
  - intros [k ->]. rewrite cexp_add. 
    assert (E : cexp (real 2 * (ci * (real PI * real (IZR k))))%C = real 1).
    { unfold cexp. cbn [cmul real ci fst snd].
      match goal with |- (exp ?u * cos ?w, _) = _ => replace u with 0 by ring; replace w with (2 * (IZR k * PI)) by ring end.
      rewrite exp_0, cos_2a_sin, sin_2a, (sin_eq_0_1 (IZR k * PI)) by (exists k; reflexivity). unfold real. f_equal; ring. }
    rewrite E. ring.
Qed.
Lemma w_pow_any z a b : cval z a <> real 0 -> cval z (cPower a b) = cexp (cval z b * clog (cval z a))%C.
Proof.
  intros Ha. assert (D : (exists n, b = EInt n) \/ forall n, b <> EInt n).
  { destruct b; try (right; discriminate). left. eexists. reflexivity. }
  destruct D as [[n ->]|N]; [rewrite w_powZ, w_int; apply cpow_Z_exp; exact Ha|].
  rewrite w_pow by exact N. apply cpowc_ne. exact Ha.
Qed.
Lemma clog_int b : b <> 0%Z -> b <> 1%Z -> clog (real (IZR b)) <> real 0.
Proof.
  intros H0 H1. assert (C : (0 < b)%Z \/ (b < 0)%Z) by lia. destruct C as [C|C].
  - rewrite clog_pos by (apply IZR_lt; exact C). apply real_ne. intros E.
    assert (L : 1 < IZR b) by (apply IZR_lt; lia). pose proof (ln_increasing 1 (IZR b) ltac:(lra) L) as I. rewrite ln_1 in I. lra.
  - rewrite clog_neg by (apply IZR_lt; exact C). intros E. apply (f_equal snd) in E. cbn [real snd] in E. pose proof PI_RGT_0. lra.
Qed.
Lemma y_turn z k : cval z (cTimes [EInt 2; eI; ePi; EInt k]) = (real 2 * (ci * (real PI * real (IZR k))))%C.
Proof. rewrite !w_timesc, y_nil_t, w_i, w_pi, !w_int, cmul_1_r. reflexivity. Qed.
Lemma y_log z a : cval z (app1 "Log" a) = clog (cval z a). Proof. reflexivity. Qed.
Lemma pow_eq_log (w lb r : cplx) : lb <> real 0 -> r <> real 0 ->
  cexp (w * lb)%C = r <-> exists k, w = ((real 2 * (ci * (real PI * real (IZR k))) + clog r) / lb)%C.
Proof.
  intros Hb Hr. rewrite <- (cexp_log r Hr) at 1. rewrite arg_2pi.
  assert (D : forall c, (w * lb)%C = c <-> w = (c / lb)%C).
  { intros c. unfold cdiv. pose proof (Finv_l cplx_field _ Hb) as F. split.
    - intros <-. transitivity (w * (cinv lb * lb))%C; [rewrite F; ring|ring].
    - intros ->. transitivity (c * (cinv lb * lb))%C; [ring|rewrite F; ring]. }
  split; intros [k E]; exists k.
  - apply D. rewrite E. ring.
  - apply D in E. rewrite E. ring.
Qed.
Theorem C89_pow z b pow rhs base : (exists n, base = EInt n /\ n = b /\ b <> 0%Z /\ b <> 1%Z) \/ base = eE -> cval z rhs <> real 0 ->
  (cval z (cPower base pow) = cval z rhs <-> exists k s, inverse_pow base rhs k s /\ cval z pow = cval z s).
Proof.
  intros [(n & -> & -> & H0 & H1)| ->] Hr.
  - rewrite w_pow_any by (rewrite w_int; apply real_ne, not_0_IZR, H0). rewrite w_int.
    rewrite (pow_eq_log _ _ _ (clog_int b H0 H1) Hr).
    assert (E : forall k s, inverse_pow (EInt b) rhs k s -> cval z s = ((real 2 * (ci * (real PI * real (IZR k))) + clog (cval z rhs)) / clog (real (IZR b)))%C).
    { intros k s H. inversion H as [b' rhs' k' Hb|b' rhs' k' Hb|]; subst.
      - rewrite w_plus2, !y_div, y_turn, !y_log, w_int. unfold cdiv. ring.
      - rewrite y_div, w_plus2, y_turn, !y_log, w_int. reflexivity. }
    split.
    + intros [k Ek]. exists k. assert (C : (b > 0)%Z \/ (b <= 0)%Z) by lia.
      destruct C as [C|C]; eexists; (split; [constructor; exact C|]); rewrite Ek; symmetry; apply E; constructor; exact C.
    + intros (k & s & H & Es). exists k. rewrite Es. apply E. exact H.
  - rewrite w_epow. assert (L1 : real 1 <> real 0) by (apply real_ne; lra).
    rewrite <- (cmul_1_r (cval z pow)) at 1. rewrite (pow_eq_log _ _ _ L1 Hr).
    assert (D1 : forall c, (c / 1)%C = c) by (intros c; unfold cdiv; rewrite cinv_real by lra; replace (/ 1) with 1 by field; ring).
    split.
    + intros [k Ek]. exists k. eexists. split; [constructor|]. rewrite Ek, D1, w_plus2, y_turn, y_log. reflexivity.
    + intros (k & s & H & Es). exists k. inversion H; subst. rewrite Es, D1, w_plus2, y_turn, y_log. reflexivity.
Qed.
Print Assumptions C89_pow.
(* no power of a number other than 0 is 0 *)
Theorem C89_pow_zero z base pow rhs : cval z base <> real 0 -> cval z rhs = real 0 -> cval z (cPower base pow) <> cval z rhs.
Proof. intros Hb -> . rewrite w_pow_any by exact Hb. apply cexp_ne. Qed.
Print Assumptions C89_pow_zero.
(* any other base: what is found is a solution ... *)
Theorem C89_pow_other_partial z base pow rhs : cval z base <> real 0 -> clog (cval z base) <> real 0 -> cval z rhs <> real 0 ->
  cval z pow = cval z (inverse_pow_other base rhs) -> cval z (cPower base pow) = cval z rhs.
Proof.
  intros Hb Hl Hr E. rewrite w_pow_any by exact Hb. apply (pow_eq_log _ _ _ Hl Hr). exists 0%Z. rewrite E. unfold inverse_pow_other. rewrite y_div, !y_log.
  f_equal. ring.
Qed.
Print Assumptions C89_pow_other_partial.
(* ... but not the only one *)
Theorem C89_pow_other_refuted : exists z base pow rhs, cval z base <> real 0 /\ clog (cval z base) <> real 0 /\ cval z rhs <> real 0 /\
  cval z (cPower base pow) = cval z rhs /\ cval z pow <> cval z (inverse_pow_other base rhs).
Proof.
  exists (fun e => if ex_eqb e (ESym "a") then real 2 else (0, 2 * PI / ln 2)), (ESym "a"), (ESym "x"), (EInt 1).
  set (z := fun e => _). assert (L2 : 0 < ln 2) by (rewrite <- ln_1; apply ln_increasing; lra).
  change (cval z (ESym "a")) with (real 2). change (cval z (ESym "x")) with ((0, 2 * PI / ln 2) : cplx).
  split; [apply real_ne; lra|]. split; [rewrite clog_pos by lra; apply real_ne; lra|]. split; [rewrite w_int; apply real_ne; lra|]. split.
  - rewrite w_pow_any by (change (cval z (ESym "a")) with (real 2); apply real_ne; lra).
    change (cval z (ESym "a")) with (real 2). change (cval z (ESym "x")) with ((0, 2 * PI / ln 2) : cplx). rewrite clog_pos by lra.
    unfold cexp. cbn [cmul real fst snd].
    match goal with |- (exp ?u * cos ?w, _) = _ => replace u with 0 by ring; replace w with (2 * PI) by (field; lra) end.
    rewrite exp_0, cos_2PI, sin_2PI, w_int. unfold real. f_equal; ring.
  - unfold inverse_pow_other. rewrite y_div, !y_log, w_int, clog_pos, ln_1 by lra. intros E. apply (f_equal snd) in E.
    change (cval z (ESym "a")) with (real 2) in E. rewrite clog_pos in E by lra. unfold cdiv in E. rewrite cinv_real in E by lra. cbn [cmul real fst snd] in E.
    pose proof PI_RGT_0. assert (0 < 2 * PI / ln 2) by (apply Rdiv_lt_0_compat; lra). lra.
Qed.
Print Assumptions C89_pow_other_refuted.

(* base^(1/n) = rhs: the n-th power of rhs is the only candidate, but it is a
   solution only if rhs lies in the range of the principal root *)
Theorem C89_root_partial z base n rhs : (0 < n)%Z -> cval z (cPower base (ERat 1 n)) = cval z rhs -> cval z base = cval z (inverse_root rhs n).
Proof.
  intros Hn E. unfold inverse_root. rewrite w_powZ, <- E, y_root. destruct n as [|p|p]; try lia. cbn [cpow_Z].
  pose proof (cpowc_nat_inv (cval z base) (Pos.to_nat p) ltac:(lia)) as H. rewrite INR_IZR_INZ, positive_nat_Z in H.
  replace (1 / IZR (Z.pos p)) with (/ IZR (Z.pos p)) by (unfold Rdiv; ring). symmetry. exact H.
Qed.
Print Assumptions C89_root_partial.
Theorem C89_root_refuted : exists z base n rhs, (0 < n)%Z /\ cval z base = cval z (inverse_root rhs n) /\ cval z (cPower base (ERat 1 n)) <> cval z rhs.
Proof.
  exists (fun e => if ex_eqb e (ESym "x") then real 1 else real (-1)), (ESym "x"), 2%Z, (ESym "y"). set (z := fun e => _).
  change (cval z (ESym "x")) with (real 1). change (cval z (ESym "y")) with (real (-1)). split; [lia|]. split.
  - change (cval z (inverse_root (ESym "y") 2)) with (real (-1) * (real (-1) * 1))%C. apply cplx_eq; cbn; ring.
  - rewrite y_root. change (cval z (ESym "x")) with (real 1). rewrite pow_pos_real, ln_1, Rmult_0_r, exp_0 by lra. intros E. apply (f_equal fst) in E. cbn in E. lra.
Qed.
Print Assumptions C89_root_refuted.

(* Log[x] = rhs *)
Theorem C89_log z x rhs : cval z x <> real 0 ->
  (cval z (app1 "Log" x) = cval z rhs <-> - PI < snd (cval z rhs) <= PI /\ cval z x = cval z (inverse_log rhs)).
Proof.
  intros Hx. unfold inverse_log. rewrite w_epow, y_log. split.
  - intros <-. split; [unfold clog; cbn [snd]; apply carg_range; intros [A B]; apply Hx; apply cplx_eq; [exact A|exact B]|]. symmetry. apply cexp_log. exact Hx.
  - intros [Hr ->]. apply log_exp. exact Hr.
Qed.
Print Assumptions C89_log.
(* Abs[x] = rhs: all real solutions, but not the complex ones *)
Theorem C89_abs_partial z x rhs u v : cval z x = real u -> cval z rhs = real v -> 0 <= v ->
  (cval z (abs_ x) = cval z rhs <-> exists s, In s (inverse_abs rhs) /\ cval z x = cval z s).
Proof.
  intros Hx Hr Hv. rewrite w_abs, Hx, cabs_real, Hr. split.
  - intros E. apply (f_equal fst) in E. cbn [real fst] in E. unfold Rabs in E. destruct (Rcase_abs u) as [C|C].
    + exists (eneg rhs). split; [left; reflexivity|]. rewrite y_neg, Hr, <- real_opp. f_equal. lra.
    + exists rhs. split; [right; left; reflexivity|]. rewrite Hr. f_equal. exact E.
  - intros (s & Hin & E). cbn [inverse_abs In] in Hin. destruct Hin as [<-|[<-|[]]].
    + rewrite y_neg, Hr, <- real_opp in E. apply (f_equal fst) in E. cbn [real fst] in E. subst u. rewrite Rabs_Ropp, Rabs_pos_eq by exact Hv. reflexivity.
    + rewrite Hr in E. apply (f_equal fst) in E. cbn [real fst] in E. subst u. rewrite Rabs_pos_eq by exact Hv. reflexivity.
Qed.
Print Assumptions C89_abs_partial.
Theorem C89_abs_refuted : exists z x rhs, cval z (abs_ x) = cval z rhs /\ forall s, In s (inverse_abs rhs) -> cval z x <> cval z s.
Proof.
  exists (fun _ => ci), (ESym "x"), (EInt 1). split.
  - rewrite w_abs. change (cval (fun _ => ci) (ESym "x")) with ci. unfold cabs, ci. cbn [fst snd]. replace (0 * 0 + 1 * 1) with 1 by ring. rewrite sqrt_1. reflexivity.
  - intros s Hin. change (cval (fun _ => ci) (ESym "x")) with ci. cbn [inverse_abs In] in Hin.
    destruct Hin as [<-|[<-|[]]]; [rewrite y_neg|]; rewrite w_int; intros E; apply (f_equal fst) in E; cbn in E; lra.
Qed.
Print Assumptions C89_abs_refuted.
(* PowerExpand inside the root: x^2 = Sqrt[y^2] is turned into x = -Sqrt[y], Sqrt[y] *)
Theorem C89_power_expand_refuted : exists z y r r', power_expand_rule (cPower (cPower y (EInt 2)) half) r' /\ r = cPower (cPower y (EInt 2)) half /\
  (cval z (esqrt r') * cval z (esqrt r'))%C <> cval z r.
Proof.
  destruct C87_sqrt_refuted as (z & x & H & N). exists z, x, (cPower (cPower x (EInt 2)) half), x. split; [exact H|]. split; [reflexivity|].
  rewrite y_sqrt, csqrt_sq. exact N.
Qed.
Print Assumptions C89_power_expand_refuted.

(* the trigonometric functions, over the reals *)
Section Trig.
Variable r : var -> R.
Hypothesis C : constants r.
Lemma v_turns k : val r (turns k) = 2 * (IZR k * PI).
Proof. unfold turns. rewrite v_times. cbn [map]. rewrite !v_int, (v_pi r C). unfold rprod. cbn [fold_right]. ring. Qed.
Lemma v_eneg a : val r (eneg a) = - val r a.
Proof. unfold eneg. rewrite v_times. cbn [map]. rewrite v_int. unfold rprod. cbn [fold_right]. ring. Qed.
Lemma v_one_over a : val r (ediv (EInt 1) a) = / val r a.
Proof. unfold ediv. rewrite v_times. cbn [map]. change (cPower a (EInt (-1))) with (recip a). rewrite v_int, (v_recip r a). unfold rprod. cbn [fold_right]. ring. Qed.
Lemma v_plus2' a b : val r (cPlus [a; b]) = val r a + val r b.
Proof. rewrite v_plus. cbn [map]. unfold rsum. cbn [fold_right]. ring. Qed.
Lemma v_plus3' a b c : val r (cPlus [a; b; c]) = val r a + val r b + val r c.
Proof. rewrite v_plus. cbn [map]. unfold rsum. cbn [fold_right]. ring. Qed.
Lemma sin_period' x k : sin (x + 2 * (IZR k * PI)) = sin x.
Proof. rewrite sin_plus, cos_2a_sin, sin_2a, (sin_eq_0_1 (IZR k * PI)) by (exists k; reflexivity). ring. Qed.
Lemma cos_period' x k : cos (x + 2 * (IZR k * PI)) = cos x.
Proof. rewrite cos_plus, cos_2a_sin, sin_2a, (sin_eq_0_1 (IZR k * PI)) by (exists k; reflexivity). ring. Qed.
Lemma cos_solutions u v : -1 <= v <= 1 -> (cos u = v <-> exists k, u = - acos v + 2 * (IZR k * PI) \/ u = acos v + 2 * (IZR k * PI)).
Proof.
  intros Hv. split.
  - intros E. rewrite <- (cos_acos v Hv) in E.
    assert (P : sin ((u - acos v) / 2) * sin ((u + acos v) / 2) = 0).
    { pose proof (form2 u (acos v)) as F. rewrite E in F. replace ((u - acos v) / 2) with ((u - acos v) / 2) in F by reflexivity. lra. }
    apply Rmult_integral in P. destruct P as [P|P]; apply sin_eq_0_0 in P; destruct P as [k Hk]; exists k; [right|left]; lra.
  - intros [k [-> | ->]]; rewrite cos_period'; [rewrite cos_neg|]; apply cos_acos; exact Hv.
Qed.
Lemma sin_solutions u v : -1 <= v <= 1 -> (sin u = v <-> exists k, u = PI - asin v + 2 * (IZR k * PI) \/ u = asin v + 2 * (IZR k * PI)).
Proof.
  intros Hv. split.
  - intros E. rewrite <- (sin_asin v Hv) in E.
    assert (P : cos ((u + asin v) / 2) * sin ((u - asin v) / 2) = 0).
    { pose proof (form4 u (asin v)) as F. rewrite E in F. lra. }
    apply Rmult_integral in P. destruct P as [P|P].
    + apply cos_eq_0_0 in P. destruct P as [k Hk]. exists k. left. lra.
    + apply sin_eq_0_0 in P. destruct P as [k Hk]. exists k. right. lra.
  - intros [k [-> | ->]]; rewrite sin_period'; [rewrite sin_PI_x|]; apply sin_asin; exact Hv.
Qed.
Lemma tan_solutions u v : cos u <> 0 -> (sin u / cos u = v <-> exists k, u = atan v + IZR k * PI).
Proof.
  intros Hu. pose proof (atan_bound v) as B. assert (Ca : 0 < cos (atan v)) by (apply cos_gt_0; lra).
  assert (Ta : sin (atan v) / cos (atan v) = v) by apply tan_atan. split.
  - intros E. assert (S0 : sin (u - atan v) = 0).
    { rewrite sin_minus. rewrite <- Ta in E. assert (Es : sin u = sin (atan v) / cos (atan v) * cos u) by (rewrite <- E; field; exact Hu). rewrite Es. field. lra. }
    apply sin_eq_0_0 in S0. destruct S0 as [k Hk]. exists k. lra.
  - intros [k ->]. rewrite cos_plus in Hu. rewrite sin_plus, cos_plus.
    assert (S0 : sin (IZR k * PI) = 0) by (apply sin_eq_0_1; exists k; reflexivity). rewrite S0 in *.
    assert (Ck : cos (IZR k * PI) <> 0) by (intros Z; apply Hu; rewrite Z; ring).
    transitivity (sin (atan v) / cos (atan v)); [|exact Ta]. field. split; [|exact Ck || lra]. exact Ck || lra.
Qed.
Ltac trig_sols := split;
  [ intros [k [E|E]]; exists k;
    [ eexists; split; [left; reflexivity|] | eexists; split; [right; left; reflexivity|] ]
  | intros (k & s & [<-|[<-|[]]] & E); exists k; [left|right] ].
Theorem C89_sin x rhs : -1 <= val r rhs <= 1 ->
  (val r (sin_ x) = val r rhs <-> exists k s, In s (inverse_sin rhs k) /\ val r x = val r s).
Proof.
  intros Hv. rewrite v_sin, (sin_solutions _ _ Hv).
  assert (E1 : forall k, val r (cPlus [ePi; eneg (app1 "ArcSin" rhs); turns k]) = PI - asin (val r rhs) + 2 * (IZR k * PI)).
  { intros k. rewrite v_plus3', (v_pi r C), v_eneg, v_asin, v_turns. ring. }
  assert (E2 : forall k, val r (cPlus [app1 "ArcSin" rhs; turns k]) = asin (val r rhs) + 2 * (IZR k * PI)).
  { intros k. rewrite v_plus2', v_asin, v_turns. ring. }
  trig_sols; rewrite E, ?E1, ?E2; reflexivity.
Qed.
Theorem C89_cos x rhs : -1 <= val r rhs <= 1 ->
  (val r (cos_ x) = val r rhs <-> exists k s, In s (inverse_cos rhs k) /\ val r x = val r s).
Proof.
  intros Hv. rewrite v_cos, (cos_solutions _ _ Hv).
  assert (E1 : forall k, val r (cPlus [eneg (app1 "ArcCos" rhs); turns k]) = - acos (val r rhs) + 2 * (IZR k * PI)).
  { intros k. rewrite v_plus2', v_eneg, v_acos, v_turns. ring. }
  assert (E2 : forall k, val r (cPlus [app1 "ArcCos" rhs; turns k]) = acos (val r rhs) + 2 * (IZR k * PI)).
  { intros k. rewrite v_plus2', v_acos, v_turns. ring. }
  trig_sols; rewrite E, ?E1, ?E2; reflexivity.
Qed.
Theorem C89_tan x rhs : cos (val r x) <> 0 ->
  (val r (tan_ x) = val r rhs <-> exists k s, In s (inverse_tan rhs k) /\ val r x = val r s).
Proof.
  intros Hv. rewrite v_tan by auto. rewrite (tan_solutions _ _ Hv).
  assert (E1 : forall k, val r (cPlus [app1 "ArcTan" rhs; cTimes [ePi; EInt k]]) = atan (val r rhs) + IZR k * PI).
  { intros k. rewrite v_plus2', v_atan, v_times. cbn [map]. rewrite v_int, (v_pi r C). unfold rprod. cbn [fold_right]. ring. }
  split.
  - intros [k E]. exists k. eexists. split; [left; reflexivity|]. rewrite E1. exact E.
  - intros (k & s & [<-|[]] & E). exists k. rewrite E. apply E1.
Qed.
Lemma inv_eq a b : a <> 0 -> b <> 0 -> (/ a = b <-> a = / b).
Proof. intros Ha Hb. split; [intros <-|intros ->]; rewrite Rinv_inv; reflexivity. Qed.
Lemma inv_range b : 1 <= Rabs b -> -1 <= / b <= 1.
Proof.
  intros H. assert (N : b <> 0) by (intros ->; rewrite Rabs_R0 in H; lra).
  assert (A : Rabs (/ b) <= 1) by (rewrite Rabs_inv, <- Rinv_1; apply Rinv_le_contravar; lra).
  unfold Rabs in A. destruct (Rcase_abs (/ b)); lra.
Qed.
Theorem C89_sec x rhs : cos (val r x) <> 0 -> 1 <= Rabs (val r rhs) ->
  (val r (app1 "Sec" x) = val r rhs <-> exists k s, In s (inverse_sec rhs k) /\ val r x = val r s).
Proof.
  intros Hx Hr. assert (N : val r rhs <> 0) by (intros E; rewrite E, Rabs_R0 in Hr; lra).
  rewrite v_sec, (inv_eq _ _ Hx N), (cos_solutions _ _ (inv_range _ Hr)).
  assert (E1 : forall k, val r (cPlus [eneg (app1 "ArcCos" (ediv (EInt 1) rhs)); turns k]) = - acos (/ val r rhs) + 2 * (IZR k * PI)).
  { intros k. rewrite v_plus2', v_eneg, v_acos, v_turns, v_one_over. ring. }
  assert (E2 : forall k, val r (cPlus [app1 "ArcCos" (ediv (EInt 1) rhs); turns k]) = acos (/ val r rhs) + 2 * (IZR k * PI)).
  { intros k. rewrite v_plus2', v_acos, v_turns, v_one_over. ring. }
  trig_sols; rewrite E, ?E1, ?E2; reflexivity.
Qed.
Theorem C89_csc x rhs : sin (val r x) <> 0 -> 1 <= Rabs (val r rhs) ->
  (val r (app1 "Csc" x) = val r rhs <-> exists k s, In s (inverse_csc rhs k) /\ val r x = val r s).
Proof.
  intros Hx Hr. assert (N : val r rhs <> 0) by (intros E; rewrite E, Rabs_R0 in Hr; lra).
  rewrite v_csc, (inv_eq _ _ Hx N), (sin_solutions _ _ (inv_range _ Hr)).
  assert (E1 : forall k, val r (cPlus [ePi; eneg (app1 "ArcSin" (ediv (EInt 1) rhs)); turns k]) = PI - asin (/ val r rhs) + 2 * (IZR k * PI)).
  { intros k. rewrite v_plus3', (v_pi r C), v_eneg, v_asin, v_turns, v_one_over. ring. }
  assert (E2 : forall k, val r (cPlus [app1 "ArcSin" (ediv (EInt 1) rhs); turns k]) = asin (/ val r rhs) + 2 * (IZR k * PI)).
  { intros k. rewrite v_plus2', v_asin, v_turns, v_one_over. ring. }
  trig_sols; rewrite E, ?E1, ?E2; reflexivity.
Qed.
End Trig.
Print Assumptions C89_sin.
Print Assumptions C89_cos.
Print Assumptions C89_tan.
Print Assumptions C89_sec.
Print Assumptions C89_csc.

(* y == 3 + 2 x^2 is solved for x *)
Definition ux : ex := ESym "Global`x".
Definition uy : ex := ESym "Global`y".
Definition sol_rhs : ex := ediv (esub uy (cPlus [EInt 3])) (cTimes [EInt 2]).
Lemma user_x : user_symbol "Global`x". Proof. intros n H. discriminate H. Qed.
Example isolate_ex : isolate "Global`x" uy (cPlus [EInt 3; cTimes [EInt 2; ipow ux 2]]) [eneg (esqrt sol_rhs); esqrt sol_rhs].
Proof.
  apply iso_swap; [reflexivity|reflexivity|].
  eapply iso_step; [discriminate|reflexivity|reflexivity|apply (inv_plus _ _ (cTimes [EInt 2; ipow ux 2]) [EInt 3]); [apply perm_swap|reflexivity|repeat constructor]|].
  replace [eneg (esqrt sol_rhs); esqrt sol_rhs] with ([eneg (esqrt sol_rhs); esqrt sol_rhs] ++ []) by apply app_nil_r.
  constructor; [|constructor].
  eapply iso_step; [discriminate|reflexivity|reflexivity|apply (inv_times _ _ (ipow ux 2) [EInt 2]); [apply perm_swap|reflexivity|repeat constructor]|].
  replace [eneg (esqrt sol_rhs); esqrt sol_rhs] with ([eneg (esqrt sol_rhs); esqrt sol_rhs] ++ []) by apply app_nil_r.
  constructor; [|constructor].
  eapply iso_step; [discriminate|reflexivity|reflexivity|apply inv_2; left; reflexivity|].
  change [eneg (esqrt sol_rhs); esqrt sol_rhs] with ([eneg (esqrt sol_rhs)] ++ [esqrt sol_rhs] ++ []).
  constructor; [constructor|]. constructor; [constructor|constructor].
Qed.
Example isolate_ex_one : one_sided "Global`x" uy (cPlus [EInt 3; cTimes [EInt 2; ipow ux 2]]).
Proof. right. split; reflexivity. Qed.
Example isolate_ex_coeff z : coefficients_nonzero "Global`x" z (cPlus [EInt 3; cTimes [EInt 2; ipow ux 2]]).
Proof.
  intros l f Hp Ho Hin Hf. unfold cTimes, cPlus in *. inversion Hp as [|e a l' Hp' Hin' E1 E2]; subst.
  cbn [In] in Hin'. destruct Hin' as [<-|[<-|[<-|[]]]]; [inversion Hp'|inversion Hp'|].
  inversion Hp' as [e E|e a l' Hp'' Hin'' E1 E2]; subst.
  - cbn [In] in Hin. destruct Hin as [<-|[<-|[]]]; [rewrite w_int; apply real_ne; lra|discriminate Hf].
  - cbn [In] in Hin''. destruct Hin'' as [<-|[<-|[<-|[]]]]; [inversion Hp''|inversion Hp''|].
    unfold ipow, cPower in Hp''. inversion Hp'' as [|e a l' Hp3 Hin3 E1 E2]; subst. cbn [In] in Hin3. destruct Hin3 as [<-|[<-|[<-|[]]]]; inversion Hp3.
Qed.
Example isolate_works z : cval z uy = cval z (cPlus [EInt 3; cTimes [EInt 2; ipow ux 2]]) <->
  cval z ux = cval z (eneg (esqrt sol_rhs)) \/ cval z ux = cval z (esqrt sol_rhs).
Proof.
  rewrite (C89_isolate _ z _ _ _ user_x isolate_ex isolate_ex_one (coeff_free "Global`x" z uy eq_refl) (isolate_ex_coeff z)).
  split; [intros (s & [<-|[<-|[]]] & E); tauto|intros [E|E]; eexists; (split; [|exact E]); cbn [In]; tauto].
Qed.
