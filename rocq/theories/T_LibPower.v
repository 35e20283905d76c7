(* C85: the rules of Power, Times and Sqrt keep the value of the expression. *)
From Coq Require Import Reals Lra Lia List Permutation QArith Qreals.
From Verif Require Import M_Syntax M_LibCalc M_LibPower S_Real S_Trig S_Polar P_Polar.
Import ListNotations.
Open Scope R_scope.

(* ---- values of the shapes the rules mention ---- *)
Lemma pv_times r z l : pval r z (cTimes l) = pprod (List.map (pval r z) l). Proof. reflexivity. Qed.
Lemma pv_power r z a b : pval r z (cPower a b) = ppow (pval r z a) (val r b). Proof. reflexivity. Qed.
Lemma pv_sqrt r z a : pval r z (app1 "Sqrt" a) = ppow (pval r z a) (1 / 2). Proof. reflexivity. Qed.
Lemma ev_times2 r a b : val r (cTimes [a; b]) = val r a * val r b.
Proof. change (val r (cTimes [a; b])) with (val r a * (val r b * 1)). lra. Qed.
Lemma ev_plus2 r a b : val r (cPlus [a; b]) = val r a + val r b.
Proof. change (val r (cPlus [a; b])) with (val r a + (val r b + 0)). lra. Qed.
Lemma ev_int r n : val r (EInt n) = IZR n. Proof. reflexivity. Qed.
Lemma ev_rat r n d : val r (ERat n d) = IZR n / IZR d. Proof. reflexivity. Qed.

(* ---- nonzero ---- *)
Lemma nz_times z l : nonzero z (cTimes l) -> Forall (nonzero z) l.
Proof.
  intros H. inversion H; subst; auto.
  exfalso. match goal with K : forall l, _ <> cTimes l |- _ => exact (K _ eq_refl) end.
Qed.
Lemma nz_power z a b : nonzero z (cPower a b) -> nonzero z a.
Proof.
  intros H. inversion H; subst; auto.
  exfalso. match goal with K : forall a b, _ <> cPower a b |- _ => exact (K _ _ eq_refl) end.
Qed.
Lemma nz_sqrt z a : nonzero z (app1 "Sqrt" a) -> nonzero z a.
Proof.
  intros H. inversion H; subst; auto.
  exfalso. match goal with K : forall a, _ <> app1 _ a |- _ => exact (K _ eq_refl) end.
Qed.
Lemma nz_int z n : nonzero z (EInt n) -> n <> 0%Z.
Proof.
  intros H. inversion H; subst; auto.
  exfalso. match goal with K : forall n, _ <> EInt n |- _ => exact (K _ eq_refl) end.
Qed.
Lemma nz_rat z n d : nonzero z (ERat n d) -> n <> 0%Z /\ (0 < d)%Z.
Proof.
  intros H. inversion H; subst; auto.
  exfalso. match goal with K : forall n d, _ <> ERat n d |- _ => exact (K _ _ eq_refl) end.
Qed.
Lemma carg_range x y : ~ (x = 0 /\ y = 0) -> in_range (carg x y).
Proof.
  intros H. unfold carg, in_range. pose proof PI_RGT_0.
  pose proof (acos_bound (x / sqrt (x * x + y * y))) as [B1 B2].
  destruct (Rle_dec 0 y) as [Hy|Hy]; [lra|].
  assert (Hs : 0 < x * x + y * y) by nra.
  assert (Hne : acos (x / sqrt (x * x + y * y)) <> PI).
  { intros E.
    assert (Hb : -1 <= x / sqrt (x * x + y * y) <= 1).
    { assert (0 < sqrt (x * x + y * y)) by (apply sqrt_lt_R0; auto).
      assert (Hq : (x / sqrt (x * x + y * y)) * (x / sqrt (x * x + y * y)) <= 1).
      { replace ((x / sqrt (x * x + y * y)) * (x / sqrt (x * x + y * y))) with (x * x / (x * x + y * y)).
        - apply Rmult_le_reg_r with (x * x + y * y); [auto|]. unfold Rdiv. rewrite Rmult_assoc, Rinv_l by lra. nra.
        - rewrite <- (sqrt_sqrt (x * x + y * y)) at 1 by lra. field. lra. }
      split; nra. }
    pose proof (cos_acos _ Hb) as Hc. rewrite E, cos_PI in Hc.
    assert (0 < sqrt (x * x + y * y)) as Hs0 by (apply sqrt_lt_R0; auto).
    assert (Hx : x = - sqrt (x * x + y * y)).
    { apply (Rmult_eq_reg_r (/ sqrt (x * x + y * y))); [|apply Rinv_neq_0_compat; lra].
      unfold Rdiv in Hc. rewrite <- Hc. field. lra. }
    pose proof (sqrt_sqrt (x * x + y * y) (Rlt_le _ _ Hs)) as Hss. nra. }
  lra.
Qed.
Lemma proper_cart x y : ~ (x = 0 /\ y = 0) -> proper (pcart x y).
Proof.
  intros H. split; cbn [pcart fst snd]; [|apply carg_range; auto].
  apply sqrt_lt_R0. destruct (Req_dec x 0) as [X|X], (Req_dec y 0) as [Y|Y]; [exfalso; auto|nra|nra|nra].
Qed.
Lemma val_exact r1 r2 a : exact_number a -> val r1 a = val r2 a.
Proof. intros [[n ->]|(n & d & -> & _)]; reflexivity. Qed.
Fixpoint nz_proper r z e (H : nonzero z e) {struct H} : proper (pval r z e).
Proof.
  destruct H as [n Hn|n d Hn Hd|a b Hz Ha Hb|l Hl|a b Ha|a Ha|e H1 H2 H3 H4 H5 H6 Hp].
  - apply proper_num. cbn. apply not_0_IZR. exact Hn.
  - apply proper_num. cbn. unfold Rdiv. apply Rmult_integral_contrapositive.
    split; [apply not_0_IZR; auto|apply Rinv_neq_0_compat, not_0_IZR; lia].
  - cbn [pval]. apply proper_cart. rewrite (val_exact r (fun _ => 0) a Ha), (val_exact r (fun _ => 0) b Hb). exact Hz.
  - rewrite pv_times. apply proper_prod.
    induction Hl as [|e l He Hl IH]; cbn [List.map]; constructor; [apply nz_proper; exact He|exact IH].
  - apply proper_pow.
  - apply proper_pow.
  - assert (E : pval r z e = z e); [|rewrite E; exact Hp].
    destruct e as [s|s|n|n d|f|a b|l]; try reflexivity; try (exfalso; congruence).
    destruct l as [|[s| | | | | |] args]; try reflexivity. cbn [pval].
    unfold is_fn. destruct (String.eqb_spec s (sysname "Times")) as [->|Ht]; [exfalso; exact (H1 args eq_refl)|].
      destruct (String.eqb_spec s (sysname "Power")) as [->|Hpw].
      { destruct args as [|a [|b [|c t]]]; try reflexivity. exfalso; exact (H2 a b eq_refl). }
      destruct (String.eqb_spec s (sysname "Sqrt")) as [->|Hs]; [|reflexivity].
      destruct args as [|a [|b t]]; try reflexivity. exfalso; exact (H3 a eq_refl).
Defined.
Lemma nz_all r z l : Forall (nonzero z) l -> Forall proper (List.map (pval r z) l).
Proof. induction 1; cbn; constructor; auto. apply nz_proper; auto. Qed.
Lemma pprod_perm l l' : Permutation l l' -> pprod l = pprod l'.
Proof.
  induction 1; auto; try congruence.
  - change (pprod (x :: l)) with (pmul x (pprod l)). rewrite IHPermutation. reflexivity.
  - change (pprod (y :: x :: l)) with (pmul y (pmul x (pprod l))).
    change (pprod (x :: y :: l)) with (pmul x (pmul y (pprod l))).
    rewrite !pmul_assoc, (pmul_comm y x). reflexivity.
Qed.
Lemma pprod_1 z : proper z -> pprod [z] = z.
Proof. intros H. apply pmul_one, H. Qed.
Lemma times_perm r z l l' : Permutation l l' -> pval r z (cTimes l) = pval r z (cTimes l').
Proof. intros H. rewrite !pv_times. apply pprod_perm, Permutation_map, H. Qed.
Lemma pprod_cons z l : pprod (z :: l) = pmul z (pprod l). Proof. reflexivity. Qed.
Lemma pprod_last l z : proper z -> pprod (l ++ [z]) = pmul z (pprod l).
Proof. intros H. rewrite pprod_app, pprod_1, pmul_comm by auto. reflexivity. Qed.
Lemma perm_nz z l l' : Permutation l l' -> nonzero z (cTimes l) -> Forall (nonzero z) l'.
Proof. intros P H. apply nz_times in H. eapply Permutation_Forall; eauto. Qed.

(* ---- literals ---- *)
Lemma lit_val r e : literal e -> val r e = Q2R (q_of e).
Proof.
  intros [[n ->]|(n & d & -> & Hd)]; cbn [q_of].
  - rewrite ev_int. unfold Q2R, inject_Z. cbn. lra.
  - rewrite ev_rat. unfold Q2R. cbn. rewrite Z2Pos.id by auto. reflexivity.
Qed.
Lemma lit_pval r z e : literal e -> pval r z e = pnum (Q2R (q_of e)).
Proof.
  intros H. rewrite <- (lit_val r e H). destruct H as [[n ->]|(n & d & -> & Hd)]; reflexivity.
Qed.
Lemma frac_q a b : (0 < b)%Z -> Q2R (a # Z.to_pos b) = IZR a / IZR b.
Proof. intros H. unfold Q2R. cbn. rewrite Z2Pos.id by auto. reflexivity. Qed.
Lemma q2r_int n : Q2R (inject_Z n) = IZR n. Proof. unfold Q2R, inject_Z; cbn. lra. Qed.
Lemma q2r_pow q n : (0 <= n)%Z -> Q2R (Qpower q n) = powerRZ (Q2R q) n.
Proof.
  intros H. rewrite <- (Z2Nat.id n H). generalize (Z.to_nat n) as k. clear. intros k.
  rewrite <- pow_powerRZ. induction k as [|k IH]; [cbn; unfold Q2R; cbn; lra|].
  rewrite Nat2Z.inj_succ. replace (Z.succ (Z.of_nat k)) with (Z.of_nat k + 1)%Z by lia.
  rewrite (Qeq_eqR _ (Qpower q (Z.of_nat k) * q)).
  - rewrite Q2R_mult, IH. cbn. ring.
  - rewrite Qpower.Qpower_plus' by lia. reflexivity.
Qed.

(* ---- the imaginary unit ---- *)
Lemma pv_i r z : pval r z eI = (1, PI / 2).
Proof.
  cbn [pval eI]. rewrite !ev_int. unfold pcart, carg.
  replace (0 * 0 + 1 * 1) with 1 by ring. rewrite sqrt_1.
  destruct (Rle_dec 0 1); [|lra]. replace (0 / 1) with 0 by lra. rewrite acos_0. reflexivity.
Qed.
Lemma half_range : in_range (PI / 2). Proof. unfold in_range. pose proof PI_RGT_0. lra. Qed.
Lemma exp_mul_ln_1 p : exp (p * ln 1) = 1. Proof. rewrite ln_1, Rmult_0_r. apply exp_0. Qed.
Lemma pm1 : pnum (-1) = (1, PI). Proof. rewrite pnum_neg by lra. f_equal. lra. Qed.
Lemma neg_i_angle : princ (PI + PI / 2) = - (PI / 2).
Proof.
  rewrite (princ_eq (PI + PI / 2) (- (PI / 2))).
  - apply princ_id. unfold in_range. pose proof PI_RGT_0. lra.
  - exists 1%Z. lra.
Qed.
Lemma neg_i_range : in_range (- (PI / 2)). Proof. unfold in_range. pose proof PI_RGT_0. lra. Qed.

Lemma cos_sin_2kpi k : cos (2 * IZR k * PI) = 1 /\ sin (2 * IZR k * PI) = 0.
Proof.
  assert (S1 : sin (IZR k * PI) = 0) by (apply sin_eq_0_1; exists k; reflexivity).
  replace (2 * IZR k * PI) with (2 * (IZR k * PI)) by ring. rewrite cos_2a_sin, sin_2a, S1. split; ring.
Qed.
Lemma cos_2kpi k : cos (2 * IZR k * PI) = 1. Proof. apply cos_sin_2kpi. Qed.
Lemma sin_2kpi k : sin (2 * IZR k * PI) = 0. Proof. apply cos_sin_2kpi. Qed.

(* ---- cartesian and polar form ---- *)
Lemma cart_unique z w : proper z -> proper w -> pre z = pre w -> pim z = pim w -> z = w.
Proof.
  destruct z as [m t], w as [m' t']. unfold pre, pim, proper; cbn [fst snd]. intros [Hm Ht] [Hm' Ht'] Ec Es.
  pose proof (sin2_cos2 t) as E1. pose proof (sin2_cos2 t') as E2. unfold Rsqr in *.
  assert (Em : m = m').
  { assert (m * m = m' * m').
    { transitivity ((m * cos t) * (m * cos t) + (m * sin t) * (m * sin t)).
      - transitivity (m * m * (sin t * sin t + cos t * cos t)); [rewrite E1; ring|ring].
      - rewrite Ec, Es. transitivity (m' * m' * (sin t' * sin t' + cos t' * cos t')); [ring|rewrite E2; ring]. }
    nra. }
  subst m'. f_equal. apply range_unique; auto.
  assert (cos t = cos t') as C by (apply (Rmult_eq_reg_l m); lra).
  assert (sin t = sin t') as D by (apply (Rmult_eq_reg_l m); lra).
  assert (K : cos (t - t') = 1) by (rewrite cos_minus, C, D; lra).
  assert (Q : sin ((t - t') / 2) = 0).
  { replace (t - t') with (2 * ((t - t') / 2)) in K by lra. rewrite cos_2a_sin in K. nra. }
  destruct (sin_eq_0_0 _ Q) as [k Hk]. exists k. lra.
Qed.
Lemma cart_bound x y : 0 < x * x + y * y -> -1 <= x / sqrt (x * x + y * y) <= 1.
Proof.
  intros Hs. assert (0 < sqrt (x * x + y * y)) by (apply sqrt_lt_R0; auto).
  assert (Hq : (x / sqrt (x * x + y * y)) * (x / sqrt (x * x + y * y)) <= 1).
  { replace ((x / sqrt (x * x + y * y)) * (x / sqrt (x * x + y * y))) with (x * x / (x * x + y * y)).
    - apply Rmult_le_reg_r with (x * x + y * y); [auto|]. unfold Rdiv. rewrite Rmult_assoc, Rinv_l by lra. nra.
    - rewrite <- (sqrt_sqrt (x * x + y * y)) at 1 by lra. field. lra. }
  split; nra.
Qed.
Lemma cart_pos x y : ~ (x = 0 /\ y = 0) -> 0 < x * x + y * y.
Proof. intros H. destruct (Req_dec x 0) as [X|X], (Req_dec y 0) as [Y|Y]; [exfalso; auto|nra|nra|nra]. Qed.
Lemma pre_cart x y : ~ (x = 0 /\ y = 0) -> pre (pcart x y) = x.
Proof.
  intros H. apply cart_pos in H. pose proof (cart_bound x y H) as B. unfold pre, pcart, carg; cbn [fst snd].
  assert (0 < sqrt (x * x + y * y)) by (apply sqrt_lt_R0; auto).
  destruct (Rle_dec 0 y); rewrite ?cos_neg, cos_acos by auto; field; lra.
Qed.
Lemma pim_cart x y : ~ (x = 0 /\ y = 0) -> pim (pcart x y) = y.
Proof.
  intros H. apply cart_pos in H. pose proof (cart_bound x y H) as B. unfold pim, pcart, carg; cbn [fst snd].
  assert (Hp : 0 < sqrt (x * x + y * y)) by (apply sqrt_lt_R0; auto).
  assert (Hm : 1 - Rsqr (x / sqrt (x * x + y * y)) = Rsqr (Rabs y / sqrt (x * x + y * y))).
  { unfold Rsqr. replace (Rabs y / sqrt (x * x + y * y) * (Rabs y / sqrt (x * x + y * y)))
      with (Rabs y * Rabs y / (sqrt (x * x + y * y) * sqrt (x * x + y * y))) by (field; lra).
    replace (x / sqrt (x * x + y * y) * (x / sqrt (x * x + y * y)))
      with (x * x / (sqrt (x * x + y * y) * sqrt (x * x + y * y))) by (field; lra).
    rewrite sqrt_sqrt by lra. replace (Rabs y * Rabs y) with (y * y) by (fold (Rsqr y); fold (Rsqr (Rabs y)); apply Rsqr_abs).
    field. lra. }
  assert (Hsin : sin (acos (x / sqrt (x * x + y * y))) = Rabs y / sqrt (x * x + y * y)).
  { rewrite sin_acos by auto. rewrite Hm. apply sqrt_Rsqr. apply Rmult_le_pos; [apply Rabs_pos|].
    apply Rlt_le, Rinv_0_lt_compat; auto. }
  destruct (Rle_dec 0 y) as [Hy|Hy]; rewrite ?sin_neg, Hsin.
  - rewrite Rabs_right by lra. field. lra.
  - rewrite Rabs_left by lra. field. lra.
Qed.

(* ---- one lemma for each rule ---- *)
Section Rules.
Variable r : var -> R.
Variable z : ex -> polar.
Local Notation P := (pval r z).

Lemma s_nested a b n : P (cPower (cPower a b) (EInt n)) = P (cPower a (cTimes [b; EInt n])).
Proof. rewrite !pv_power, ev_times2, ev_int. apply pow_pow_int. Qed.
Lemma s_split b n d : (0 < d)%Z -> nonzero z (EInt b) ->
  P (cTimes [cPower (EInt b) (EInt (n / d)); cPower (EInt b) (ERat (n mod d) d)]) = P (cPower (EInt b) (ERat n d)).
Proof.
  intros Hd H. rewrite pv_times. cbn [List.map]. rewrite pprod_cons, pprod_1, !pv_power, pow_add.
  - f_equal. rewrite ev_int, !ev_rat. rewrite (Z.div_mod n d) at 3 by lia.
    rewrite plus_IZR, mult_IZR. field. apply not_0_IZR. lia.
  - apply nz_proper; auto.
  - rewrite pv_power. apply proper_pow.
Qed.
Lemma s_dist l f inner n : Permutation l (f :: inner) -> nonzero z (cTimes l) ->
  P (cTimes [cPower f (EInt n); cPower (cTimes inner) (EInt n)]) = P (cPower (cTimes l) (EInt n)).
Proof.
  intros Hp H. pose proof (perm_nz _ _ _ Hp H) as Hn. inversion Hn as [|? ? Hf Hi]; subst.
  rewrite (pv_power r z (cTimes l)), (times_perm r z _ _ Hp), !pv_times. cbn [List.map].
  rewrite !pprod_cons, !pv_power, !ev_int. cbn [pprod fold_right].
  rewrite pmul_one by apply proper_pow.
  rewrite pv_times. symmetry. apply pow_mul_int; [|]; [apply (nz_proper r z f Hf)|apply proper_prod, nz_all, Hi].
Qed.
Lemma rat_ne a b : nonzero z (ERat a b) -> IZR a / IZR b <> 0.
Proof.
  intros H. apply nz_rat in H. destruct H as [Ha Hb]. unfold Rdiv. apply Rmult_integral_contrapositive.
  split; [apply not_0_IZR; auto|apply Rinv_neq_0_compat, not_0_IZR; lia].
Qed.
Lemma s_rat_inv a b q : nonzero z (ERat a b) -> literal q -> (q_of q == / (a # Z.to_pos b))%Q ->
  P q = P (cPower (ERat a b) (EInt (-1))).
Proof.
  intros H Hq E. pose proof (nz_rat _ _ _ H) as [Ha Hb]. rewrite lit_pval, pv_power by auto. cbn [pval]. rewrite ev_int.
  rewrite pnum_inv by (eapply rat_ne; eauto). f_equal. rewrite (Qeq_eqR _ _ E), Q2R_inv, frac_q; auto.
  unfold Qeq; cbn. lia.
Qed.
Lemma s_rat_pow a b n q : nonzero z (ERat a b) -> (0 < n)%Z -> literal q -> (q_of q == Qpower (a # Z.to_pos b) n)%Q ->
  P q = P (cPower (ERat a b) (EInt n)).
Proof.
  intros H Hn Hq E. pose proof (nz_rat _ _ _ H) as [Ha Hb]. rewrite lit_pval, pv_power by auto. cbn [pval]. rewrite ev_int.
  rewrite pnum_powerRZ by (eapply rat_ne; eauto). f_equal. rewrite (Qeq_eqR _ _ E), q2r_pow, frac_q by lia. reflexivity.
Qed.
Lemma s_inv_i : P (cTimes [EInt (-1); eI]) = P (cPower (EInt (-1)) (ERat (-1) 2)).
Proof.
  rewrite pv_times, pv_power. cbn [List.map]. rewrite pv_i. cbn [pval]. rewrite pprod_cons, pm1, pprod_1.
  2:{ split; cbn; [lra|apply half_range]. }
  unfold pmul, ppow; cbn [fst snd]. rewrite exp_mul_ln_1, neg_i_angle, ev_rat. f_equal; [ring|].
  replace (-1 / 2 * PI) with (- (PI / 2)) by lra. symmetry. apply princ_id, neg_i_range.
Qed.
Lemma s_i : P eI = P (cPower (EInt (-1)) half).
Proof.
  rewrite pv_i, pv_power. cbn [pval]. rewrite pm1. unfold ppow; cbn [fst snd].
  rewrite exp_mul_ln_1. f_equal. unfold half. rewrite ev_rat. replace (1 / 2 * PI) with (PI / 2) by lra.
  symmetry. apply princ_id, half_range.
Qed.
Lemma s_sqrt_rat a b : (0 < a)%Z -> (0 < b)%Z ->
  P (cTimes [cPower (EInt a) half; cPower (EInt b) (ERat (-1) 2)]) = P (cPower (ERat a b) half).
Proof.
  intros Ha Hb. apply IZR_lt in Ha, Hb. rewrite pv_times, pv_power. cbn [List.map].
  rewrite pprod_cons, pprod_1 by (rewrite pv_power; apply proper_pow).
  rewrite !pv_power. unfold half. rewrite !ev_rat. cbn [pval].
  assert (0 < IZR a / IZR b) by (apply Rdiv_lt_0_compat; auto).
  rewrite !pnum_pos by auto. unfold pmul, ppow; cbn [fst snd]. rewrite !Rmult_0_r, princ_0, Rplus_0_r, princ_0.
  f_equal. rewrite <- exp_plus. f_equal. unfold Rdiv at 4. rewrite ln_mult by (auto; apply Rinv_0_lt_compat; auto).
  rewrite ln_Rinv by auto. field.
Qed.
Lemma s_inv x n d : P (cPower x (ERat (- n) d)) = P (cPower (cPower x (ERat n d)) (EInt (-1))).
Proof.
  rewrite !pv_power, ev_int, !ev_rat. change (-1) with (IZR (-1)). rewrite pow_pow_int. f_equal. rewrite opp_IZR.
  change (IZR (-1)) with (-1). unfold Rdiv. ring.
Qed.
Lemma i_pow n t : in_range t -> equiv (IZR n * (PI / 2)) t -> P (cPower eI (EInt n)) = (1, t).
Proof.
  intros Ht He. rewrite pv_power, pv_i, ev_int. unfold ppow; cbn [fst snd]. rewrite exp_mul_ln_1. f_equal.
  rewrite (princ_eq _ _ He). apply princ_id, Ht.
Qed.
Lemma s_i_power n : P (match (n mod 4)%Z with 0%Z => EInt 1 | 1%Z => eI | 2%Z => EInt (-1) | _ => cTimes [EInt (-1); eI] end)
  = P (cPower eI (EInt n)).
Proof.
  pose proof (Z.div_mod n 4 ltac:(lia)) as E. pose proof (Z.mod_pos_bound n 4 ltac:(lia)) as B.
  assert (En : IZR n = 4 * IZR (n / 4) + IZR (n mod 4)) by (rewrite <- (mult_IZR 4), <- plus_IZR; f_equal; exact E).
  assert (C : (n mod 4 = 0 \/ n mod 4 = 1 \/ n mod 4 = 2 \/ n mod 4 = 3)%Z) by lia.
  destruct C as [C|[C|[C|C]]]; rewrite C in En |- *; cbn iota.
  - rewrite (i_pow n 0); [cbn [pval]; apply pnum_1|apply zero_range|]. exists (n / 4)%Z. rewrite En. lra.
  - rewrite (i_pow n (PI / 2)); [apply pv_i|apply half_range|]. exists (n / 4)%Z. rewrite En. lra.
  - rewrite (i_pow n PI); [cbn [pval]; apply pm1|apply pi_range|]. exists (n / 4)%Z. rewrite En. lra.
  - rewrite (i_pow n (- (PI / 2))); [|apply neg_i_range|exists (n / 4 + 1)%Z; rewrite plus_IZR, En; lra].
    rewrite pv_times. cbn [List.map]. rewrite pv_i. cbn [pval]. rewrite pprod_cons, pm1, pprod_1.
    2:{ split; cbn; [lra|apply half_range]. }
    unfold pmul; cbn [fst snd]. rewrite neg_i_angle. f_equal. ring.
Qed.
Lemma powered_pv x a m : powered x a m -> nonzero z x -> P x = ppow (P a) (val r m) /\ proper (P a).
Proof.
  intros [->|[-> ->]] H.
  - rewrite pv_power. split; auto. apply nz_proper. eapply nz_power; eauto.
  - rewrite ev_int, pow_1 by (apply nz_proper; auto). split; auto. apply nz_proper; auto.
Qed.
Lemma s_same l x y a m n rest : Permutation l (x :: y :: rest) -> powered x a m -> powered y a n -> nonzero z (cTimes l) ->
  P (cTimes (rest ++ [cPower a (cPlus [m; n])])) = P (cTimes l).
Proof.
  intros Hp Hx Hy H. pose proof (perm_nz _ _ _ Hp H) as Hn. inversion Hn as [|? ? Nx Hn']; subst.
  inversion Hn' as [|? ? Ny Hr]; subst.
  rewrite (times_perm r z _ _ Hp), !pv_times, List.map_app. cbn [List.map].
  rewrite pprod_last by (rewrite pv_power; apply proper_pow). rewrite !pprod_cons, pmul_assoc. f_equal.
  destruct (powered_pv _ _ _ Hx Nx) as [-> Pa]. destruct (powered_pv _ _ _ Hy Ny) as [-> _].
  rewrite pow_add, pv_power, ev_plus2 by auto. reflexivity.
Qed.
Lemma s_cancel l a n rest : Permutation l (ERat 1 a :: cPower (EInt a) n :: rest) -> (0 < a)%Z -> nonzero z (cTimes l) ->
  P (cTimes (rest ++ [cPower (EInt a) (cPlus [n; EInt (-1)])])) = P (cTimes l).
Proof.
  intros Hp Ha H. apply IZR_lt in Ha.
  rewrite (times_perm r z _ _ Hp), !pv_times, List.map_app. cbn [List.map].
  rewrite pprod_last by (rewrite pv_power; apply proper_pow). rewrite !pprod_cons, pmul_assoc. f_equal.
  rewrite !pv_power, ev_plus2, ev_int, <- pow_add by (apply proper_num; cbn; lra).
  rewrite pmul_comm. f_equal. cbn [pval]. rewrite pnum_inv by lra. f_equal. field. lra.
Qed.
Lemma s_quotient l a b q rest : Permutation l (cPower (EInt b) (EInt (-1)) :: EInt a :: rest) -> b <> 0%Z -> literal q ->
  (q_of q == inject_Z a / inject_Z b)%Q -> nonzero z (cTimes l) -> P (cTimes (q :: rest)) = P (cTimes l).
Proof.
  intros Hp Hb Hq E H. pose proof (perm_nz _ _ _ Hp H) as Hn. inversion Hn as [|? ? _ Hn']; subst.
  inversion Hn' as [|? ? Na _]; subst. apply nz_int in Na.
  rewrite (times_perm r z _ _ Hp), !pv_times. cbn [List.map]. rewrite !pprod_cons, pmul_assoc. f_equal.
  rewrite lit_pval, pv_power, ev_int by auto. cbn [pval].
  rewrite pnum_inv by (apply not_0_IZR; auto). rewrite pnum_mul.
  - f_equal. rewrite (Qeq_eqR _ _ E), Q2R_div, !q2r_int; [unfold Rdiv; ring|]. unfold Qeq; cbn. lia.
  - apply Rinv_neq_0_compat, not_0_IZR; auto.
  - apply not_0_IZR; auto.
Qed.
Lemma s_opposite l a n d rest : Permutation l (cPower (EInt a) (ERat n d) :: cPower (EInt (- a)) (ERat (- n) d) :: rest) -> (a < 0)%Z ->
  P (cTimes (cPower (EInt (-1)) (ERat n d) :: rest)) = P (cTimes l).
Proof.
  intros Hp Ha. apply IZR_lt in Ha.
  rewrite (times_perm r z _ _ Hp), !pv_times. cbn [List.map]. rewrite !pprod_cons, pmul_assoc. f_equal.
  rewrite !pv_power, !ev_rat. cbn [pval]. rewrite pm1, !opp_IZR, pnum_neg, pnum_pos by lra.
  unfold pmul, ppow; cbn [fst snd]. rewrite exp_mul_ln_1, Rmult_0_r, princ_0, Rplus_0_r, princ_princ. f_equal.
  rewrite <- exp_plus. replace (IZR n / IZR d * ln (- IZR a) + - IZR n / IZR d * ln (- IZR a)) with 0; [symmetry; apply exp_0|].
  unfold Rdiv. ring.
Qed.
Lemma s_radical l n d a k q rest : Permutation l (ERat n d :: cPower (EInt a) (ERat 1 k) :: rest) -> (0 < d)%Z -> (1 < a)%Z ->
  literal q -> (q_of q == (n # Z.to_pos d) * inject_Z a)%Q -> nonzero z (cTimes l) ->
  P (cTimes (q :: cPower (EInt a) (cPlus [ERat 1 k; EInt (-1)]) :: rest)) = P (cTimes l).
Proof.
  intros Hp Hd Ha Hq E H. pose proof (perm_nz _ _ _ Hp H) as Hn. inversion Hn as [|? ? Nr _]; subst.
  pose proof (rat_ne _ _ Nr) as Hr. assert (Ha' : 0 < IZR a) by (apply IZR_lt; lia).
  rewrite (times_perm r z _ _ Hp), !pv_times. cbn [List.map]. rewrite !pprod_cons, !pmul_assoc. f_equal.
  rewrite lit_pval, !pv_power, ev_plus2, ev_int by auto.
  rewrite <- pow_add by (apply proper_num; cbn; lra).
  cbn [pval]. rewrite pnum_inv by lra.
  rewrite (pmul_comm (ppow _ _)), pmul_assoc, pnum_mul.
  - f_equal. f_equal. rewrite (Qeq_eqR _ _ E), Q2R_mult, frac_q, q2r_int by auto. field. split; [apply not_0_IZR; lia|lra].
  - rewrite (Qeq_eqR _ _ E), Q2R_mult, frac_q, q2r_int by auto. apply Rmult_integral_contrapositive. split; [exact Hr|lra].
  - apply Rinv_neq_0_compat. lra.
Qed.
Lemma s_sqrt_neg a : (a < 0)%Z -> P (cTimes [eI; app1 "Sqrt" (EInt (- a))]) = P (app1 "Sqrt" (EInt a)).
Proof.
  intros Ha. apply IZR_lt in Ha. rewrite pv_times. cbn [List.map].
  rewrite pprod_cons, pprod_1 by (rewrite pv_sqrt; apply proper_pow).
  rewrite !pv_sqrt, pv_i. cbn [pval]. rewrite opp_IZR, pnum_pos, pnum_neg by lra.
  unfold pmul, ppow; cbn [fst snd]. f_equal; [ring|]. rewrite Rmult_0_r, princ_0, Rplus_0_r. f_equal. lra.
Qed.
Lemma s_sqrt_factor a b : a <> 0%Z -> nonzero z (cPlus b) ->
  P (cTimes [app1 "Sqrt" (EInt (Z.abs a)); app1 "Sqrt" (cTimes [EInt (Z.sgn a); cPlus b])]) = P (app1 "Sqrt" (cTimes [EInt a; cPlus b])).
Proof.
  intros Ha H. pose proof (nz_proper r z _ H) as Hb.
  rewrite pv_times. cbn [List.map].
  rewrite pprod_cons, pprod_1 by (rewrite pv_sqrt; apply proper_pow).
  rewrite !pv_sqrt, !pv_times. cbn [List.map]. rewrite !pprod_cons. cbn [pprod fold_right].
  rewrite pmul_one by apply Hb. generalize dependent (P (cPlus b)). intros w Hb. cbn [pval].
  rewrite <- pow_mul_pos.
  - rewrite pmul_assoc, pnum_mul.
    + f_equal. f_equal. f_equal. rewrite <- mult_IZR. f_equal. lia.
    + apply not_0_IZR; lia.
    + apply not_0_IZR; lia.
  - apply IZR_lt; lia.
  - apply proper_mul; auto. apply proper_num, not_0_IZR. lia.
Qed.
Lemma s_cplx_inv re im re' im' : literal re -> literal im -> literal re' -> literal im' -> nonzero z (ECplx re im) ->
  (q_of re' == q_of re / (q_of re * q_of re + q_of im * q_of im))%Q ->
  (q_of im' == - (q_of im / (q_of re * q_of re + q_of im * q_of im)))%Q ->
  P (ECplx re' im') = P (cPower (ECplx re im) (EInt (-1))).
Proof.
  intros L1 L2 L3 L4 H E1 E2.
  assert (Hxy : ~ (val r re = 0 /\ val r im = 0)).
  { inversion H; subst.
    - rewrite (val_exact r (fun _ => 0) re), (val_exact r (fun _ => 0) im) by auto. auto.
    - exfalso. match goal with K : forall a b, _ <> ECplx a b |- _ => exact (K _ _ eq_refl) end. }
  pose proof (cart_pos _ _ Hxy) as Hp.
  assert (Hq : ~ (q_of re * q_of re + q_of im * q_of im == 0)%Q).
  { intros E. apply Qeq_eqR in E. rewrite Q2R_plus, !Q2R_mult, <- !(lit_val r) in E by auto.
    replace (Q2R 0) with 0 in E by (unfold Q2R; cbn; lra). lra. }
  assert (V1 : val r re' = val r re / (val r re * val r re + val r im * val r im)).
  { rewrite (lit_val r re' L3), (Qeq_eqR _ _ E1), Q2R_div, Q2R_plus, !Q2R_mult, <- !(lit_val r) by auto. reflexivity. }
  assert (V2 : val r im' = - (val r im / (val r re * val r re + val r im * val r im))).
  { rewrite (lit_val r im' L4), (Qeq_eqR _ _ E2), Q2R_opp, Q2R_div, Q2R_plus, !Q2R_mult, <- !(lit_val r) by auto. reflexivity. }
  rewrite pv_power, ev_int. cbn [pval]. rewrite V1, V2. clear - Hxy Hp.
  generalize dependent (val r re). intros x. generalize (val r im). intros y Hxy Hp.
  assert (Hinv : / (x * x + y * y) <> 0) by (apply Rinv_neq_0_compat; lra).
  assert (Hn : ~ (x / (x * x + y * y) = 0 /\ - (y / (x * x + y * y)) = 0)).
  { intros [A B]. apply Hxy. split; [apply (Rmult_eq_reg_r (/ (x * x + y * y))); auto; unfold Rdiv in A; lra|].
    apply (Rmult_eq_reg_r (/ (x * x + y * y))); auto. unfold Rdiv in B. lra. }
  assert (Hs : 0 < sqrt (x * x + y * y)) by (apply sqrt_lt_R0; auto).
  assert (He : exp (-1 * ln (sqrt (x * x + y * y))) = / sqrt (x * x + y * y)).
  { replace (-1 * ln (sqrt (x * x + y * y))) with (ln (/ sqrt (x * x + y * y))) by (rewrite ln_Rinv by auto; ring).
    apply exp_ln, Rinv_0_lt_compat; auto. }
  apply cart_unique; [apply proper_cart; auto|apply proper_pow| |].
  - rewrite pre_cart by auto. pose proof (pre_cart x y Hxy) as K. unfold pre, pcart in K; cbn [fst snd] in K.
    unfold pre, ppow, pcart; cbn [fst snd].
    destruct (princ_equiv (-1 * carg x y)) as [k ->].
    replace (-1 * carg x y + 2 * PI * IZR k) with (- (carg x y - 2 * IZR k * PI)) by ring. rewrite cos_neg.
    rewrite He. replace (cos (carg x y - 2 * IZR k * PI)) with (cos (carg x y)).
    2:{ rewrite cos_minus, cos_2kpi, sin_2kpi. ring. }
    replace (x / (x * x + y * y)) with (sqrt (x * x + y * y) * cos (carg x y) / (sqrt (x * x + y * y) * sqrt (x * x + y * y))).
    + field. lra.
    + rewrite sqrt_sqrt by lra. rewrite K. reflexivity.
  - rewrite pim_cart by auto. pose proof (pim_cart x y Hxy) as K. unfold pim, pcart in K; cbn [fst snd] in K.
    unfold pim, ppow, pcart; cbn [fst snd].
    destruct (princ_equiv (-1 * carg x y)) as [k ->].
    replace (-1 * carg x y + 2 * PI * IZR k) with (- (carg x y - 2 * IZR k * PI)) by ring. rewrite sin_neg.
    rewrite He. replace (sin (carg x y - 2 * IZR k * PI)) with (sin (carg x y)).
    2:{ rewrite sin_minus, cos_2kpi, sin_2kpi. ring. }
    replace (y / (x * x + y * y)) with (sqrt (x * x + y * y) * sin (carg x y) / (sqrt (x * x + y * y) * sqrt (x * x + y * y))).
    + field. lra.
    + rewrite sqrt_sqrt by lra. rewrite K. reflexivity.
Qed.
End Rules.

(* C85: every rule of Power, Sqrt and Times in [power_rule] keeps the (complex,
   principal) value: whatever the values of the symbols, as long as nothing is 0. *)
Theorem C85_value r z e e' : power_rule e e' -> nonzero z e -> pval r z e' = pval r z e.
Proof.
  intros H N. destruct H.
  - rewrite s_nested. reflexivity.
  - rewrite s_nested. reflexivity.
  - rewrite pv_power, ev_int, pow_0. cbn [pval]. apply pnum_1.
  - rewrite pv_power. cbn [pval]. rewrite pnum_1. symmetry. apply one_pow.
  - apply s_split; auto. eapply nz_power; eauto.
  - eapply s_dist; eauto. eapply nz_power; eauto.
  - apply s_rat_inv; auto. eapply nz_power; eauto.
  - apply s_rat_pow; auto. eapply nz_power; eauto.
  - apply s_inv_i.
  - apply s_i.
  - apply s_sqrt_rat; auto.
  - apply s_inv.
  - apply s_i_power.
  - apply s_cplx_inv; auto. eapply nz_power; eauto.
  - eapply s_same; eauto.
  - eapply s_cancel; eauto.
  - eapply s_quotient; eauto.
  - eapply s_opposite; eauto.
  - eapply s_radical; eauto.
  - apply s_sqrt_neg; auto.
  - apply s_sqrt_factor; auto. apply nz_sqrt, nz_times in N. inversion N as [|? ? _ N2]; subst. inversion N2; auto.
  - rewrite pv_sqrt. cbn [pval]. rewrite pnum_1. symmetry. apply one_pow.
  - rewrite pv_sqrt, pv_power. reflexivity.
Qed.
Print Assumptions C85_value.

(* Power[Power[a_, b_Rational], c_] := a^(b c) keeps the value for an integer c ... *)
Theorem C85_nested_rational_partial r z e e' : nested_rational_rule e e' ->
  (forall b n, e = cPower b n -> exists k, n = EInt k) -> pval r z e' = pval r z e.
Proof.
  intros H Hc. destruct H as [a n d c]. destruct (Hc _ _ eq_refl) as [k ->]. symmetry. apply s_nested.
Qed.
Print Assumptions C85_nested_rational_partial.
(* ... and not in general: ((-1)^(3/2))^(2/3) is taken to (-1)^1 = -1, its value is
   exp(-i pi/3) *)
Definition minus_one (e : ex) : polar := pnum (-1).
Theorem C85_nested_rational_refuted :
  exists r z e e', nested_rational_rule e e' /\ nonzero z e /\ pval r z e' <> pval r z e.
Proof.
  exists (fun _ => 0), minus_one, (cPower (cPower (sys "x") (ERat 3 2)) (ERat 2 3)), (cPower (sys "x") (cTimes [ERat 3 2; ERat 2 3])).
  split; [constructor|]. split.
  - apply NZ_power, NZ_power, NZ_other; try discriminate. apply proper_num. lra.
  - rewrite !pv_power, ev_times2, !ev_rat. cbn [pval minus_one sys]. unfold minus_one. rewrite pm1.
    unfold ppow; cbn [fst snd]. intros E. injection E. clear E. intros E _.
    replace (3 / 2 * (2 / 3) * PI) with PI in E by field. rewrite (princ_id PI pi_range) in E.
    replace (3 / 2 * PI) with (PI + PI / 2) in E by field. rewrite neg_i_angle in E.
    rewrite princ_id in E; pose proof PI_RGT_0; [|split]; lra.
Qed.
Print Assumptions C85_nested_rational_refuted.

(* Distributing a power over a numeric factor keeps the value when the factor is
   positive or the exponent an integer ... *)
Theorem C85_numeric_factor_partial r z e e' : numeric_factor_rule e e' -> nonzero z e ->
  (forall l p, e = cPower (cTimes l) p -> (exists k, p = EInt k) \/ (forall q, In q l -> literal q -> (0 < q_of q)%Q)) ->
  pval r z e' = pval r z e.
Proof.
  intros H N Hc. destruct H as [l first inner p Hp Hi Hl Hm].
  apply nz_power in N.
  destruct (Hc _ _ eq_refl) as [[k ->]|Hpos].
  - apply s_dist; auto.
  - assert (Hq : (0 < q_of first)%Q) by (apply Hpos; auto; eapply Permutation_in; [symmetry; exact Hp|left; auto]).
    apply Qlt_Rlt in Hq. replace (Q2R 0) with 0 in Hq by (unfold Q2R; cbn; lra).
    pose proof (perm_nz _ _ _ Hp N) as Hn. inversion Hn as [|? ? Hf Hin]; subst.
    rewrite (pv_power r z (cTimes l)), (times_perm r z _ _ Hp), !pv_times. cbn [List.map].
    rewrite !pprod_cons, !pv_power. cbn [pprod fold_right]. rewrite pmul_one by apply proper_pow.
    rewrite pv_times, lit_pval by auto. symmetry. apply pow_mul_pos; auto. apply proper_prod, nz_all, Hin.
Qed.
Print Assumptions C85_numeric_factor_partial.
(* ... and not in general: ((-2) x)^(1/2) with x = -1 becomes (-2)^(1/2) (-1)^(1/2)
   = -2^(1/2) *)
Theorem C85_numeric_factor_refuted :
  exists r z e e', numeric_factor_rule e e' /\ nonzero z e /\ pval r z e' <> pval r z e.
Proof.
  exists (fun _ => 0), minus_one, (cPower (cTimes [EInt (-2); sys "x"]) half), (cTimes [cPower (EInt (-2)) half; cPower (cTimes [sys "x"]) half]).
  split; [apply nf with (1 := Permutation_refl _); [discriminate|left; eexists; reflexivity|discriminate]|]. split.
  - apply NZ_power, NZ_times. constructor; [apply NZ_int; lia|constructor; [|constructor]].
    apply NZ_other; try discriminate. apply proper_num. lra.
  - rewrite pv_power, !pv_times. cbn [List.map]. rewrite !pv_power, pv_times. cbn [List.map pval sys]. unfold minus_one, half.
    rewrite !ev_rat, !pprod_cons. cbn [pprod fold_right].
    rewrite (pmul_one (pnum (-1))) by (apply proper_num; lra).
    rewrite (pmul_one (ppow _ _)) by apply proper_pow.
    rewrite pnum_mul by lra. replace (-2 * -1) with 2 by lra. rewrite pm1, pnum_neg, pnum_pos by lra.
    unfold ppow, pmul; cbn [fst snd]. intros E. injection E. clear E. intros E _.
    rewrite Rmult_0_r, princ_0 in E. replace (1 / 2 * PI) with (PI / 2) in E by field.
    rewrite (princ_id (PI / 2)) in E by apply half_range. replace (PI / 2 + PI / 2) with PI in E by field.
    rewrite (princ_id PI) in E by apply pi_range. pose proof PI_RGT_0. lra.
Qed.
Print Assumptions C85_numeric_factor_refuted.

(* a^c b^c := (a b)^c for integers a, b keeps the value when one of them is positive ... *)
Theorem C85_equal_exponents_partial r z e e' : equal_exponents_rule e e' -> nonzero z e ->
  (forall l a b c rest, e = cTimes l -> Permutation l (cPower (EInt a) c :: cPower (EInt b) c :: rest) -> (0 < a)%Z \/ (0 < b)%Z) ->
  pval r z e' = pval r z e.
Proof.
  intros H N Hc. destruct H as [l a b n d rest Hp].
  pose proof (perm_nz _ _ _ Hp N) as Hn. inversion Hn as [|? ? Na Hn']; subst. inversion Hn' as [|? ? Nb _]; subst.
  apply nz_power, nz_int in Na. apply nz_power, nz_int in Nb.
  apply not_0_IZR in Na, Nb.
  rewrite (times_perm r z _ _ Hp), !pv_times. cbn [List.map]. rewrite !pprod_cons, pmul_assoc. f_equal.
  rewrite !pv_power, ev_rat. cbn [pval]. rewrite mult_IZR.
  destruct (Hc l a b _ rest eq_refl Hp) as [Ha|Hb].
  - apply IZR_lt in Ha. rewrite <- pow_mul_pos by (auto; apply proper_num; lra). rewrite pnum_mul by lra. reflexivity.
  - apply IZR_lt in Hb. rewrite (pmul_comm (ppow _ _)), <- pow_mul_pos by (auto; apply proper_num; lra).
    rewrite pnum_mul, Rmult_comm by lra. reflexivity.
Qed.
Print Assumptions C85_equal_exponents_partial.
(* ... and not in general: (-2)^(1/2) (-3)^(1/2) = -(6^(1/2)) becomes 6^(1/2) *)
Theorem C85_equal_exponents_refuted :
  exists r z e e', equal_exponents_rule e e' /\ nonzero z e /\ pval r z e' <> pval r z e.
Proof.
  exists (fun _ => 0), minus_one, (cTimes [cPower (EInt (-2)) half; cPower (EInt (-3)) half]), (cTimes [cPower (EInt (-2 * -3)) half]).
  split; [apply (ee _ (-2) (-3) 1 2 []); apply Permutation_refl|]. split.
  - apply NZ_times. repeat constructor; lia.
  - rewrite !pv_times. cbn [List.map]. rewrite !pv_power. cbn [pval]. unfold half. rewrite ev_rat, !pprod_cons. cbn [pprod fold_right].
    rewrite !pmul_one by apply proper_pow. change (IZR (-2 * -3)) with 6. rewrite pnum_pos, !pnum_neg by lra.
    unfold ppow, pmul; cbn [fst snd]. intros E. injection E. clear E. intros E _.
    rewrite Rmult_0_r, princ_0 in E. replace (1 / 2 * PI) with (PI / 2) in E by field.
    rewrite (princ_id (PI / 2)) in E by apply half_range. replace (PI / 2 + PI / 2) with PI in E by field.
    rewrite (princ_id PI) in E by apply pi_range. pose proof PI_RGT_0. lra.
Qed.
Print Assumptions C85_equal_exponents_refuted.

Lemma nz_sym z s : proper (z (ESym s)) -> nonzero z (ESym s).
Proof. intros H. apply NZ_other; try discriminate; auto. Qed.
(* non-vacuity: (x y)^3, x^a x^b, (2/3)^(1/2), with any values of x and y but 0 *)
Example C85_ex_dist : exists e', power_rule (cPower (cTimes [sys "x"; sys "y"]) (EInt 3)) e' /\
  nonzero (fun _ => pone) (cPower (cTimes [sys "x"; sys "y"]) (EInt 3)).
Proof.
  eexists. split; [apply pr_dist with (inner := [sys "y"]), Permutation_refl|].
  apply NZ_power, NZ_times. apply Forall_forall. intros e [<-|[<-|[]]]; apply nz_sym, proper_one.
Qed.
Example C85_ex_same : exists e', power_rule (cTimes [cPower (sys "x") (sys "a"); cPower (sys "x") (sys "b")]) e' /\
  nonzero (fun _ => pone) (cTimes [cPower (sys "x") (sys "a"); cPower (sys "x") (sys "b")]).
Proof.
  eexists. split; [eapply pr_same; [apply Permutation_refl|left; reflexivity|left; reflexivity]|].
  apply NZ_times. apply Forall_forall. intros e [<-|[<-|[]]]; apply NZ_power, nz_sym, proper_one.
Qed.
Example C85_ex_cplx : power_rule (cPower (ECplx (EInt 1) (EInt 2)) (EInt (-1))) (ECplx (ERat 1 5) (ERat (-2) 5)) /\
  nonzero (fun _ => pone) (cPower (ECplx (EInt 1) (EInt 2)) (EInt (-1))).
Proof.
  split.
  - apply pr_cplx_inv; try (left; eexists; reflexivity); try (right; do 2 eexists; split; [reflexivity|lia]); reflexivity.
  - apply NZ_power, NZ_cplx; [cbn; lra|left; eexists; reflexivity|left; eexists; reflexivity].
Qed.
