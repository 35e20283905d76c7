(* 1 + 1/4 + 1/9 + ... = PI^2/6, from the integrals of cos^2n and x^2 cos^2n
   over [0, PI/2], given by their antiderivatives. *)
From Coq Require Import Reals Lra Lia Psatz.
Open Scope R_scope.

Lemma d_ext f x a b : derivable_pt_lim f x a -> a = b -> derivable_pt_lim f x b.
Proof. intros H <-. exact H. Qed.
Lemma d_plus f g x a b : derivable_pt_lim f x a -> derivable_pt_lim g x b -> derivable_pt_lim (fun y => f y + g y) x (a + b).
Proof. apply derivable_pt_lim_plus. Qed.
Lemma d_minus f g x a b : derivable_pt_lim f x a -> derivable_pt_lim g x b -> derivable_pt_lim (fun y => f y - g y) x (a - b).
Proof. apply derivable_pt_lim_minus. Qed.
Lemma d_mult f g x a b : derivable_pt_lim f x a -> derivable_pt_lim g x b -> derivable_pt_lim (fun y => f y * g y) x (a * g x + f x * b).
Proof. apply derivable_pt_lim_mult. Qed.
Lemma d_scal f c x a : derivable_pt_lim f x a -> derivable_pt_lim (fun y => c * f y) x (c * a).
Proof. apply derivable_pt_lim_scal. Qed.
Lemma d_cos_pow k x : derivable_pt_lim (fun y => cos y ^ S k) x (INR (S k) * cos x ^ k * - sin x).
Proof.
  exact (derivable_pt_lim_comp cos (fun y => y ^ S k) x (- sin x) (INR (S k) * cos x ^ k)
    (derivable_pt_lim_cos x) (derivable_pt_lim_pow (cos x) (S k))).
Qed.

(* a function whose derivative is not negative on [0, b] does not decrease *)
Lemma grows f f' b : 0 < b -> (forall x, derivable_pt_lim f x (f' x)) -> (forall x, 0 < x < b -> 0 <= f' x) -> f 0 <= f b.
Proof.
  intros B D P. destruct (MVT_cor2 f f' 0 b B) as (c & E & C).
  - intros x _. apply D.
  - specialize (P c C). nra.
Qed.

Fixpoint F (n : nat) (x : R) : R :=
  match n with O => x | S m => / (2 * INR m + 2) * ((2 * INR m + 1) * F m x + sin x * cos x ^ S (2 * m)) end.
Fixpoint G (n : nat) (x : R) : R :=
  match n with
  | O => / 3 * (x * (x * x))
  | S m => / (2 * (INR m + 1) * (INR m + 1)) *
      ((INR m + 1) * (2 * INR m + 1) * G m x - F (S m) x + x * cos x ^ S (S (2 * m)) + (INR m + 1) * (x * x * (sin x * cos x ^ S (2 * m))))
  end.

Lemma INR_2m m : INR (S (2 * m)) = 2 * INR m + 1.
Proof. rewrite S_INR, mult_INR. cbn [INR]. ring. Qed.
Lemma INR_2m2 m : INR (S (S (2 * m))) = 2 * INR m + 2.
Proof. rewrite S_INR, INR_2m. ring. Qed.
Lemma sin2c x : sin x * sin x = 1 - cos x * cos x.
Proof. pose proof (sin2_cos2 x) as E. unfold Rsqr in E. lra. Qed.

Lemma F_deriv n x : derivable_pt_lim (F n) x (cos x ^ (2 * n)).
Proof.
  induction n as [|m IH].
  - cbn [F Nat.mul pow]. apply derivable_pt_lim_id.
  - eapply d_ext.
    + change (F (S m)) with (fun y => / (2 * INR m + 2) * ((2 * INR m + 1) * F m y + sin y * cos y ^ S (2 * m))).
      apply d_scal, d_plus; [apply d_scal, IH|apply d_mult; [apply derivable_pt_lim_sin|apply d_cos_pow]].
    + replace (2 * S m)%nat with (S (S (2 * m))) by lia. rewrite INR_2m. cbn [pow].
      pose proof (pos_INR m) as P. generalize (cos x ^ (2 * m)). intro c.
      replace (sin x * ((2 * INR m + 1) * c * - sin x)) with (- ((2 * INR m + 1) * c * (sin x * sin x))) by ring.
      rewrite sin2c. field. lra.
Qed.
Lemma G_deriv n x : derivable_pt_lim (G n) x (x * x * cos x ^ (2 * n)).
Proof.
  induction n as [|m IH].
  - cbn [G Nat.mul pow]. eapply d_ext.
    + apply d_scal, d_mult; [apply derivable_pt_lim_id|apply d_mult; apply derivable_pt_lim_id].
    + unfold id. cbn [pow Nat.add Nat.mul]. field.
  - eapply d_ext.
    + change (G (S m)) with (fun x => / (2 * (INR m + 1) * (INR m + 1)) *
        ((INR m + 1) * (2 * INR m + 1) * G m x - F (S m) x + x * cos x ^ S (S (2 * m)) + (INR m + 1) * (x * x * (sin x * cos x ^ S (2 * m))))).
      apply d_scal, d_plus.
      * apply d_plus; [apply d_minus; [apply d_scal, IH|apply F_deriv]|].
        apply d_mult; [apply derivable_pt_lim_id|apply d_cos_pow].
      * apply d_scal, d_mult; [apply d_mult; apply derivable_pt_lim_id|].
        apply d_mult; [apply derivable_pt_lim_sin|apply d_cos_pow].
    + unfold id. replace (2 * S m)%nat with (S (S (2 * m))) by lia. rewrite INR_2m, INR_2m2. cbn [pow].
      pose proof (pos_INR m) as P. generalize (cos x ^ (2 * m)). intro c.
      replace (sin x * ((2 * INR m + 1) * c * - sin x)) with (- ((2 * INR m + 1) * c * (sin x * sin x))) by ring.
      rewrite sin2c. field. lra.
Qed.

Definition I n : R := F n (PI / 2).
Definition J n : R := G n (PI / 2).
Lemma F_zero n : F n 0 = 0.
Proof. induction n as [|m IH]; cbn [F]; [reflexivity|]. rewrite IH, sin_0. ring. Qed.
Lemma G_zero n : G n 0 = 0.
Proof. induction n as [|m IH]; cbn [G]; [ring|]. rewrite IH, F_zero, ?sin_0. ring. Qed.
Lemma I_step m : I (S m) = (2 * INR m + 1) / (2 * INR m + 2) * I m.
Proof.
  unfold I. cbn [F]. rewrite cos_PI2. cbn [pow]. pose proof (pos_INR m). field. lra.
Qed.
Lemma J_step m : J (S m) = ((INR m + 1) * (2 * INR m + 1) * J m - I (S m)) / (2 * (INR m + 1) * (INR m + 1)).
Proof.
  unfold I, J. change (G (S m) (PI / 2)) with (/ (2 * (INR m + 1) * (INR m + 1)) *
      ((INR m + 1) * (2 * INR m + 1) * G m (PI / 2) - F (S m) (PI / 2) + PI / 2 * cos (PI / 2) ^ S (S (2 * m)) +
       (INR m + 1) * (PI / 2 * (PI / 2) * (sin (PI / 2) * cos (PI / 2) ^ S (2 * m))))).
  rewrite cos_PI2, sin_PI2. cbn [pow]. pose proof (pos_INR m). field. lra.
Qed.
Lemma I_pos n : 0 < I n.
Proof.
  induction n as [|m IH]; [pose proof PI_RGT_0; unfold I; cbn [F]; lra|].
  rewrite I_step. pose proof (pos_INR m). apply Rmult_lt_0_compat; [apply Rdiv_lt_0_compat; lra|exact IH].
Qed.
Lemma half_PI : 0 < PI / 2. Proof. pose proof PI_RGT_0; lra. Qed.
Lemma J_nonneg n : 0 <= J n.
Proof.
  unfold J. rewrite <- (G_zero n). apply (grows _ (fun x => x * x * cos x ^ (2 * n)) _ half_PI); [apply G_deriv|].
  intros x [A B]. assert (0 < cos x) by (apply cos_gt_0; lra). apply Rmult_le_pos; [nra|]. apply pow_le. lra.
Qed.
(* x cos x <= sin x *)
Lemma x_cos x : 0 < x < PI / 2 -> x * cos x <= sin x.
Proof.
  intros [A B]. enough (sin 0 - 0 * cos 0 <= sin x - x * cos x) by (rewrite sin_0 in *; lra).
  apply (grows (fun y => sin y - y * cos y) (fun y => y * sin y) x A).
  - intro y. eapply d_ext; [apply d_minus; [apply derivable_pt_lim_sin|apply d_mult; [apply derivable_pt_lim_id|apply derivable_pt_lim_cos]]|].
    unfold id. ring.
  - intros y [P Q]. assert (0 < sin y) by (apply sin_gt_0; lra). nra.
Qed.
Lemma J_le m : J (S m) <= I m - I (S m).
Proof.
  enough (0 <= I m - I (S m) - J (S m)) by lra.
  replace 0 with (F m 0 - F (S m) 0 - G (S m) 0) by (rewrite !F_zero, G_zero; ring).
  unfold I, J. apply (grows (fun y => F m y - F (S m) y - G (S m) y)
    (fun x => cos x ^ (2 * m) - cos x ^ (2 * S m) - x * x * cos x ^ (2 * S m)) _ half_PI).
  - intro x. apply d_minus; [apply d_minus; apply F_deriv|apply G_deriv].
  - intros x H. pose proof (x_cos x H) as L. assert (0 < cos x) by (apply cos_gt_0; lra).
    replace (2 * S m)%nat with (S (S (2 * m))) by lia. cbn [pow]. pose proof (sin2c x) as E.
    assert (0 < cos x ^ (2 * m)) by (apply pow_lt; lra). generalize dependent (cos x ^ (2 * m)). intros c C.
    assert (Q : x * cos x * (x * cos x) <= sin x * sin x) by (assert (0 <= x * cos x) by nra; nra).
    replace (c - cos x * (cos x * c) - x * x * (cos x * (cos x * c))) with (c * ((1 - cos x * cos x) - x * cos x * (x * cos x))) by ring.
    apply Rmult_le_pos; lra.
Qed.
Definition q n : R := J n / I n.
Lemma q_step m : / ((INR m + 1) * (INR m + 1)) = 2 * (q m - q (S m)).
Proof.
  unfold q. rewrite J_step, !I_step. pose proof (I_pos m). pose proof (pos_INR m). field. repeat split; lra.
Qed.
Lemma q_zero : q 0 = PI * PI / 12.
Proof. unfold q, J, I. cbn [F G]. field. pose proof PI_RGT_0. lra. Qed.
Lemma q_bound m : 0 <= q (S m) <= / (2 * INR m + 1).
Proof.
  unfold q. pose proof (I_pos m) as P. pose proof (I_pos (S m)) as P'. pose proof (pos_INR m). pose proof (J_nonneg (S m)) as N. pose proof (J_le m) as L. split.
  - apply Rmult_le_pos; [exact N|]. apply Rlt_le, Rinv_0_lt_compat, P'.
  - apply Rmult_le_reg_r with (I (S m)); [exact P'|]. replace (J (S m) / I (S m) * I (S m)) with (J (S m)) by (field; lra).
    enough (I m - I (S m) = / (2 * INR m + 1) * I (S m)) by lra. rewrite I_step. field. lra.
Qed.

Lemma above x : exists n, x < INR n.
Proof.
  exists (Z.to_nat (up x)). rewrite INR_IZR_INZ. pose proof (archimed x) as [A _].
  destruct (Z.le_gt_cases 0 (up x)) as [L|L]; [rewrite Z2Nat.id by exact L; lra|].
  assert (IZR (up x) < 0) by (apply IZR_lt, L). pose proof (IZR_le 0 (Z.of_nat (Z.to_nat (up x))) ltac:(lia)). lra.
Qed.

Fixpoint inv_squares (n : nat) : R :=
  match n with O => 0 | S m => inv_squares m + / ((INR m + 1) * (INR m + 1)) end.
Lemma inv_squares_q n : inv_squares n = PI * PI / 6 - 2 * q n.
Proof.
  induction n as [|m IH]; cbn [inv_squares]; [rewrite q_zero; field|]. rewrite IH, q_step. ring.
Qed.
Theorem basel : Un_cv inv_squares (PI * PI / 6).
Proof.
  intros eps H. destruct (above (2 / eps)) as [N HN]. exists (S (S N)). intros n Ln. destruct n as [|m]; [lia|].
  unfold R_dist. rewrite inv_squares_q. pose proof (q_bound m) as [A B].
  replace (PI * PI / 6 - 2 * q (S m) - PI * PI / 6) with (- (2 * q (S m))) by ring. rewrite Rabs_Ropp, Rabs_pos_eq by lra.
  apply Rle_lt_trans with (2 * / (2 * INR m + 1)); [lra|]. assert (INR N < INR m) by (apply lt_INR; lia).
  pose proof (pos_INR N). pose proof (pos_INR m).
  apply Rmult_lt_reg_r with (2 * INR m + 1); [lra|]. replace (2 * / (2 * INR m + 1) * (2 * INR m + 1)) with 2 by (field; lra).
  assert (2 < eps * INR N). { apply Rmult_lt_reg_r with (/ eps); [apply Rinv_0_lt_compat, H|].
    replace (eps * INR N * / eps) with (INR N) by (field; lra). exact HN. }
  nra.
Qed.
