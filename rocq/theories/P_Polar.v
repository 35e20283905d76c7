(* Lemmas about principal values. *)
From Verif Require Import M_Syntax M_LibCalc S_Real S_Trig S_Polar.
From Coq Require Import Reals Lra Lia Psatz List.
Import ListNotations.
Open Scope R_scope.

Definition equiv (s t : R) : Prop := exists k : Z, s = t + 2 * PI * IZR k.
Lemma equiv_refl t : equiv t t. Proof. exists 0%Z. lra. Qed.
Lemma equiv_sym s t : equiv s t -> equiv t s.
Proof. intros [k ->]. exists (- k)%Z. rewrite opp_IZR. lra. Qed.
Lemma equiv_trans s t u : equiv s t -> equiv t u -> equiv s u.
Proof. intros [k ->] [j ->]. exists (k + j)%Z. rewrite plus_IZR. lra. Qed.
Lemma equiv_add a b c d : equiv a b -> equiv c d -> equiv (a + c) (b + d).
Proof. intros [k ->] [j ->]. exists (k + j)%Z. rewrite plus_IZR. lra. Qed.
Lemma equiv_mul a b n : equiv a b -> equiv (IZR n * a) (IZR n * b).
Proof. intros [k ->]. exists (n * k)%Z. rewrite mult_IZR. lra. Qed.
Lemma princ_equiv t : equiv (princ t) t.
Proof. unfold princ. exists (- (1 - up ((PI - t) / (2 * PI))))%Z. rewrite opp_IZR. lra. Qed.
Lemma princ_range t : in_range (princ t).
Proof.
  unfold princ, in_range. destruct (archimed ((PI - t) / (2 * PI))) as [A B]. rewrite minus_IZR.
  pose proof PI_RGT_0 as P. set (u := IZR (up ((PI - t) / (2 * PI)))) in *.
  assert (E : (PI - t) / (2 * PI) * (2 * PI) = PI - t) by (field; lra).
  set (q := (PI - t) / (2 * PI)) in *. clearbody q u.
  assert (q * (2 * PI) < u * (2 * PI)) by (apply Rmult_lt_compat_r; lra).
  assert ((u - q) * (2 * PI) <= 1 * (2 * PI)) by (apply Rmult_le_compat_r; lra). lra.
Qed.
Lemma range_unique s t : in_range s -> in_range t -> equiv s t -> s = t.
Proof.
  intros [A B] [C D] [k ->]. pose proof PI_RGT_0 as P.
  assert (k = 0)%Z as ->; [|lra].
  assert (E1 : IZR k < 1) by (apply Rmult_lt_reg_l with (2 * PI); lra).
  assert (E2 : -1 < IZR k) by (apply Rmult_lt_reg_l with (2 * PI); lra).
  apply lt_IZR in E1. apply lt_IZR in E2. lia.
Qed.
Lemma princ_eq s t : equiv s t -> princ s = princ t.
Proof.
  intro H. apply range_unique; try apply princ_range.
  apply (equiv_trans _ s); [apply princ_equiv|]. apply (equiv_trans _ t); [exact H|apply equiv_sym, princ_equiv].
Qed.
Lemma princ_id t : in_range t -> princ t = t.
Proof. intro H. apply range_unique; [apply princ_range|exact H|apply princ_equiv]. Qed.
Lemma princ_princ t : princ (princ t) = princ t. Proof. apply princ_id, princ_range. Qed.
Lemma princ_add_l a b : princ (princ a + b) = princ (a + b).
Proof. apply princ_eq, equiv_add; [apply princ_equiv|apply equiv_refl]. Qed.
Lemma princ_add_r a b : princ (a + princ b) = princ (a + b).
Proof. apply princ_eq, equiv_add; [apply equiv_refl|apply princ_equiv]. Qed.
Lemma princ_mul n a : princ (IZR n * princ a) = princ (IZR n * a).
Proof. apply princ_eq, equiv_mul, princ_equiv. Qed.
Lemma zero_range : in_range 0. Proof. split; pose proof PI_RGT_0; lra. Qed.
Lemma pi_range : in_range PI. Proof. split; pose proof PI_RGT_0; lra. Qed.
Lemma princ_0 : princ 0 = 0. Proof. apply princ_id, zero_range. Qed.

Lemma pmul_comm z w : pmul z w = pmul w z.
Proof. unfold pmul. rewrite Rmult_comm, Rplus_comm. reflexivity. Qed.
Lemma pmul_assoc x y z : pmul x (pmul y z) = pmul (pmul x y) z.
Proof. unfold pmul. cbn [fst snd]. rewrite princ_add_l, princ_add_r, Rmult_assoc, Rplus_assoc. reflexivity. Qed.
Lemma pmul_one z : in_range (snd z) -> pmul z pone = z.
Proof. intro H. unfold pmul, pone. cbn [fst snd]. rewrite Rmult_1_r, Rplus_0_r, princ_id by exact H. destruct z; reflexivity. Qed.
Lemma proper_one : proper pone. Proof. split; cbn; [lra|apply zero_range]. Qed.
Lemma proper_mul z w : proper z -> proper w -> proper (pmul z w).
Proof. intros [A _] [B _]. split; [cbn; apply Rmult_lt_0_compat; assumption|apply princ_range]. Qed.
Lemma proper_pow z p : proper (ppow z p).
Proof. split; [apply exp_pos|apply princ_range]. Qed.
Lemma proper_prod l : Forall proper l -> proper (pprod l).
Proof. induction 1; [apply proper_one|]. apply proper_mul; assumption. Qed.
Lemma proper_num x : x <> 0 -> proper (pnum x).
Proof. intro H. unfold pnum. destruct (Rlt_dec 0 x); split; cbn; try apply zero_range; try apply pi_range; lra. Qed.
Lemma pmul_one_l z : in_range (snd z) -> pmul pone z = z.
Proof. intro H. rewrite pmul_comm. apply pmul_one, H. Qed.
Lemma pprod_app l1 l2 : Forall proper l2 -> pprod (l1 ++ l2) = pmul (pprod l1) (pprod l2).
Proof.
  intro H. induction l1 as [|x l1 IH]; cbn [app pprod fold_right].
  - symmetry. apply pmul_one_l, (proper_prod _ H).
  - change (fold_right pmul pone (l1 ++ l2)) with (pprod (l1 ++ l2)). rewrite IH, pmul_assoc. reflexivity.
Qed.

(* powers *)
Lemma pow_add z p q : proper z -> pmul (ppow z p) (ppow z q) = ppow z (p + q).
Proof.
  intros _. unfold pmul, ppow. cbn [fst snd]. rewrite princ_add_l, princ_add_r, <- exp_plus. f_equal; f_equal; ring.
Qed.
Lemma pow_pow_int z p n : ppow (ppow z p) (IZR n) = ppow z (p * IZR n).
Proof.
  unfold ppow. cbn [fst snd]. rewrite ln_exp, princ_mul. f_equal; f_equal; ring.
Qed.
Lemma pow_mul_int z w n : 0 < fst z -> 0 < fst w -> ppow (pmul z w) (IZR n) = pmul (ppow z (IZR n)) (ppow w (IZR n)).
Proof.
  intros A B. unfold ppow, pmul. cbn [fst snd]. rewrite ln_mult by assumption. rewrite princ_mul, princ_add_l, princ_add_r, <- exp_plus. f_equal; f_equal; ring.
Qed.
(* a positive factor may always be taken out *)
Lemma pow_mul_pos x w p : 0 < x -> proper w -> ppow (pmul (pnum x) w) p = pmul (ppow (pnum x) p) (ppow w p).
Proof.
  intros A [B R]. unfold ppow, pmul, pnum. destruct (Rlt_dec 0 x); [|contradiction]. cbn [fst snd]. rewrite ln_mult by assumption.
  rewrite Rplus_0_l, (princ_id (snd w)) by exact R. rewrite Rmult_0_r, princ_add_l, princ_add_r, Rplus_0_l, <- exp_plus. f_equal; f_equal; ring.
Qed.
Lemma pow_1 z : proper z -> ppow z 1 = z.
Proof. intros [A R]. unfold ppow. rewrite !Rmult_1_l, exp_ln, princ_id by assumption. destruct z; reflexivity. Qed.
Lemma pow_0 z : ppow z 0 = pone.
Proof. unfold ppow, pone. rewrite !Rmult_0_l, exp_0, princ_0. reflexivity. Qed.
Lemma one_pow p : ppow pone p = pone.
Proof. unfold ppow, pone. cbn [fst snd]. rewrite ln_1, !Rmult_0_r, exp_0, princ_0. reflexivity. Qed.

(* real numbers *)
Lemma pnum_pos x : 0 < x -> pnum x = (x, 0).
Proof. intro H. unfold pnum. destruct (Rlt_dec 0 x); [reflexivity|contradiction]. Qed.
Lemma pnum_neg x : x < 0 -> pnum x = (- x, PI).
Proof. intro H. unfold pnum. destruct (Rlt_dec 0 x); [lra|reflexivity]. Qed.
Lemma princ_2pi : princ (PI + PI) = 0.
Proof. transitivity (princ 0); [|apply princ_0]. apply princ_eq. exists 1%Z. lra. Qed.
Lemma pnum_mul x y : x <> 0 -> y <> 0 -> pmul (pnum x) (pnum y) = pnum (x * y).
Proof.
  intros Hx Hy. destruct (Rlt_le_dec 0 x) as [A|A]; destruct (Rlt_le_dec 0 y) as [B|B].
  - rewrite !pnum_pos by (try apply Rmult_lt_0_compat; assumption). unfold pmul. cbn [fst snd]. rewrite Rplus_0_r, princ_0. reflexivity.
  - rewrite (pnum_pos x) by exact A. rewrite (pnum_neg y) by lra. rewrite (pnum_neg (x * y)).
    + unfold pmul. cbn [fst snd]. rewrite Rplus_0_l, princ_id by apply pi_range. f_equal. ring.
    + nra.
  - rewrite (pnum_neg x) by lra. rewrite (pnum_pos y) by exact B. rewrite (pnum_neg (x * y)).
    + unfold pmul. cbn [fst snd]. rewrite Rplus_0_r, princ_id by apply pi_range. f_equal. ring.
    + nra.
  - rewrite (pnum_neg x), (pnum_neg y) by lra. rewrite (pnum_pos (x * y)).
    + unfold pmul. cbn [fst snd]. rewrite princ_2pi. f_equal. ring.
    + nra.
Qed.
Lemma pnum_1 : pnum 1 = pone. Proof. apply pnum_pos. lra. Qed.
(* an integer power of a real number is the usual one *)
Lemma pnum_pow_pos x k : x <> 0 -> ppow (pnum x) (IZR (Z.of_nat k)) = pnum (x ^ k).
Proof.
  intro Hx. induction k as [|k IH].
  - cbn [Z.of_nat pow]. rewrite pow_0, pnum_1. reflexivity.
  - rewrite Nat2Z.inj_succ, succ_IZR, <- pow_add by (apply proper_num, Hx).
    rewrite IH, (pow_1 (pnum x)) by (apply proper_num, Hx). rewrite pnum_mul by (try apply pow_nonzero; assumption).
    cbn [pow]. rewrite Rmult_comm. reflexivity.
Qed.
Lemma pinv z w : proper z -> proper w -> pmul z w = pone -> w = ppow z (-1).
Proof.
  intros Hz Hw H.
  assert (E : pmul (ppow z (-1)) (pmul z w) = pmul (ppow z (-1)) pone) by (rewrite H; reflexivity).
  rewrite pmul_assoc in E. rewrite pmul_one in E by (apply proper_pow).
  rewrite <- E. rewrite <- (pow_1 z Hz) at 2. rewrite pow_add by exact Hz. replace (-1 + 1) with 0 by lra. rewrite pow_0.
  symmetry. apply pmul_one_l, Hw.
Qed.
Lemma pnum_inv x : x <> 0 -> ppow (pnum x) (-1) = pnum (/ x).
Proof.
  intro H. symmetry. apply pinv; try apply proper_num; try assumption; [apply Rinv_neq_0_compat, H|].
  rewrite pnum_mul by (try apply Rinv_neq_0_compat; assumption). rewrite Rinv_r by exact H. apply pnum_1.
Qed.
Lemma pnum_powerRZ x n : x <> 0 -> ppow (pnum x) (IZR n) = pnum (powerRZ x n).
Proof.
  intro H. destruct n as [|p|p].
  - rewrite pow_0. cbn [powerRZ]. symmetry. apply pnum_1.
  - rewrite <- (positive_nat_Z p), pnum_pow_pos by exact H. rewrite <- pow_powerRZ. reflexivity.
  - replace (IZR (Z.neg p)) with (IZR (Z.of_nat (Pos.to_nat p)) * IZR (-1)).
    + rewrite <- pow_pow_int, pnum_pow_pos by exact H. change (IZR (-1)) with (-1). rewrite pnum_inv by (apply pow_nonzero, H). reflexivity.
    + rewrite <- mult_IZR. f_equal. rewrite positive_nat_Z. lia.
Qed.
Lemma polar_eq (z w : polar) : fst z = fst w -> snd z = snd w -> z = w.
Proof. destruct z, w. cbn. intros -> ->. reflexivity. Qed.
