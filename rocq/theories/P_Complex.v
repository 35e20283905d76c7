(* The complex numbers of S_Complex as a field. *)
From Coq Require Import Reals Lra Lia Psatz List.
From Verif Require Import M_Syntax S_Real S_Trig S_Polar S_Complex P_Polar T_LibPower T_LibComplex.
Import ListNotations.
Open Scope R_scope.

Definition copp (z : cplx) : cplx := (- fst z, - snd z).
Definition csub (z w : cplx) : cplx := cadd z (copp w).
Definition cdiv (z w : cplx) : cplx := cmul z (cinv w).
Lemma cplx_pos z : z <> real 0 -> 0 < fst z * fst z + snd z * snd z.
Proof. intros H. apply cart_pos. intros [A B]. apply H, cplx_eq; auto. Qed.
Lemma cplx_field : field_theory (real 0) (real 1) cadd cmul csub copp cdiv cinv eq.
Proof.
  constructor.
  - constructor; intros; try (apply cplx_eq; cbn [cadd cmul csub copp real fst snd]; ring); reflexivity.
  - intros E. apply (f_equal fst) in E. cbn in E. lra.
  - reflexivity.
  - intros p H. pose proof (cplx_pos p H) as P. apply cplx_eq; cbn [cmul cinv real fst snd]; field; lra.
Qed.
Add Field cplx_f : cplx_field.

Lemma cinv_0 : cinv (real 0) = real 0.
Proof. apply cplx_eq; cbn [cinv real fst snd]; unfold Rdiv; ring. Qed.
Lemma cmul_0 z w : cmul z w = real 0 -> z = real 0 \/ w = real 0.
Proof.
  intros H. destruct z as [a b], w as [c d]. pose proof (f_equal fst H) as A. pose proof (f_equal snd H) as B. clear H.
  cbn [cmul real fst snd] in A, B.
  assert (E : (a * a + b * b) * (c * c + d * d) = 0).
  { transitivity ((a * c - b * d) * (a * c - b * d) + (a * d + b * c) * (a * d + b * c)); [ring|rewrite A, B; ring]. }
  apply Rmult_integral in E. destruct E as [E|E]; [left|right]; apply cplx_eq; cbn; nra.
Qed.
Lemma cmul_ne z w : z <> real 0 -> w <> real 0 -> cmul z w <> real 0.
Proof. intros A B E. apply cmul_0 in E. tauto. Qed.
Lemma csub_0 z w : csub z w = real 0 <-> z = w.
Proof. split; [intros H|intros ->; ring]. replace z with (cadd (csub z w) w) by ring. rewrite H. ring. Qed.
Lemma cabs_pos z : z <> real 0 -> 0 < cabs z.
Proof. intros H. apply sqrt_lt_R0, cplx_pos, H. Qed.
Lemma cexp_log z : z <> real 0 -> cexp (clog z) = z.
Proof.
  intros H. unfold cexp, clog; cbn [fst snd]. rewrite exp_ln by (apply cabs_pos; auto).
  assert (N : ~ (fst z = 0 /\ snd z = 0)) by (intros [A B]; apply H, cplx_eq; auto).
  pose proof (pre_cart _ _ N) as A. pose proof (pim_cart _ _ N) as B. unfold pre, pim, pcart in A, B. cbn [fst snd] in A, B.
  fold (cabs z) in A, B. apply cplx_eq; auto.
Qed.
Lemma cexp_ne z : cexp z <> real 0.
Proof.
  intros E. pose proof (f_equal fst E) as A. pose proof (f_equal snd E) as B. cbn [cexp real fst snd] in A, B.
  pose proof (exp_pos (fst z)). pose proof (sin2_cos2 (snd z)) as S. unfold Rsqr in S.
  apply Rmult_integral in A, B. destruct A as [A|A]; [lra|]. destruct B as [B|B]; [lra|]. rewrite A, B in S. lra.
Qed.
Lemma exp_pow' x n : exp (INR n * x) = exp x ^ n.
Proof.
  induction n as [|n IH]; [cbn; rewrite Rmult_0_l; apply exp_0|].
  rewrite S_INR. replace ((INR n + 1) * x) with (x + INR n * x) by ring. rewrite exp_plus, IH. reflexivity.
Qed.
(* principal roots *)
Lemma czero_dec (z : cplx) : z = real 0 \/ z <> real 0.
Proof.
  destruct (Req_EM_T (fst z) 0) as [A|A]; [destruct (Req_EM_T (snd z) 0) as [B|B]|].
  - left. apply cplx_eq; auto.
  - right. intros E. apply B. rewrite E. reflexivity.
  - right. intros E. apply A. rewrite E. reflexivity.
Qed.
Lemma cpow_nat_exp w n : cpow_nat (cexp w) n = cexp (cmul (real (INR n)) w).
Proof.
  unfold cexp. rewrite cpow_nat_polar, <- exp_pow'. cbn [cmul real fst snd].
  rewrite !Rmult_0_l, Rminus_0_r, Rplus_0_r. reflexivity.
Qed.
Lemma cpowc_nat_inv z n : (0 < n)%nat -> cpow_nat (cpowc z (real (/ INR n))) n = z.
Proof.
  intros Hn. assert (Hr : INR n <> 0) by (apply not_0_INR; lia).
  destruct (czero_dec z) as [-> | Hz].
  - rewrite cpowc_0, cpow_nat_real. destruct n; [lia|]. cbn [pow]. ceq.
  - rewrite cpowc_ne, cpow_nat_exp by auto.
    replace (cmul (real (INR n)) (cmul (real (/ INR n)) (clog z))) with (clog z); [apply cexp_log; auto|].
    apply cplx_eq; cbn [cmul real fst snd]; field; auto.
Qed.
Lemma csqrt_sq z : cmul (cpowc z (real (1 / 2))) (cpowc z (real (1 / 2))) = z.
Proof.
  pose proof (cpowc_nat_inv z 2 ltac:(lia)) as H. cbn [cpow_nat INR] in H. rewrite cmul_1_r in H.
  replace (/ (1 + 1)) with (1 / 2) in H by lra. exact H.
Qed.
Lemma ccbrt_cube z : cmul (cpowc z (real (1 / 3))) (cmul (cpowc z (real (1 / 3))) (cpowc z (real (1 / 3)))) = z.
Proof.
  pose proof (cpowc_nat_inv z 3 ltac:(lia)) as H. cbn [cpow_nat INR] in H. rewrite cmul_1_r in H.
  replace (/ (1 + 1 + 1)) with (1 / 3) in H by lra. exact H.
Qed.
