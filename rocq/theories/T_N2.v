(* N[Pi] and N[E] against the real numbers. *)
From Verif Require Import M_Syntax M_Float M_N S_N.
From Coq Require Import QArith Qpower Qreals Reals Machin Lra Lia ZArith.
Open Scope R_scope.

(* partial sums of Machin's series for Pi/4, as rationals *)
Definition qpow (q : Q) (n : nat) : Q := Qpower q (Z.of_nat n).
Fixpoint qpi (n : nat) : Q :=
  let t := (fun i : nat => (if Nat.even i then 1 else (-1)) *
     (2 * (qpow (1 # 3) (2 * i + 1) / inject_Z (Z.of_nat (2 * i + 1))) + qpow (1 # 7) (2 * i + 1) / inject_Z (Z.of_nat (2 * i + 1))))%Q in
  match n with O => t O | S k => Qred (qpi k + t (S k)) end.

Lemma Q2R_pow q n : ~ (q == 0)%Q -> Q2R (qpow q n) = Q2R q ^ n.
Proof.
  intro E. unfold qpow. induction n as [|n IH]; [cbn; unfold Q2R; cbn; lra|].
  rewrite Nat2Z.inj_succ. rewrite <- Z.add_1_l.
  rewrite (Qeq_eqR _ _ (Qpower_plus q 1 (Z.of_nat n) E)). rewrite Q2R_mult, IH. reflexivity.
Qed.
Lemma Q2R_nat n : Q2R (inject_Z (Z.of_nat n)) = INR n.
Proof. unfold Q2R. cbn. rewrite Rinv_1, Rmult_1_r. symmetry. apply INR_IZR_INZ. Qed.
Lemma sign_q i : Q2R (if Nat.even i then 1 else (-1)) = (-1) ^ i.
Proof.
  induction i as [|i IH]; [cbn; unfold Q2R; cbn; lra|].
  rewrite Nat.even_succ, <- Nat.negb_even. cbn [pow]. rewrite <- IH. destruct (Nat.even i); unfold Q2R; cbn; lra.
Qed.

Lemma machin_q n : sum_f_R0 (tg_alt PI_2_3_7_tg) n = Q2R (qpi n).
Proof.
  assert (T : forall i, tg_alt PI_2_3_7_tg i = Q2R ((if Nat.even i then 1 else (-1)) *
     (2 * (qpow (1 # 3) (2 * i + 1) / inject_Z (Z.of_nat (2 * i + 1))) + qpow (1 # 7) (2 * i + 1) / inject_Z (Z.of_nat (2 * i + 1))))).
  { intro i. unfold tg_alt, PI_2_3_7_tg, Ratan_seq.
    assert (NZ : (~ inject_Z (Z.of_nat (2 * i + 1)) == 0)%Q).
    { change 0%Q with (inject_Z 0). rewrite inject_Z_injective. lia. }
    rewrite !Q2R_mult, sign_q, Q2R_plus, Q2R_mult, !Q2R_div by exact NZ. rewrite !Q2R_pow by (intro X; discriminate X). rewrite !Q2R_nat.
    replace (Q2R (1 # 3)) with (/ 3) by (unfold Q2R; cbn; lra). replace (Q2R (1 # 7)) with (/ 7) by (unfold Q2R; cbn; lra).
    replace (Q2R 2) with 2 by (unfold Q2R; cbn; lra). reflexivity. }
  induction n as [|n IH]; [cbn [sum_f_R0 qpi]; apply T|].
  cbn [sum_f_R0 qpi]. rewrite (Qeq_eqR _ _ (Qred_correct _)), Q2R_plus, IH, T. reflexivity.
Qed.

Lemma q_le_R p q : Qle_bool p q = true -> Q2R p <= Q2R q.
Proof. intro H. apply Qle_Rle. apply Qle_bool_iff. exact H. Qed.

Lemma pi_between : Q2R (4 * qpi 19) <= PI <= Q2R (4 * qpi 18).
Proof.
  pose proof (PI_2_3_7_ineq 9) as [L U]. rewrite !machin_q in L, U.
  rewrite !Q2R_mult. replace (Q2R 4) with 4 by (unfold Q2R; cbn; lra).
  change (S (2 * 9))%nat with 19%nat in L. change (2 * 9)%nat with 18%nat in U. lra.
Qed.

Definition flt_r (f : flt) : R := match flt_q f with Some q => Q2R q | None => 0 end.

Lemma flt_r_close f m e a lo hi x : f = FFin false m e a -> Q2R lo <= x <= Q2R hi ->
  Qle_bool (hi - (1 # (2 ^ 52))) (inject_Z (Z.of_N m) * Qpower (2 # 1) e) = true ->
  Qle_bool (inject_Z (Z.of_N m) * Qpower (2 # 1) e) (lo + (1 # (2 ^ 52))) = true ->
  Rabs (flt_r f - x) <= / 2 ^ 52.
Proof.
  intros -> [L U] A B. unfold flt_r. cbn [flt_q]. set (q := (inject_Z (Z.of_N m) * Qpower (2 # 1) e)%Q) in *. clearbody q.
  apply q_le_R in A. apply q_le_R in B. unfold Qminus in A. rewrite Q2R_plus, Q2R_opp in A. rewrite Q2R_plus in B.
  replace (Q2R (1 # 2 ^ 52)) with (/ 2 ^ 52) in A, B by (unfold Q2R; cbn; lra).
  apply Rabs_le. lra.
Qed.

Lemma pi_flt_eq : pi_flt = FFin false 7074237752028440 (-51) (-1).
Proof. vm_compute. reflexivity. Qed.
Lemma e_flt_eq : e_flt = FFin false 6121026514868073 (-51) (-1).
Proof. vm_compute. reflexivity. Qed.

(* N[Pi] is off by at most half a unit in the last place *)
Theorem C115_pi : n_fn n_rules [sys "Pi"] = Some (EFlt pi_flt) /\ Rabs (flt_r pi_flt - PI) <= / 2 ^ 52.
Proof.
  split; [reflexivity|].
  apply (flt_r_close _ _ _ _ _ _ _ pi_flt_eq pi_between); vm_compute; reflexivity.
Qed.
Print Assumptions C115_pi.

(* 1/e = 1/0! - 1/1! + 1/2! - ... *)
Fixpoint zfact (n : nat) : Z := match n with O => 1%Z | S k => (Z.of_nat (S k) * zfact k)%Z end.
Lemma zfact_eq n : zfact n = Z.of_nat (fact n).
Proof. induction n as [|n IH]; [reflexivity|]. change (fact (S n)) with (S n * fact n)%nat. rewrite Nat2Z.inj_mul, <- IH. reflexivity. Qed.
Fixpoint qinv_e (n : nat) : Q :=
  let t := (fun i : nat => (if Nat.even i then 1 else (-1)) * / inject_Z (zfact i))%Q in
  match n with O => t O | S k => Qred (qinv_e k + t (S k)) end.
Definition rec_fact (n : nat) : R := / INR (fact n).
Lemma inv_e_q n : sum_f_R0 (tg_alt rec_fact) n = Q2R (qinv_e n).
Proof.
  assert (T : forall i, tg_alt rec_fact i = Q2R ((if Nat.even i then 1 else (-1)) * / inject_Z (zfact i))).
  { intro i. rewrite zfact_eq. unfold tg_alt, rec_fact.
    assert (NZ : (~ inject_Z (Z.of_nat (fact i)) == 0)%Q).
    { change 0%Q with (inject_Z 0). rewrite inject_Z_injective. pose proof (lt_O_fact i). lia. }
    rewrite !Q2R_mult, sign_q, Q2R_inv, Q2R_nat by exact NZ. reflexivity. }
  induction n as [|n IH]; [cbn [sum_f_R0 qinv_e]; apply T|].
  cbn [sum_f_R0 qinv_e]. rewrite (Qeq_eqR _ _ (Qred_correct _)), Q2R_plus, IH, T. reflexivity.
Qed.
Lemma inv_e_ineq N : sum_f_R0 (tg_alt rec_fact) (S (2 * N)) <= exp (-1) <= sum_f_R0 (tg_alt rec_fact) (2 * N).
Proof.
  apply alternated_series_ineq.
  - intro n. unfold rec_fact. apply Rinv_le_contravar; [apply lt_0_INR, lt_O_fact|]. apply le_INR. cbn [fact]. lia.
  - intros eps He. destruct (cv_speed_pow_fact 1 eps He) as [N0 HN]. exists N0. intros n Hn. specialize (HN n Hn).
    unfold rec_fact. replace (/ INR (fact n)) with (1 ^ n / INR (fact n)); [exact HN|]. rewrite pow1. unfold Rdiv. apply Rmult_1_l.
  - intros eps He. unfold exp. destruct (exist_exp (-1)) as [l Hl]. cbn [proj1_sig].
    destruct (Hl eps He) as [N0 HN]. exists N0. intros n Hn. specialize (HN n Hn).
    rewrite (sum_eq _ (fun i => / INR (fact i) * (-1) ^ i)); [exact HN|]. intros i _. unfold tg_alt, rec_fact. ring.
Qed.
Lemma e_between : Q2R (/ qinv_e 20) <= exp 1 <= Q2R (/ qinv_e 21).
Proof.
  pose proof (inv_e_ineq 10) as [L U]. rewrite !inv_e_q in L, U.
  change (S (2 * 10))%nat with 21%nat in L. change (2 * 10)%nat with 20%nat in U.
  assert (P : 0 < Q2R (qinv_e 21)).
  { replace 0 with (Q2R 0) by (unfold Q2R; cbn; lra). apply Qlt_Rlt. vm_compute. reflexivity. }
  assert (E : exp 1 = / exp (-1)). { rewrite <- exp_Ropp. f_equal. lra. }
  rewrite !Q2R_inv by (vm_compute; discriminate). rewrite E. split; apply Rinv_le_contravar; lra.
Qed.

(* N[E] is off by at most half a unit in the last place *)
Theorem C115_e : n_fn n_rules [sys "E"] = Some (EFlt e_flt) /\ Rabs (flt_r e_flt - exp 1) <= / 2 ^ 52.
Proof.
  split; [reflexivity|].
  apply (flt_r_close _ _ _ _ _ _ _ e_flt_eq e_between); vm_compute; reflexivity.
Qed.
Print Assumptions C115_e.
