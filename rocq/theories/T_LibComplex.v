(* C86: the rules about complex numbers keep the value. *)
From Coq Require Import Reals Lra Lia Psatz List Permutation QArith Qreals.
From Verif Require Import M_Syntax M_LibCalc M_LibPower M_LibTrig M_LibComplex S_Real S_Trig S_Polar S_Complex P_Polar T_LibTrig T_LibPower.
Import ListNotations.
Open Scope R_scope.

Lemma cplx_eq (z w : cplx) : fst z = fst w -> snd z = snd w -> z = w.
Proof. destruct z, w; cbn; congruence. Qed.
Ltac ceq := apply cplx_eq; cbn [cadd cmul real ci cconj fst snd]; try ring.
Lemma cadd_comm z w : cadd z w = cadd w z. Proof. ceq. Qed.
Lemma cadd_assoc x y z : cadd x (cadd y z) = cadd (cadd x y) z. Proof. ceq. Qed.
Lemma cmul_comm z w : cmul z w = cmul w z. Proof. ceq. Qed.
Lemma cmul_assoc x y z : cmul x (cmul y z) = cmul (cmul x y) z. Proof. ceq. Qed.
Lemma cmul_1_r z : cmul z (real 1) = z. Proof. ceq. Qed.
Lemma cmul_1_l z : cmul (real 1) z = z. Proof. ceq. Qed.
Lemma cadd_0_r z : cadd z (real 0) = z. Proof. ceq. Qed.
Lemma csum_perm l l' : Permutation l l' -> csum l = csum l'.
Proof.
  induction 1; auto; try congruence.
  - change (csum (x :: l)) with (cadd x (csum l)). rewrite IHPermutation. reflexivity.
  - change (csum (y :: x :: l)) with (cadd y (cadd x (csum l))).
    change (csum (x :: y :: l)) with (cadd x (cadd y (csum l))). rewrite !cadd_assoc, (cadd_comm y x). reflexivity.
Qed.
Lemma cprod_perm l l' : Permutation l l' -> cprod l = cprod l'.
Proof.
  induction 1; auto; try congruence.
  - change (cprod (x :: l)) with (cmul x (cprod l)). rewrite IHPermutation. reflexivity.
  - change (cprod (y :: x :: l)) with (cmul y (cmul x (cprod l))).
    change (cprod (x :: y :: l)) with (cmul x (cmul y (cprod l))). rewrite !cmul_assoc, (cmul_comm y x). reflexivity.
Qed.

Section Values.
Variable z : ex -> cplx.
Lemma w_plus l : cval z (cPlus l) = csum (List.map (cval z) l). Proof. reflexivity. Qed.
Lemma w_times l : cval z (cTimes l) = cprod (List.map (cval z) l). Proof. reflexivity. Qed.
Lemma w_plus2 a b : cval z (cPlus [a; b]) = cadd (cval z a) (cval z b).
Proof. rewrite w_plus. cbn [List.map csum fold_right]. rewrite cadd_0_r. reflexivity. Qed.
Lemma w_times2 a b : cval z (cTimes [a; b]) = cmul (cval z a) (cval z b).
Proof. rewrite w_times. cbn [List.map cprod fold_right]. rewrite cmul_1_r. reflexivity. Qed.
Lemma w_times3 a b c : cval z (cTimes [a; b; c]) = cmul (cval z a) (cmul (cval z b) (cval z c)).
Proof. rewrite w_times. cbn [List.map cprod fold_right]. rewrite cmul_1_r. reflexivity. Qed.
Lemma w_timesc a l : cval z (cTimes (a :: l)) = cmul (cval z a) (cval z (cTimes l)). Proof. reflexivity. Qed.
Lemma w_plusc a l : cval z (cPlus (a :: l)) = cadd (cval z a) (cval z (cPlus l)). Proof. reflexivity. Qed.
Lemma w_times_perm l l' : Permutation l l' -> cval z (cTimes l) = cval z (cTimes l').
Proof. intros H. rewrite !w_times. apply cprod_perm, Permutation_map, H. Qed.
Lemma w_plus_perm l l' : Permutation l l' -> cval z (cPlus l) = cval z (cPlus l').
Proof. intros H. rewrite !w_plus. apply csum_perm, Permutation_map, H. Qed.
Lemma w_re a : cval z (re_ a) = real (fst (cval z a)). Proof. reflexivity. Qed.
Lemma w_im a : cval z (im_ a) = real (snd (cval z a)). Proof. reflexivity. Qed.
Lemma w_sin a : cval z (sin_ a) = csin (cval z a). Proof. reflexivity. Qed.
Lemma w_cos a : cval z (cos_ a) = ccos (cval z a). Proof. reflexivity. Qed.
Lemma w_log a : cval z (app1 "Log" a) = clog (cval z a). Proof. reflexivity. Qed.
Lemma w_abs a : cval z (abs_ a) = real (cabs (cval z a)). Proof. reflexivity. Qed.
Lemma w_arg a : cval z (app1 "Arg" a) = real (carg (fst (cval z a)) (snd (cval z a))). Proof. reflexivity. Qed.
Lemma w_sqrt a : cval z (app1 "Sqrt" a) = cpowc (cval z a) (real (1 / 2)). Proof. reflexivity. Qed.
Lemma w_int n : cval z (EInt n) = real (IZR n). Proof. reflexivity. Qed.
Lemma w_rat n d : cval z (ERat n d) = real (IZR n / IZR d). Proof. reflexivity. Qed.
Lemma w_pi : cval z ePi = real PI. Proof. reflexivity. Qed.
Lemma w_e : cval z eE = real (exp 1). Proof. reflexivity. Qed.
Lemma w_powZ a n : cval z (cPower a (EInt n)) = cpow_Z (cval z a) n. Proof. reflexivity. Qed.
Lemma w_pow a b : (forall n, b <> EInt n) -> cval z (cPower a b) = cpowc (cval z a) (cval z b).
Proof. intros H. destruct b; try reflexivity. exfalso. exact (H _ eq_refl). Qed.
Lemma w_cplx a b : cval z (ECplx a b) = cadd (cval z a) (cmul ci (cval z b)). Proof. reflexivity. Qed.
Lemma w_i : cval z eI = ci. Proof. unfold eI. rewrite w_cplx, !w_int. ceq. Qed.
Lemma w_lit a : literal a -> cval z a = real (Q2R (q_of a)).
Proof.
  intros H. rewrite <- (lit_val (fun _ => 0) a H). destruct H as [[n ->]|(n & d & -> & _)]; reflexivity.
Qed.
Lemma w_lit_cplx a b : literal a -> literal b -> cval z (ECplx a b) = (Q2R (q_of a), Q2R (q_of b)).
Proof. intros A B. rewrite w_cplx, !w_lit by auto. ceq. Qed.
End Values.

(* ---- exponential and logarithm ---- *)
Lemma cexp_add z w : cexp (cadd z w) = cmul (cexp z) (cexp w).
Proof. apply cplx_eq; cbn [cadd cmul cexp fst snd]; rewrite exp_plus, ?cos_plus, ?sin_plus; ring. Qed.
Lemma cpowc_ne z w : z <> real 0 -> cpowc z w = cexp (cmul w (clog z)).
Proof.
  intros H. unfold cpowc. destruct (Req_EM_T (fst z) 0); auto. destruct (Req_EM_T (snd z) 0); auto.
  exfalso. apply H. apply cplx_eq; auto.
Qed.
Lemma cpowc_0 w : cpowc (real 0) w = real 0.
Proof. unfold cpowc, real; cbn [fst snd]. destruct (Req_EM_T 0 0); auto. contradiction. Qed.
Lemma real_ne x : x <> 0 -> real x <> real 0. Proof. intros H E. apply H. exact (f_equal fst E). Qed.
Lemma cexp_real x : cexp (real x) = real (exp x).
Proof. apply cplx_eq; cbn [cexp real fst snd]; rewrite ?cos_0, ?sin_0; ring. Qed.
Lemma cabs_real x : cabs (real x) = Rabs x.
Proof. unfold cabs, real; cbn [fst snd]. replace (x * x + 0 * 0) with (Rsqr x) by (unfold Rsqr; ring). apply sqrt_Rsqr_abs. Qed.
Lemma carg_pos x : 0 < x -> carg x 0 = 0.
Proof.
  intros H. unfold carg. destruct (Rle_dec 0 0); [|lra].
  replace (x * x + 0 * 0) with (x * x) by ring. rewrite sqrt_square by lra.
  replace (x / x) with 1 by (field; lra). apply acos_1.
Qed.
Lemma carg_neg x : x < 0 -> carg x 0 = PI.
Proof.
  intros H. unfold carg. destruct (Rle_dec 0 0); [|lra].
  replace (x * x + 0 * 0) with ((- x) * (- x)) by ring. rewrite sqrt_square by lra.
  replace (x / - x) with (- (1)) by (field; lra). rewrite acos_opp, acos_1. ring.
Qed.
Lemma clog_pos x : 0 < x -> clog (real x) = real (ln x).
Proof.
  intros H. unfold clog. rewrite cabs_real, Rabs_right by lra. cbn [real fst snd]. rewrite carg_pos by auto. reflexivity.
Qed.
Lemma clog_neg x : x < 0 -> clog (real x) = (ln (- x), PI).
Proof.
  intros H. unfold clog. rewrite cabs_real, Rabs_left by lra. cbn [real fst snd]. rewrite carg_neg by auto. reflexivity.
Qed.
Lemma clog_e : clog (real (exp 1)) = real 1.
Proof. rewrite clog_pos by apply exp_pos. rewrite ln_exp. reflexivity. Qed.
Lemma cpow_nat_real x n : cpow_nat (real x) n = real (x ^ n).
Proof. induction n as [|n IH]; cbn [cpow_nat pow]; [reflexivity|]. rewrite IH. ceq. Qed.
Lemma cinv_real x : x <> 0 -> cinv (real x) = real (/ x).
Proof. intros H. apply cplx_eq; cbn [cinv real fst snd]; field; nra. Qed.
Lemma cpow_Z_real x n : x <> 0 -> cpow_Z (real x) n = real (powerRZ x n).
Proof.
  intros H. destruct n as [|p|p]; cbn [cpow_Z powerRZ]; auto.
  - apply cpow_nat_real.
  - rewrite cpow_nat_real. apply cinv_real, pow_nonzero, H.
Qed.
Lemma exp_int n : powerRZ (exp 1) n = exp (IZR n).
Proof.
  rewrite powerRZ_Rpower by apply exp_pos. unfold Rpower. rewrite ln_exp. f_equal. ring.
Qed.
(* E^x for every exponent *)
Lemma w_epow z x : cval z (cPower eE x) = cexp (cval z x).
Proof.
  destruct x as [s|s|n|n d|f|a b|l];
    try (rewrite w_pow by discriminate; rewrite w_e, cpowc_ne by (apply real_ne; pose proof (exp_pos 1); lra); rewrite clog_e, cmul_1_r; reflexivity).
  rewrite w_powZ, w_e, w_int, cpow_Z_real by (pose proof (exp_pos 1); lra). rewrite exp_int, cexp_real. reflexivity.
Qed.
Lemma euler w : cadd (ccos w) (cmul ci (csin w)) = cexp (cmul ci w).
Proof.
  apply cplx_eq; cbn [cadd cmul ci ccos csin cexp fst snd].
  - replace (0 * fst w - 1 * snd w) with (- snd w) by ring. replace (0 * snd w + 1 * fst w) with (fst w) by ring.
    unfold sinh, cosh. field.
  - replace (0 * fst w - 1 * snd w) with (- snd w) by ring. replace (0 * snd w + 1 * fst w) with (fst w) by ring.
    unfold sinh, cosh. field.
Qed.
Lemma ccos_real x : ccos (real x) = real (cos x).
Proof. apply cplx_eq; cbn [ccos real fst snd]; rewrite ?cosh_0, ?sinh_0; ring. Qed.
Lemma csin_real x : csin (real x) = real (sin x).
Proof. apply cplx_eq; cbn [csin real fst snd]; rewrite ?cosh_0, ?sinh_0; ring. Qed.
Lemma pow_pos_real x y : 0 < x -> cpowc (real x) (real y) = real (exp (y * ln x)).
Proof. intros H. rewrite cpowc_ne by (apply real_ne; lra). rewrite clog_pos by auto. replace (cmul (real y) (real (ln x))) with (real (y * ln x)) by ceq. apply cexp_real. Qed.
Lemma real_number_real z x : real_number x -> exists v, cval z x = real v.
Proof.
  intros [e H|b n Hb Hn|b Hb|].
  - eexists. apply w_lit, H.
  - rewrite w_pow by discriminate. rewrite w_rat, w_int, pow_pos_real by (apply IZR_lt; auto). eauto.
  - rewrite w_pow by discriminate. unfold half. rewrite w_rat, w_int, pow_pos_real by (apply IZR_lt; auto). eauto.
  - exists PI. reflexivity.
Qed.

(* ---- integer powers in polar form ---- *)
Lemma cpow_nat_polar m t n : cpow_nat (m * cos t, m * sin t) n = (m ^ n * cos (INR n * t), m ^ n * sin (INR n * t)).
Proof.
  induction n as [|n IH].
  - cbn [cpow_nat pow INR]. rewrite Rmult_0_l, cos_0, sin_0. ceq.
  - cbn [cpow_nat]. rewrite IH. replace (INR (S n) * t) with (t + INR n * t) by (rewrite S_INR; ring).
    rewrite cos_plus, sin_plus. apply cplx_eq; cbn [cmul fst snd pow]; ring.
Qed.
Lemma cpow_Z_polar m t n : 0 < m -> cpow_Z (m * cos t, m * sin t) n = (powerRZ m n * cos (IZR n * t), powerRZ m n * sin (IZR n * t)).
Proof.
  intros Hm. destruct n as [|p|p]; cbn [cpow_Z powerRZ].
  - rewrite Rmult_0_l, cos_0, sin_0. ceq.
  - rewrite cpow_nat_polar, INR_IZR_INZ, positive_nat_Z. reflexivity.
  - rewrite cpow_nat_polar, INR_IZR_INZ, positive_nat_Z.
    replace (IZR (Z.neg p) * t) with (- (IZR (Z.pos p) * t)) by (change (Z.neg p) with (- Z.pos p)%Z; rewrite opp_IZR; ring).
    rewrite cos_neg, sin_neg. set (u := IZR (Z.pos p) * t). assert (Hp : 0 < m ^ Pos.to_nat p) by (apply pow_lt; auto).
    set (q := m ^ Pos.to_nat p) in *. clearbody q u. pose proof (sin2_cos2 u) as E. unfold Rsqr in E.
    assert (D : q * cos u * (q * cos u) + q * sin u * (q * sin u) = q * q).
    { transitivity (q * q * (sin u * sin u + cos u * cos u)); [ring|rewrite E; ring]. }
    unfold cinv; apply cplx_eq; cbn [fst snd]; rewrite D; field; lra.
Qed.

(* ---- ArcTan[x, y] ---- *)
Definition consts (v : var) : R :=
  match v with VSym s => if is_fn s "Pi" then PI else if is_fn s "E" then exp 1 else 0 | VSlot => 0 end.
Lemma consts_ok : constants consts. Proof. split; reflexivity. Qed.
Lemma lit_exact a : literal a -> exact_number a. Proof. exact (fun H => H). Qed.
Lemma cpow_recip x : x <> 0 -> cpow_Z (real x) (-1) = real (/ x).
Proof. intros H. rewrite cpow_Z_real by auto. f_equal. change (/ (x * 1) = / x). rewrite Rmult_1_r. reflexivity. Qed.
Lemma theta_val z x y t : literal x -> literal y -> ~ (val consts x = 0 /\ val consts y = 0) -> arctan2 x y = Some t ->
  cval z t = real (val consts t).
Proof.
  intros Hx Hy N. pose proof (v_pi consts consts_ok) as VP.
  destruct (exact_sign consts x (lit_exact x Hx)) as [sx [Sx Vx]]. destruct (exact_sign consts y (lit_exact y Hy)) as [sy [Sy Vy]].
  unfold arctan2. rewrite Sx, Sy. intros E. injection E as <-.
  assert (VQ : val consts x <> 0 -> cval z (app1 "ArcTan" (cTimes [y; recip x])) = real (atan (val consts y / val consts x))
    /\ val consts (app1 "ArcTan" (cTimes [y; recip x])) = atan (val consts y / val consts x)).
  { intros X. split.
    - change (cval z (app1 "ArcTan" (cTimes [y; recip x]))) with (real (atan (fst (cval z (cTimes [y; recip x]))))).
      rewrite w_times2. unfold recip. rewrite w_powZ, !w_lit, <- !(lit_val consts), cpow_recip by auto.
      unfold Rdiv. f_equal. f_equal. cbn [real cmul fst snd]. ring.
    - rewrite v_atan, v_times. cbn [List.map]. rewrite v_recip. unfold rprod. cbn [fold_right]. f_equal. unfold Rdiv. ring. }
  assert (X0 : (0 <? sx)%Z = true \/ (sx <? 0)%Z = true -> val consts x <> 0).
  { destruct Vx as [[Ex Vx]|[[-> Vx]|[Ex Vx]]]; intros [K|K]; try discriminate K; lra. }
  destruct (0 <? sx)%Z eqn:E1.
  { destruct (VQ (X0 (or_introl eq_refl))) as [-> ->]. reflexivity. }
  destruct (sx <? 0)%Z eqn:E2; cbn [andb].
  { destruct (VQ (X0 (or_intror eq_refl))) as [A B].
    destruct (Z.leb_spec 0 sy) as [L|L]; cbn iota.
    - rewrite w_plus2, A, w_pi, v_plus. cbn [List.map]. rewrite B, VP. unfold rsum; cbn [fold_right]. ceq.
    - apply Z.ltb_lt in L. rewrite L.
      unfold neg_. rewrite w_plus2, w_times2, A, w_pi, w_int, v_plus. cbn [List.map]. rewrite B.
      replace (val consts (cTimes [EInt (-1); ePi])) with (- PI).
      + unfold rsum; cbn [fold_right]. ceq.
      + rewrite v_times. cbn [List.map]. rewrite VP. unfold rprod; cbn [fold_right]. rewrite ev_int. ring. }
  destruct Vx as [[Ex Vx]|[[-> Vx]|[Ex Vx]]]; [congruence| |congruence]. cbn [andb Z.eqb].
  destruct Vy as [[Ey Vy]|[[-> Vy]|[Ey Vy]]].
  - rewrite Ey. unfold pi_times. rewrite w_times2, w_rat, w_pi, v_times. cbn [List.map]. rewrite VP, ev_rat. unfold rprod; cbn [fold_right]. ceq.
  - exfalso. auto.
  - assert (K : (0 <? sy)%Z = false) by (apply Z.ltb_lt in Ey; apply Z.ltb_ge; lia). rewrite K, Ey.
    unfold pi_times. rewrite w_times2, w_rat, w_pi, v_times. cbn [List.map]. rewrite VP, ev_rat. unfold rprod; cbn [fold_right]. ceq.
Qed.
Lemma theta_arg z x y t : literal x -> literal y -> ~ (q_of x == 0 /\ q_of y == 0)%Q -> arctan2 x y = Some t ->
  cval z t = real (carg (Q2R (q_of x)) (Q2R (q_of y))).
Proof.
  intros Hx Hy Nq E.
  assert (N : ~ (val consts x = 0 /\ val consts y = 0)).
  { rewrite !(lit_val consts) by auto. intros [A B]. apply Nq. split; apply eqR_Qeq; [rewrite A|rewrite B]; unfold Q2R; cbn; lra. }
  rewrite (theta_val z x y t Hx Hy N E). f_equal.
  destruct (C79_arctan2 consts x y consts_ok (lit_exact x Hx) (lit_exact y Hy) N) as (t' & E' & B & Cx & Cy).
  rewrite E in E'. injection E' as <-. rewrite <- !(lit_val consts) by auto.
  set (X := val consts x) in *. set (Y := val consts y) in *. set (T := val consts t) in *. clearbody X Y T.
  assert (Hs : 0 < sqrt (X * X + Y * Y)) by (apply sqrt_lt_R0, cart_pos, N).
  assert (Eq : (sqrt (X * X + Y * Y), T) = pcart X Y).
  { apply cart_unique; [split; [exact Hs|exact B]|apply proper_cart, N| |].
    - rewrite pre_cart by auto. unfold pre; cbn [fst snd]. rewrite <- Cx. reflexivity.
    - rewrite pim_cart by auto. unfold pim; cbn [fst snd]. rewrite <- Cy. reflexivity. }
  unfold pcart in Eq. congruence.
Qed.

Lemma de_moivre z re im n theta : literal re -> literal im -> ~ (q_of re == 0 /\ q_of im == 0)%Q -> arctan2 re im = Some theta ->
  cval z (cTimes [cPower (app1 "Sqrt" (cPlus [cPower re (EInt 2); cPower im (EInt 2)])) (EInt n);
               ECplx (cos_ (cTimes [EInt n; theta])) (sin_ (cTimes [EInt n; theta]))])
  = cval z (cPower (ECplx re im) (EInt n)).
Proof.
  intros Hx Hy Nq E. pose proof (theta_arg z re im theta Hx Hy Nq E) as T.
  assert (N : ~ (Q2R (q_of re) = 0 /\ Q2R (q_of im) = 0)).
  { intros [A B]. apply Nq. split; apply eqR_Qeq; [rewrite A|rewrite B]; unfold Q2R; cbn; lra. }
  rewrite w_times2, !w_powZ, w_sqrt, w_plus2, !w_powZ, (w_lit_cplx z re im), w_cplx, w_cos, w_sin, !w_times2, w_int, T, (w_lit z re), (w_lit z im) by auto.
  set (x := Q2R (q_of re)) in *. set (y := Q2R (q_of im)) in *. clearbody x y.
  pose proof (cart_pos x y N) as P0.
  assert (E2 : forall u, cpow_Z (real u) 2 = real (u * u)) by (intros u; change (cpow_Z (real u) 2) with (cmul (real u) (cmul (real u) (real 1))); ceq).
  rewrite !E2. replace (cadd (real (x * x)) (real (y * y))) with (real (x * x + y * y)) by ceq.
  rewrite pow_pos_real by auto.
  assert (Es : exp (1 / 2 * ln (x * x + y * y)) = sqrt (x * x + y * y)).
  { rewrite <- Rpower_sqrt by auto. unfold Rpower. f_equal. field. }
  rewrite Es. set (m := sqrt (x * x + y * y)). assert (Hm : 0 < m) by (apply sqrt_lt_R0; auto).
  pose proof (pre_cart x y N) as Cx. pose proof (pim_cart x y N) as Cy. unfold pre, pim, pcart in Cx, Cy. cbn [fst snd] in Cx, Cy.
  fold m in Cx, Cy. set (t := carg x y) in *.
  replace (cpow_Z (x, y) n) with (cpow_Z (m * cos t, m * sin t) n) by (rewrite Cx, Cy; reflexivity).
  rewrite cpow_Z_polar, cpow_Z_real by lra.
  replace (cmul (real (IZR n)) (real t)) with (real (IZR n * t)) by ceq. rewrite ccos_real, csin_real. ceq.
Qed.
Lemma expand_exp A B C : cexp (cmul (cadd A (cmul ci B)) C)
  = cadd (cmul (cexp (cmul A C)) (ccos (cmul B C))) (cmul ci (cmul (cexp (cmul A C)) (csin (cmul B C)))).
Proof.
  replace (cmul (cadd A (cmul ci B)) C) with (cadd (cmul A C) (cmul ci (cmul B C))) by ceq.
  rewrite cexp_add, <- euler. generalize (cexp (cmul A C)) (ccos (cmul B C)) (csin (cmul B C)). intros. ceq.
Qed.

(* C86: every rule of [complex_rule] keeps the complex value of the expression,
   whatever the complex values of the symbols and of the unknown functions. *)
Theorem C86_value z e e' : complex_rule e e' -> cval z e' = cval z e.
Proof.
  intros H. destruct H.
  - (* Im of a real number *) destruct (real_number_real z x H) as [v Hv]. rewrite w_im, Hv. reflexivity.
  - rewrite w_im, (w_times_perm z _ _ H), w_times2, w_pow, !w_int, w_rat, pow_pos_real by (discriminate || (apply IZR_lt; auto)).
    cbn [real cmul fst snd]. f_equal. ring.
  - rewrite w_im, w_lit_cplx, (w_lit z b) by auto. reflexivity.
  - destruct (real_number_real z x H1) as [v Hv]. rewrite !w_im, (w_plus_perm z _ _ H), w_plusc, Hv. cbn [real cadd fst snd]. f_equal. ring.
  - destruct (real_number_real z x H1) as [v Hv]. rewrite w_times2, !w_im, (w_times_perm z _ _ H), w_timesc, Hv. ceq.
  - rewrite w_im, w_re, (w_times_perm z _ _ H), w_timesc, w_i. cbn [cmul ci fst snd]. f_equal. ring.
  - rewrite w_plus2, w_re, !w_im, (w_times_perm z _ _ H), !w_timesc, w_lit_cplx, (w_lit z a), (w_lit z b) by auto.
    generalize (cval z (cTimes rest)). intros [p q]. ceq.
  - rewrite w_plus2, w_re, !w_im, (w_plus_perm z _ _ H), !w_plusc, !w_timesc, (w_times_perm z _ _ H0), w_timesc, w_lit_cplx, (w_lit z a), (w_lit z b) by auto.
    generalize (cval z (cTimes c)) (cval z (cPlus d)). intros [p q] [s t]. ceq.
  - rewrite !w_im, w_times2, !w_epow, w_re, w_sin, w_im, cexp_real, csin_real. generalize (cval z x); intros [p q]. unfold cexp. ceq.
  - destruct (real_number_real z x H) as [v Hv]. rewrite w_re, Hv. reflexivity.
  - rewrite w_re, w_lit_cplx, (w_lit z a) by auto. reflexivity.
  - rewrite !w_re, (w_plus_perm z _ _ H), w_plusc, w_i. cbn [cadd ci fst snd]. f_equal. ring.
  - destruct (real_number_real z x H1) as [v Hv]. rewrite w_plus2, !w_re, (w_plus_perm z _ _ H), w_plusc, Hv. ceq.
  - destruct (real_number_real z x H1) as [v Hv]. rewrite w_times2, !w_re, (w_times_perm z _ _ H), w_timesc, Hv. ceq.
  - rewrite w_times2, w_re, w_im, (w_times_perm z _ _ H), w_timesc, w_i, w_int. generalize (cval z (cTimes rest)). intros [p q]. ceq.
  - rewrite w_times2, !w_re, w_cos, w_im, !w_epow, w_re, cexp_real, ccos_real. generalize (cval z x); intros [p q]. unfold cexp. ceq.
  - change (cval z (conj_ a)) with (cconj (cval z a)). rewrite w_plus2, w_times3, w_int, w_im, w_i. generalize (cval z a). intros [p q]. ceq.
  - change (cval z (app1 "Exp" x)) with (cexp (cval z x)). apply w_epow.
  - rewrite w_abs, (w_lit z a), cabs_real by auto. apply Qle_Rle in H0. replace (Q2R 0) with 0 in H0 by (unfold Q2R; cbn; lra).
    rewrite Rabs_right by lra. reflexivity.
  - rewrite w_abs, (w_lit z a), (w_lit z a'), cabs_real by auto. apply Qlt_Rlt in H0. replace (Q2R 0) with 0 in H0 by (unfold Q2R; cbn; lra).
    rewrite Rabs_left, (Qeq_eqR _ _ H2), Q2R_opp by lra. reflexivity.
  - rewrite !w_abs, (w_times_perm z _ _ H), w_timesc, w_int. generalize (cval z (cTimes rest)). intros [p q]. f_equal.
    unfold cabs; cbn [real cmul fst snd]. f_equal. ring.
  - apply IZR_lt in H. rewrite w_plus2, w_times2, w_i, w_pi, !w_log, !w_int, opp_IZR, (clog_neg (IZR n)), (clog_pos (- IZR n)) by lra. ceq.
  - rewrite w_log, !w_int, clog_pos, ln_1 by lra. reflexivity.
  - rewrite w_log, w_int, w_e, clog_e. reflexivity.
  - (* complexExpandInner *) apply IZR_lt in H. subst coeff inner.
    rewrite w_plus2, w_times2, w_times3, w_i, w_cos, w_sin, w_times2, w_rat, w_pi, (w_pow z (EInt a) (ERat n d)), !(w_pow z (cPower (EInt a) (EInt 2))) by discriminate.
    rewrite w_powZ, w_times2. unfold half. rewrite !w_rat, !w_int, (cpowc_ne (real (IZR a))), (clog_neg (IZR a)) by (try (apply real_ne); lra).
    assert (E2 : cpow_Z (real (IZR a)) 2 = real (IZR a * IZR a)) by (change (cpow_Z (real (IZR a)) 2) with (cmul (real (IZR a)) (cmul (real (IZR a)) (real 1))); ceq). rewrite E2.
    set (q := IZR n / IZR d). set (x := IZR a) in *. clearbody q x.
    replace (cmul (real (1 / 2)) (real q)) with (real (q / 2)) by (ceq; field).
    rewrite pow_pos_real by nra.
    replace (cmul (real q) (real PI)) with (real (q * PI)) by ceq. rewrite ccos_real, csin_real.
    assert (E3 : exp (q / 2 * ln (x * x)) = exp (q * ln (- x))).
    { f_equal. replace (x * x) with ((- x) * (- x)) by ring. rewrite ln_mult by lra. field. }
    rewrite E3. apply cplx_eq; cbn [cadd cmul real ci cexp fst snd];
      replace (q * ln (- x) - 0 * PI) with (q * ln (- x)) by ring; replace (q * PI + 0 * ln (- x)) with (q * PI) by ring; ring.
  - symmetry. rewrite w_epow, (w_times_perm z _ _ H), (w_times2 z (cPlus [a; cTimes [eI; b]]) c), (w_plus2 z a), (w_times2 z eI b).
    rewrite w_plus2, (w_times2 z (cPower _ _)), w_times3, w_cos, w_sin, !w_i, w_epow, !w_times2. apply expand_exp.
  - symmetry. rewrite w_epow, (w_times_perm z _ _ H), (w_timesc z (ECplx a b)), w_cplx.
    rewrite w_plus2, (w_times2 z (cPower _ _)), w_times3, w_cos, w_sin, !w_i, w_epow, !w_timesc. apply expand_exp.
  - apply de_moivre; auto.
  - rewrite w_arg, w_lit_cplx by auto. cbn [fst snd]. apply theta_arg; auto.
  - rewrite w_arg, (w_lit z x) by auto. cbn [real fst snd]. rewrite (theta_arg z x (EInt 0) theta); auto.
    + do 2 f_equal. unfold Q2R; cbn. lra.
    + left. eexists. reflexivity.
    + intros [K _]. auto.
Qed.
Print Assumptions C86_value.

(* Log[E^p] := p keeps the value when -Pi < Im p <= Pi ... *)
Lemma log_exp w : - PI < snd w <= PI -> clog (cexp w) = w.
Proof.
  destruct w as [a b]; cbn [snd]. intros B.
  assert (Ha : cabs (cexp (a, b)) = exp a).
  { unfold cabs, cexp; cbn [fst snd]. pose proof (sin2_cos2 b) as S. unfold Rsqr in S.
    replace (exp a * cos b * (exp a * cos b) + exp a * sin b * (exp a * sin b)) with (exp a * exp a).
    - apply sqrt_square. pose proof (exp_pos a). lra.
    - transitivity (exp a * exp a * (sin b * sin b + cos b * cos b)); [rewrite S; ring|ring]. }
  assert (N : ~ (exp a * cos b = 0 /\ exp a * sin b = 0)).
  { intros [A C]. pose proof (exp_pos a) as X. apply Rmult_integral in A, C. pose proof (sin2_cos2 b) as S. unfold Rsqr in S.
    destruct A as [A|A]; [lra|]. destruct C as [C|C]; [lra|]. rewrite A, C in S. lra. }
  unfold clog. rewrite Ha, ln_exp. f_equal. cbn [cexp fst snd].
  assert (Eq : pcart (exp a * cos b) (exp a * sin b) = (exp a, b)).
  { apply cart_unique; [apply proper_cart, N|split; [apply exp_pos|exact B]| |]; rewrite ?pre_cart, ?pim_cart by auto; reflexivity. }
  unfold pcart in Eq. congruence.
Qed.
Theorem C86_log_exp_partial z e e' : log_exp_rule e e' ->
  (forall p, e = app1 "Log" (cPower eE p) -> - PI < snd (cval z p) <= PI) -> cval z e' = cval z e.
Proof.
  intros H B. destruct H as [p Hp|a b Ha Hb]; rewrite w_log, w_epow; symmetry; apply log_exp, (B _ eq_refl).
Qed.
Print Assumptions C86_log_exp_partial.
(* ... and not otherwise: Log[E^(7 I)] is 7 I - 2 Pi I, not 7 I *)
Theorem C86_log_exp_refuted : exists z e e', log_exp_rule e e' /\ cval z e' <> cval z e.
Proof.
  exists (fun _ => real 0), (app1 "Log" (cPower eE (ECplx (EInt 0) (EInt 7)))), (ECplx (EInt 0) (EInt 7)).
  split; [constructor; left; eexists; reflexivity|]. intros E. apply (f_equal snd) in E.
  rewrite w_log, w_epow, w_lit_cplx in E by (left; eexists; reflexivity). cbn [q_of snd] in E.
  rewrite !q2r_int in E. unfold clog in E. cbn [snd] in E.
  assert (N : ~ (fst (cexp (0, 7)) = 0 /\ snd (cexp (0, 7)) = 0)).
  { cbn [cexp fst snd]. rewrite exp_0. intros [A C]. pose proof (sin2_cos2 7) as S. unfold Rsqr in S. nra. }
  pose proof (carg_range _ _ N) as [_ K]. rewrite <- E in K. pose proof PI_4. lra.
Qed.
Print Assumptions C86_log_exp_refuted.
(* Log[1/b] := -Log[a] with a free symbol a: the value depends on what a is *)
Theorem C86_log_rational_refuted : exists z e e', log_rat_rule e e' /\ cval z e' <> cval z e.
Proof.
  exists (fun _ => real 1), (app1 "Log" (ERat 1 2)), (cTimes [EInt (-1); app1 "Log" (ESym "Private`a")]).
  split; [constructor; lia|]. rewrite w_times2, !w_log, w_int, w_rat. change (cval (fun _ => real 1) (ESym "Private`a")) with (real 1).
  rewrite !clog_pos, ln_1 by lra. replace (1 / 2) with (/ 2) by lra. rewrite ln_Rinv by lra.
  intros E. apply (f_equal fst) in E. cbn [cmul real fst snd] in E.
  pose proof (ln_increasing 1 2 ltac:(lra) ltac:(lra)) as L. rewrite ln_1 in L. lra.
Qed.
Print Assumptions C86_log_rational_refuted.

Example C86_ex1 : complex_rule (cPower (ECplx (EInt (-1)) (ERat 1 2)) (EInt 5))
  (cTimes [cPower (app1 "Sqrt" (cPlus [cPower (EInt (-1)) (EInt 2); cPower (ERat 1 2) (EInt 2)])) (EInt 5);
           ECplx (cos_ (cTimes [EInt 5; cPlus [app1 "ArcTan" (cTimes [ERat 1 2; recip (EInt (-1))]); ePi]]))
                 (sin_ (cTimes [EInt 5; cPlus [app1 "ArcTan" (cTimes [ERat 1 2; recip (EInt (-1))]); ePi]]))]).
Proof.
  apply cr_de_moivre; [left; eexists; reflexivity|right; do 2 eexists; split; [reflexivity|lia]| |discriminate|reflexivity].
  intros [A _]. discriminate A.
Qed.
Example C86_ex2 : complex_rule (im_ (cTimes [sys "a"; eI; sys "b"])) (re_ (cTimes [sys "a"; sys "b"])).
Proof. apply cr_im_i; [apply perm_swap|discriminate]. Qed.
Example C86_ex3 : log_exp_rule (app1 "Log" (cPower eE (ECplx (EInt 2) (EInt 3)))) (ECplx (EInt 2) (EInt 3)) /\
  forall z p, app1 "Log" (cPower eE (ECplx (EInt 2) (EInt 3))) = app1 "Log" (cPower eE p) -> - PI < snd (cval z p) <= PI.
Proof.
  split; [constructor; left; eexists; reflexivity|]. intros z p E. injection E as <-.
  rewrite w_lit_cplx by (left; eexists; reflexivity). cbn [snd q_of]. rewrite q2r_int.
  pose proof PI_RGT_0. pose proof PI2_3_2. lra.
Qed.
