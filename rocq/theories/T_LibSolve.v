(* C88: the formulas Solve uses for polynomials and linear systems. *)
From Coq Require Import Reals Lra Lia Psatz List Permutation.
From Verif Require Import M_Syntax M_LibCalc M_LibPower M_LibTrig M_LibComplex M_LibSolve S_Real S_Trig S_Polar S_Complex P_Polar T_LibPower T_LibComplex T_LibComplex2 P_Complex P_Algebra.
Import ListNotations.
Open Scope R_scope.

Declare Scope cplx_scope.
Delimit Scope cplx_scope with C.
Infix "+" := cadd : cplx_scope.
Infix "*" := cmul : cplx_scope.
Infix "-" := csub : cplx_scope.
Infix "/" := cdiv : cplx_scope.
Notation "- x" := (copp x) : cplx_scope.
Notation "0" := (real 0) : cplx_scope.
Notation "1" := (real 1) : cplx_scope.
(* small numbers as sums and products of 1 *)
Notation two := (1 + 1)%C.
Notation three := (1 + 1 + 1)%C.
Lemma real_2 : real 2 = two. Proof. ceq. Qed.
Lemma real_3 : real 3 = three. Proof. ceq. Qed.
Lemma real_4 : real 4 = (two * two)%C. Proof. ceq. Qed.
Lemma real_6 : real 6 = (two * three)%C. Proof. ceq. Qed.
Lemma real_8 : real 8 = (two * two * two)%C. Proof. ceq. Qed.
Lemma real_9 : real 9 = (three * three)%C. Proof. ceq. Qed.
Lemma real_12 : real 12 = (three * two * two)%C. Proof. ceq. Qed.
Lemma real_27 : real 27 = (three * three * three)%C. Proof. ceq. Qed.
Lemma real_72 : real 72 = (three * three * (two * two * two))%C. Proof. ceq. Qed.
Lemma real_opp x : real (- x) = (- real x)%C. Proof. apply cplx_eq; cbn; ring. Qed.
Lemma real_ne_pos x : 0 < x -> real x <> real 0. Proof. intros H. apply real_ne. lra. Qed.
Lemma N2 : two <> real 0. Proof. rewrite <- real_2. apply real_ne_pos. lra. Qed.
Lemma N3 : three <> real 0. Proof. rewrite <- real_3. apply real_ne_pos. lra. Qed.

Section Val.
Variable z : ex -> cplx.
Lemma y_neg a : cval z (eneg a) = (- cval z a)%C.
Proof. unfold eneg. rewrite w_times2, w_int. change (real (-1)) with (real (- (1))). rewrite real_opp. ring. Qed.
Lemma y_sub a b : cval z (esub a b) = (cval z a - cval z b)%C.
Proof. unfold esub. rewrite w_plus2, y_neg. ring. Qed.
Lemma y_inv a : cval z (cPower a (EInt (-1))) = cinv (cval z a).
Proof. rewrite w_powZ. change (cpow_Z (cval z a) (-1)) with (cinv (cmul (cval z a) (real 1))). rewrite cmul_1_r. reflexivity. Qed.
Lemma y_div a b : cval z (ediv a b) = (cval z a / cval z b)%C.
Proof. unfold ediv. rewrite w_times2, y_inv. reflexivity. Qed.
Lemma y_sqrt a : cval z (esqrt a) = cpowc (cval z a) (real (1 / 2)). Proof. reflexivity. Qed.
Lemma y_cbrt a : cval z (ecbrt a) = cpowc (cval z a) (real (1 / 3)).
Proof. unfold ecbrt. rewrite w_pow by discriminate. reflexivity. Qed.
Lemma y_2 a : cval z (ipow a 2) = (cval z a * cval z a)%C.
Proof. unfold ipow. rewrite w_powZ. change (cpow_Z (cval z a) 2) with (cmul (cval z a) (cmul (cval z a) (real 1))). rewrite cmul_1_r. reflexivity. Qed.
Lemma y_3 a : cval z (ipow a 3) = (cval z a * (cval z a * cval z a))%C.
Proof. unfold ipow. rewrite w_powZ. change (cpow_Z (cval z a) 3) with (cmul (cval z a) (cmul (cval z a) (cmul (cval z a) (real 1)))). rewrite cmul_1_r. reflexivity. Qed.
Lemma y_2c : cval z (EInt 2) = two. Proof. rewrite w_int. apply real_2. Qed.
Lemma y_3c : cval z (EInt 3) = three. Proof. rewrite w_int. apply real_3. Qed.
Lemma y_4c : cval z (EInt 4) = (two * two)%C. Proof. rewrite w_int. apply real_4. Qed.
Lemma y_6c : cval z (EInt 6) = (two * three)%C. Proof. rewrite w_int. apply real_6. Qed.
Lemma y_8c : cval z (EInt 8) = (two * two * two)%C. Proof. rewrite w_int. apply real_8. Qed.
Lemma y_9c : cval z (EInt 9) = (three * three)%C. Proof. rewrite w_int. apply real_9. Qed.
Lemma y_12c : cval z (EInt 12) = (three * two * two)%C. Proof. rewrite w_int. apply real_12. Qed.
Lemma y_27c : cval z (EInt 27) = (three * three * three)%C. Proof. rewrite w_int. apply real_27. Qed.
Lemma y_m n : cval z (EInt (- n)) = (- cval z (EInt n))%C.
Proof. rewrite !w_int, opp_IZR. apply real_opp. Qed.
Lemma y_m1c : cval z (EInt (-1)) = (- (1))%C. Proof. change (EInt (-1)) with (EInt (- (1))). rewrite y_m, w_int. reflexivity. Qed.
Lemma y_m2c : cval z (EInt (-2)) = (- two)%C. Proof. change (EInt (-2)) with (EInt (- (2))). rewrite y_m, y_2c. reflexivity. Qed.
Lemma y_m3c : cval z (EInt (-3)) = (- three)%C. Proof. change (EInt (-3)) with (EInt (- (3))). rewrite y_m, y_3c. reflexivity. Qed.
Lemma y_m4c : cval z (EInt (-4)) = (- (two * two))%C. Proof. change (EInt (-4)) with (EInt (- (4))). rewrite y_m, y_4c. reflexivity. Qed.
Lemma y_m9c : cval z (EInt (-9)) = (- (three * three))%C. Proof. change (EInt (-9)) with (EInt (- (9))). rewrite y_m, y_9c. reflexivity. Qed.
Lemma y_m27c : cval z (EInt (-27)) = (- (three * three * three))%C. Proof. change (EInt (-27)) with (EInt (- (27))). rewrite y_m, y_27c. reflexivity. Qed.
Lemma y_m72c : cval z (EInt (-72)) = (- (three * three * (two * two * two)))%C.
Proof. change (EInt (-72)) with (EInt (- (72))). rewrite y_m, w_int, real_72. reflexivity. Qed.
Lemma y_nil_t : cval z (cTimes []) = real 1. Proof. reflexivity. Qed.
Lemma y_nil_p : cval z (cPlus []) = real 0. Proof. reflexivity. Qed.
End Val.


Lemma prod0 z w : (z * w = 0)%C <-> z = real 0 \/ w = real 0.
Proof. split; [apply cmul_0|intros [-> | ->]; ring]. Qed.
Lemma prod0_l z w : z <> real 0 -> (z * w = 0)%C <-> w = real 0.
Proof. intros H. rewrite prod0. tauto. Qed.
Ltac unfactor := rewrite prod0_l by assumption; rewrite !prod0, !csub_0; clear; split;
  [ intros H; repeat (destruct H as [H|H]); subst; eexists; (split; [|reflexivity]); cbn [In]; tauto
  | intros (s & H & ->); cbn [In] in H; repeat (destruct H as [H|H]; [subst s; tauto|]); destruct H ].

(* the quadratic formula gives exactly the roots *)
Theorem C88_quadratic z a b c x : cval z a <> real 0 ->
  ((cval z a * (x * x) + cval z b * x + cval z c = 0)%C <-> exists s, In s (quadratic_roots a b c) /\ x = cval z s).
Proof.
  intros Ha. unfold quadratic_roots.
  set (A := cval z a) in *. set (B := cval z b). set (C := cval z c).
  pose (S := cpowc (B * B - two * two * (A * C))%C (real (1 / 2))).
  assert (HS : (S * S = B * B - two * two * (A * C))%C) by apply csqrt_sq.
  assert (ES : cval z (esqrt (cPlus [ipow b 2; cTimes [EInt (-4); a; c]])) = S).
  { rewrite y_sqrt, w_plus2, w_times3, y_2, y_m4c. fold A B C. unfold S. f_equal. ring. }
  set (e1 := ediv (esub _ _) _). set (e2 := ediv _ _).
  assert (E1 : ((- B - S) / (two * A))%C = cval z e1).
  { unfold e1. rewrite y_div, y_sub, y_neg, ES, w_times2, y_2c. reflexivity. }
  assert (E2 : ((- B + S) / (two * A))%C = cval z e2).
  { unfold e2. rewrite y_div, w_plus2, y_neg, ES, w_times2, y_2c. reflexivity. }
  rewrite (quadratic_fact _ _ _ _ _ _ _ _ _ cplx_field N2 A B C S x Ha HS), E1, E2. unfactor.
Qed.
Print Assumptions C88_quadratic.

(* the cubic formula *)
Definition t2 : cplx := cpowc (real 2) (real (1 / 3)).
Lemma t2_cube : (t2 * (t2 * t2) = two)%C.
Proof. unfold t2. rewrite ccbrt_cube. apply real_2. Qed.
Lemma y_t2 z : cval z (ecbrt (EInt 2)) = t2.
Proof. rewrite y_cbrt. reflexivity. Qed.
Lemma y_t22 z : cval z (cPower (EInt 2) (ERat 2 3)) = (t2 * t2)%C.
Proof.
  rewrite w_pow by discriminate. rewrite w_int, w_rat. unfold t2. rewrite !pow_pos_real by lra.
  apply cplx_eq; cbn [cmul real fst snd]; [|ring]. replace (2 / 3 * ln 2) with (1 / 3 * ln 2 + 1 / 3 * ln 2) by field. rewrite exp_plus. ring.
Qed.
Definition j3 : cplx := (ci * cpowc (real 3) (real (1 / 2)))%C.
Lemma j3_sq : (j3 * j3 = - three)%C.
Proof.
  unfold j3. transitivity ((ci * ci) * (cpowc (real 3) (real (1 / 2)) * cpowc (real 3) (real (1 / 2))))%C; [ring|].
  rewrite csqrt_sq. apply cplx_eq; cbn [cmul cadd copp real ci fst snd]; ring.
Qed.
Lemma y_j3 z : cval z (i_sqrt3 1) = (1 + j3)%C.
Proof. unfold i_sqrt3. rewrite w_plus2, w_times3, y_sqrt, w_i, !w_int. unfold j3. ring. Qed.
Lemma y_j3m z : cval z (i_sqrt3 (-1)) = (1 - j3)%C.
Proof. unfold i_sqrt3. rewrite w_plus2, w_times3, y_sqrt, w_i, y_m1c, !w_int. unfold j3. ring. Qed.
Lemma y_cubic_p z d c b : cval z (cubic_p d c b) = cub_p cplx (real 1) cadd cmul copp (cval z d) (cval z c) (cval z b).
Proof. unfold cubic_p, cub_p. rewrite w_plus2, y_neg, w_times3, y_2, y_3c. reflexivity. Qed.
Lemma y_cubic_q z d c b a : cval z (cubic_q d c b a) = cub_q cplx (real 1) cadd cmul csub copp (cval z d) (cval z c) (cval z b) (cval z a).
Proof.
  unfold cubic_q, cub_q. rewrite !w_plusc, y_nil_p, !w_timesc, !y_nil_t, y_2, y_3, y_m2c, y_9c, y_m27c. ring.
Qed.
Theorem C88_cubic_partial z d c b a x : cval z d <> real 0 -> cval z (cubic_w d c b a) <> real 0 ->
  ((cval z d * (x * (x * x)) + cval z c * (x * x) + cval z b * x + cval z a = 0)%C <-> exists s, In s (cubic_roots d c b a) /\ x = cval z s).
Proof.
  intros Hd HW. unfold cubic_roots.
  set (w := cval z (ecbrt (cubic_w d c b a))).
  assert (Hw3 : (w * (w * w) = cval z (cubic_w d c b a))%C) by (unfold w; rewrite y_cbrt; apply ccbrt_cube).
  assert (Hw : w <> real 0) by (intros E; apply HW; rewrite <- Hw3, E; ring).
  unfold cubic_w in Hw3. rewrite w_plus2, y_cubic_q in Hw3.
  match type of Hw3 with (_ = _ + ?k)%C => set (s := k) in Hw3 end.
  assert (Hs : (s * s)%C = cval z (cPlus [cTimes [EInt 4; ipow (cubic_p d c b) 3]; ipow (cubic_q d c b a) 2])) by apply csqrt_sq.
  rewrite w_plus2, w_times2, y_4c, y_3, y_2, y_cubic_p, y_cubic_q in Hs.
  set (e1 := cPlus _). set (e2 := cPlus [_; ediv (cTimes [i_sqrt3 1; _]) _; _]). set (e3 := cPlus [_; ediv (cTimes [i_sqrt3 (-1); _]) _; _]).
  rewrite (cubic_fact _ _ _ _ _ _ _ _ _ cplx_field N2 N3 _ _ _ _ s w t2 j3 x Hd Hw t2_cube j3_sq Hs Hw3).
  set (D := cval z d) in *. set (C := cval z c) in *. set (B := cval z b) in *.
  match goal with |- (_ * ((_ - ?r1) * ((_ - ?r2) * (_ - ?r3))) = _)%C <-> _ =>
    assert (E1 : r1 = cval z e1); [|assert (E2 : r2 = cval z e2); [|assert (E3 : r3 = cval z e3)]] end.
  - unfold e1. rewrite !w_plusc, y_nil_p, !y_neg, !y_div, !w_timesc, !y_nil_t, y_cubic_p, !y_t2, !y_3c. fold w D C B.
    rewrite !cmul_1_r. ring.
  - unfold e2. rewrite !w_plusc, y_nil_p, !y_neg, !y_div, !w_timesc, !y_div, !w_timesc, !y_nil_t, y_cubic_p, !y_t2, !y_t22, !y_3c, y_6c, y_j3, y_j3m, w_int. fold w D C B.
    rewrite !cmul_1_r, ?cmul_assoc. ring.
  - unfold e3. rewrite !w_plusc, y_nil_p, !y_neg, !y_div, !w_timesc, !y_div, !w_timesc, !y_nil_t, y_cubic_p, !y_t2, !y_t22, !y_3c, y_6c, y_j3, y_j3m, w_int. fold w D C B.
    rewrite !cmul_1_r, ?cmul_assoc. ring.
  - rewrite E1, E2, E3. unfactor.
Qed.
Print Assumptions C88_cubic_partial.

(* the quartic formula *)
Lemma y_m_half z x : cval z (cTimes [ERat (-1) 2; x]) = (- (cval z x / two))%C.
Proof. rewrite w_times2, w_rat. unfold cdiv. rewrite <- real_2, cinv_real by lra. apply cplx_eq; cbn [cmul copp real fst snd]; field. Qed.
Lemma y_half z x : cval z (cTimes [ERat 1 2; x]) = (cval z x / two)%C.
Proof. rewrite w_times2, w_rat. unfold cdiv. rewrite <- real_2, cinv_real by lra. apply cplx_eq; cbn [cmul copp real fst snd]; field. Qed.
Lemma y_quartic_d0 z e d c b a : cval z (quartic_d0 e d c b a)
  = qua_d0 cplx (real 1) cadd cmul csub (cval z e) (cval z d) (cval z c) (cval z b) (cval z a).
Proof. unfold quartic_d0, qua_d0. rewrite !w_plusc, y_nil_p, !w_timesc, !y_nil_t, y_2, y_m3c, y_12c. ring. Qed.
Lemma y_quartic_d1 z e d c b a : cval z (quartic_d1 e d c b a)
  = qua_d1 cplx (real 1) cadd cmul csub (cval z e) (cval z d) (cval z c) (cval z b) (cval z a).
Proof. unfold quartic_d1, qua_d1. rewrite !w_plusc, y_nil_p, !w_timesc, !y_nil_t, !y_2, y_3, y_2c, y_m9c, y_27c, y_m72c. ring. Qed.
Lemma y_quartic_u z e d c b : cval z (quartic_u e d c b)
  = qua_u cplx (real 1) cadd cmul csub copp cdiv (cval z e) (cval z d) (cval z c) (cval z b).
Proof.
  unfold quartic_u, qua_u. rewrite !w_plusc, y_nil_p, !y_neg, !y_div, !w_timesc, !y_nil_t, y_4c, y_8c, !y_2, !y_3. rewrite !cmul_1_r, cadd_0_r. 
  unfold csub. rewrite !cadd_assoc. reflexivity.
Qed.
Theorem C88_quartic_partial z e d c b a x : cval z e <> real 0 -> cval z (quartic_w e d c b a) <> real 0 -> cval z (quartic_s e d c b a) <> real 0 ->
  ((cval z e * (x * x * (x * x)) + cval z d * (x * (x * x)) + cval z c * (x * x) + cval z b * x + cval z a = 0)%C
   <-> exists s, In s (quartic_roots e d c b a) /\ x = cval z s).
Proof.
  intros He HW HS. unfold quartic_roots.
  set (w := cval z (ecbrt (quartic_w e d c b a))).
  assert (Hw3 : (w * (w * w) = cval z (quartic_w e d c b a))%C) by (unfold w; rewrite y_cbrt; apply ccbrt_cube).
  assert (Hw : w <> real 0) by (intros E; apply HW; rewrite <- Hw3, E; ring).
  unfold quartic_w in Hw3. rewrite w_plus2, y_quartic_d1 in Hw3.
  match type of Hw3 with (_ = _ + ?k)%C => set (s := k) in Hw3 end.
  assert (Hs : (s * s)%C = cval z (cPlus [cTimes [EInt (-4); ipow (quartic_d0 e d c b a) 3]; ipow (quartic_d1 e d c b a) 2])) by apply csqrt_sq.
  rewrite w_plus2, w_times2, y_m4c, y_3, y_2, y_quartic_d0, y_quartic_d1 in Hs.
  set (q1 := (t2 * cval z (quartic_d0 e d c b a) / (three * (cval z e * w)))%C).
  set (q2 := (1 / (three * (t2 * cval z e)) * w)%C).
  assert (E1 : cval z (quartic_q1 e d c b a) = q1).
  { unfold quartic_q1, q1. rewrite y_div, w_times2, w_times3, y_t2, y_3c. reflexivity. }
  assert (E2 : cval z (quartic_q2 e d c b a) = q2).
  { unfold quartic_q2, q2. rewrite w_times2, y_div, w_times3, y_t2, y_3c, w_int. reflexivity. }
  set (S := cval z (quartic_s e d c b a)) in *.
  assert (HSS : (S * S = cval z d * cval z d / (two * two * (cval z e * cval z e)) - two * cval z c / (three * cval z e) + q1 + q2)%C).
  { unfold S, quartic_s. rewrite y_sqrt, csqrt_sq. rewrite !w_plusc, y_nil_p, y_neg, !y_div, E1, E2, !w_timesc, !y_nil_t, y_4c, y_2c, y_3c, !y_2.
    rewrite !cmul_1_r. ring. }
  assert (HR : forall sg : Z, let r := cval z (quartic_r sg e d c b a) in
    (r * r = cval z d * cval z d / (two * (cval z e * cval z e)) - two * two * cval z c / (three * cval z e) - q1 - q2
      + cval z (EInt sg) * (cval z (quartic_u e d c b) / (two * two * S)))%C).
  { intros sg r. unfold r, quartic_r. rewrite y_sqrt, csqrt_sq. rewrite !w_plusc, y_nil_p, !y_neg, !y_div, E1, E2, !w_timesc, !y_nil_t, !y_div, !w_timesc, !y_nil_t, !y_4c, y_2c, y_3c, !y_2.
    fold S. rewrite !cmul_1_r. ring. }
  set (r1 := cval z (quartic_r (-1) e d c b a)). set (r2 := cval z (quartic_r 1 e d c b a)).
  assert (Hr1 := HR (-1)%Z). fold r1 in Hr1. cbv zeta in Hr1. rewrite y_m1c in Hr1.
  assert (Hr2 := HR 1%Z). fold r2 in Hr2. cbv zeta in Hr2. rewrite w_int in Hr2.
  assert (Hr1' : (r1 * r1 = cval z d * cval z d / (two * (cval z e * cval z e)) - two * two * cval z c / (three * cval z e) - q1 - q2
      - (cval z (quartic_u e d c b) / (two * two * S)))%C) by (rewrite Hr1; ring).
  assert (Hr2' : (r2 * r2 = cval z d * cval z d / (two * (cval z e * cval z e)) - two * two * cval z c / (three * cval z e) - q1 - q2
      + (cval z (quartic_u e d c b) / (two * two * S)))%C) by (rewrite Hr2; ring).
  rewrite y_quartic_u in Hr1', Hr2'. unfold q1 in HSS, Hr1', Hr2'. rewrite y_quartic_d0 in HSS, Hr1', Hr2'.
  rewrite (quartic_fact _ _ _ _ _ _ _ _ _ cplx_field N2 N3 _ _ _ _ _ s w t2 S r1 r2 x He Hw HS t2_cube Hs Hw3 HSS Hr1' Hr2').
  match goal with |- (_ * ((_ - ?r1) * (_ - ?r2) * ((_ - ?r3) * (_ - ?r4))) = _)%C <-> _ =>
    assert (F1 : r1 = cval z (quartic_root (-1) (-1) e d c b a));
    [|assert (F2 : r2 = cval z (quartic_root (-1) 1 e d c b a));
    [|assert (F3 : r3 = cval z (quartic_root 1 (-1) e d c b a));
    [|assert (F4 : r4 = cval z (quartic_root 1 1 e d c b a)); [|rewrite F1, F2, F3, F4]]]] end;
  try (unfold quartic_root; rewrite !w_plusc, y_nil_p, y_neg, y_div, ?y_half, ?y_m_half, w_times2, y_4c; fold S r1 r2; ring).
  unfactor.
Qed.
Print Assumptions C88_quartic_partial.

(* e x^4 + d x^3 *)
Theorem C88_quartic_short z e d x : cval z e <> real 0 ->
  ((cval z e * (x * x * (x * x)) + cval z d * (x * (x * x)) = 0)%C <-> exists s, In s (quartic_short_roots e d) /\ x = cval z s).
Proof.
  intros He. unfold quartic_short_roots.
  assert (E : (cval z e * (x * x * (x * x)) + cval z d * (x * (x * x)) = cval z e * (x * (x * (x * (x - cval z (eneg (ediv d e)))))))%C).
  { rewrite y_neg, y_div. unfold cdiv.
    transitivity (cval z e * (x * x * (x * x)) + (cinv (cval z e) * cval z e) * cval z d * (x * (x * x)))%C; [|ring].
    rewrite (Finv_l cplx_field) by exact He. ring. }
  rewrite E, prod0_l by assumption. rewrite !prod0, csub_0. split.
  - intros H. cbn [In].
    repeat (destruct H as [H|H]); try (exists (EInt 0); split; [tauto|exact H]).
    exists (eneg (ediv d e)). split; [tauto|exact H].
  - intros (s & H & ->). cbn [In] in H. repeat (destruct H as [H|H]; [subst s; tauto|]). destruct H.
Qed.
Print Assumptions C88_quartic_short.

(* linear systems *)
Theorem C88_system_two z a b c d e f x y : (cval z b * cval z d - cval z a * cval z e <> 0)%C ->
  let s := system_two a b c d e f in
  (cval z a * x + cval z b * y = cval z c /\ cval z d * x + cval z e * y = cval z f)%C <-> x = cval z (fst s) /\ y = cval z (snd s).
Proof.
  intros Hd. cbn [system_two fst snd]. rewrite !y_neg, !y_div, !y_sub, !w_plus2, !w_times2, y_neg, w_times2.
  apply (system_fact _ _ _ _ _ _ _ _ _ cplx_field). exact Hd.
Qed.
Print Assumptions C88_system_two.
Theorem C88_system_tri z a b c d f x y : cval z b <> real 0 -> cval z d <> real 0 ->
  let s := system_tri a b c d f in
  (cval z a * x + cval z b * y = cval z c /\ cval z d * x = cval z f)%C <-> x = cval z (fst s) /\ y = cval z (snd s).
Proof.
  intros Hb Hd. cbn [system_tri fst snd]. rewrite y_neg, !y_div, !w_plus2, !w_times2, y_neg, w_times2.
  apply (system_tri_fact _ _ _ _ _ _ _ _ _ cplx_field); assumption.
Qed.
Print Assumptions C88_system_tri.

(* The formulas for degree 3 and 4 divide by the cube root of W, which can be 0
   although the equation has solutions: x^3 + 3 x^2 + 3 x + 9 = (x + 1)^3 + 8
   and - x^4 - 4 x^3 - 6 x^2 - 3 x = (x + 1) - (x + 1)^4. *)
Ltac cnum := unfold csub, copp, cdiv; apply cplx_eq; cbn [cadd cmul real fst snd]; first [ring|lra|field; lra|field|nra].
Lemma cpowc_half_sq r : 0 < r -> cpowc (real (r * r)) (real (1 / 2)) = real r.
Proof.
  intros H. rewrite pow_pos_real by nra. f_equal. rewrite ln_mult by exact H.
  replace (1 / 2 * (ln r + ln r)) with (ln r) by field. apply exp_ln. exact H.
Qed.
Theorem C88_cubic_refuted : exists z d c b a x, cval z d <> real 0 /\
  (cval z d * (x * (x * x)) + cval z c * (x * x) + cval z b * x + cval z a = 0)%C /\
  cval z (cubic_w d c b a) = real 0 /\ forall s, In s (cubic_roots d c b a) -> cval z s <> x.
Proof.
  pose (z := fun _ : ex => real 0). exists z, (EInt 1), (EInt 3), (EInt 3), (EInt 9), (real (-3)).
  assert (Ep : cval z (cubic_p (EInt 1) (EInt 3) (EInt 3)) = real 0) by (rewrite y_cubic_p; unfold cub_p; rewrite !w_int; cnum).
  assert (Eq : cval z (cubic_q (EInt 1) (EInt 3) (EInt 3) (EInt 9)) = real (-216)) by (rewrite y_cubic_q; unfold cub_q; rewrite !w_int; cnum).
  assert (EW : cval z (cubic_w (EInt 1) (EInt 3) (EInt 3) (EInt 9)) = real 0).
  { unfold cubic_w. rewrite w_plus2, y_sqrt, w_plus2, w_times2, y_2, y_3, Ep, Eq.
    replace (_ * _ + _)%C with (real (216 * 216)) by cnum. rewrite cpowc_half_sq by lra. cnum. }
  assert (Ew : cval z (ecbrt (cubic_w (EInt 1) (EInt 3) (EInt 3) (EInt 9))) = real 0) by (rewrite y_cbrt, EW; apply cpowc_0).
  split; [rewrite w_int; apply real_ne; lra|]. split; [rewrite !w_int; cnum|]. split; [exact EW|].
  intros s Hs. enough (E : cval z s = real (-1)) by (rewrite E; intros F; apply (f_equal fst) in F; cbn [real fst] in F; lra).
  assert (Es : cval z (eneg (ediv (EInt 3) (cTimes [EInt 3; EInt 1]))) = real (-1)).
  { rewrite y_neg, y_div, w_times2, !w_int. unfold cdiv. replace (real 3 * real 1)%C with (real 3) by cnum. rewrite cinv_real by lra. cnum. }
  cbn [cubic_roots In] in Hs. destruct Hs as [<-|[<-|[<-|[]]]]; rewrite !w_plusc, Es, y_nil_p, !y_neg, ?y_div, ?w_timesc, Ep, ?y_div, Ew; unfold cdiv; cnum.
Qed.
Print Assumptions C88_cubic_refuted.
Theorem C88_quartic_refuted : exists z e d c b a x, cval z e <> real 0 /\
  (cval z e * (x * x * (x * x)) + cval z d * (x * (x * x)) + cval z c * (x * x) + cval z b * x + cval z a = 0)%C /\
  cval z (quartic_w e d c b a) = real 0 /\ forall s, In s (quartic_roots e d c b a) -> cval z s <> x.
Proof.
  pose (z := fun _ : ex => real 0). exists z, (EInt (-1)), (EInt (-4)), (EInt (-6)), (EInt (-3)), (EInt 0), (real 0).
  set (e := EInt (-1)). set (d := EInt (-4)). set (c := EInt (-6)). set (b := EInt (-3)). set (a := EInt 0).
  assert (E0 : cval z (quartic_d0 e d c b a) = real 0) by (rewrite y_quartic_d0; unfold qua_d0, e, d, c, b, a; rewrite !w_int; cnum).
  assert (E1 : cval z (quartic_d1 e d c b a) = real (-27)) by (rewrite y_quartic_d1; unfold qua_d1, e, d, c, b, a; rewrite !w_int; cnum).
  assert (EW : cval z (quartic_w e d c b a) = real 0).
  { unfold quartic_w. rewrite w_plus2, y_sqrt, w_plus2, w_times2, y_2, y_3, E0, E1.
    replace (_ * _ + _)%C with (real (27 * 27)) by cnum. rewrite cpowc_half_sq by lra. cnum. }
  assert (Ew : cval z (ecbrt (quartic_w e d c b a)) = real 0) by (rewrite y_cbrt, EW; apply cpowc_0).
  split; [unfold e; rewrite w_int; apply real_ne; lra|]. split; [unfold e, d, c, b, a; rewrite !w_int; cnum|]. split; [exact EW|].
  assert (Q1 : cval z (quartic_q1 e d c b a) = real 0) by (unfold quartic_q1; rewrite y_div, w_times2, E0; unfold cdiv; cnum).
  assert (Q2 : cval z (quartic_q2 e d c b a) = real 0) by (unfold quartic_q2; rewrite w_times2, Ew; cnum).
  assert (S0 : cval z (quartic_s e d c b a) = real 0).
  { unfold quartic_s. rewrite y_sqrt, !w_plusc, y_nil_p, Q1, Q2, y_neg, !y_div, !w_times2, !y_2. unfold e, d, c. rewrite !w_int. unfold cdiv.
    replace (real 4 * (real (-1) * real (-1)))%C with (real 4) by cnum. replace (real 3 * real (-1))%C with (real (-3)) by cnum.
    rewrite !cinv_real by lra. transitivity (cpowc (real 0) (real (1 / 2))); [f_equal; cnum|apply cpowc_0]. }
  assert (U0 : cval z (quartic_u e d c b) = real 8).
  { unfold quartic_u. rewrite !w_plusc, y_nil_p, !y_neg, !y_div, !w_timesc, !y_nil_t, !y_2, !y_3. unfold e, d, c, b. rewrite !w_int. unfold cdiv.
    replace (real (-1) * (real (-1) * real (-1)))%C with (real (-1)) by cnum. replace (real (-1) * real (-1))%C with (real 1) by cnum.
    rewrite !cinv_real by lra. replace (/ -1) with (-1) by field. replace (/ 1) with 1 by field. cnum. }
  assert (R0 : forall s, cval z (quartic_r s e d c b a) = real 0).
  { intros s. unfold quartic_r. rewrite y_sqrt, !w_plusc, y_nil_p, !y_neg, Q1, Q2, w_times2, !y_div, !w_times2, !y_2, U0, S0. unfold e, d, c. rewrite !w_int. unfold cdiv.
    replace (real 4 * real 0)%C with (real 0) by cnum. rewrite cinv_0.
    replace (real 2 * (real (-1) * real (-1)))%C with (real 2) by cnum. replace (real 3 * real (-1))%C with (real (-3)) by cnum.
    rewrite !cinv_real by lra. transitivity (cpowc (real 0) (real (1 / 2))); [f_equal; cnum|apply cpowc_0]. }
  intros s Hs. enough (E : cval z s = real (-1)) by (rewrite E; intros F; apply (f_equal fst) in F; cbn [real fst] in F; lra).
  assert (Hr : forall s1 s2, cval z (quartic_root s1 s2 e d c b a) = real (-1)).
  { intros s1 s2. unfold quartic_root. rewrite !w_plusc, y_nil_p, !w_times2, S0, R0, y_neg, y_div, w_times2. unfold e, d. rewrite !w_int. unfold cdiv.
    replace (real 4 * real (-1))%C with (real (-4)) by cnum. rewrite cinv_real by lra. cnum. }
  cbn [quartic_roots In] in Hs. destruct Hs as [<-|[<-|[<-|[<-|[]]]]]; apply Hr.
Qed.
Print Assumptions C88_quartic_refuted.

(* non-vacuity: x^3 - 1, x^4 + x *)
Lemma cpowc_pos_val r : 0 < r -> exists v, 0 < v /\ cpowc (real r) (real (1 / 2)) = real v.
Proof. intros H. exists (exp (1 / 2 * ln r)). split; [apply exp_pos|apply pow_pos_real; exact H]. Qed.
Example cubic_applies z : cval z (EInt 1) <> real 0 /\ cval z (cubic_w (EInt 1) (EInt 0) (EInt 0) (EInt (-1))) <> real 0.
Proof.
  split; [rewrite w_int; apply real_ne; lra|].
  unfold cubic_w. rewrite w_plus2, y_sqrt, w_plus2, w_times2, y_2, y_3, y_cubic_p, y_cubic_q. unfold cub_p, cub_q. rewrite !w_int.
  match goal with |- (?q + cpowc ?u _)%C <> _ => replace u with (real 729) by cnum; replace q with (real 27) by cnum end.
  destruct (cpowc_pos_val 729 ltac:(lra)) as (v & Hv & ->). intros E. apply (f_equal fst) in E. cbn in E. lra.
Qed.
Example quartic_applies z : cval z (EInt 1) <> real 0 /\ cval z (quartic_w (EInt 1) (EInt 0) (EInt 0) (EInt 1) (EInt 0)) <> real 0
  /\ cval z (quartic_s (EInt 1) (EInt 0) (EInt 0) (EInt 1) (EInt 0)) <> real 0.
Proof.
  set (e := EInt 1). set (a := EInt 0). assert (He : cval z e <> real 0) by (unfold e; rewrite w_int; apply real_ne; lra). split; [exact He|].
  assert (E0 : cval z (quartic_d0 e a a e a) = real 0) by (rewrite y_quartic_d0; unfold qua_d0, e, a; rewrite !w_int; cnum).
  assert (HW : cval z (quartic_w e a a e a) <> real 0).
  { unfold quartic_w. rewrite w_plus2, y_sqrt, w_plus2, w_times2, y_2, y_3, E0, y_quartic_d1. unfold qua_d1, e, a. rewrite !w_int.
    match goal with |- (?q + cpowc ?u _)%C <> _ => replace u with (real 729) by cnum; replace q with (real 27) by cnum end.
    destruct (cpowc_pos_val 729 ltac:(lra)) as (v & Hv & ->). intros E. apply (f_equal fst) in E. cbn in E. lra. }
  split; [exact HW|]. intros E.
  pose proof (csqrt_sq (cval z (cPlus [ediv (ipow a 2) (cTimes [EInt 4; ipow e 2]); eneg (ediv (cTimes [EInt 2; a]) (cTimes [EInt 3; e]));
                quartic_q1 e a a e a; quartic_q2 e a a e a]))) as H.
  unfold quartic_s in E. rewrite y_sqrt in E. rewrite E in H.
  assert (A0 : cval z a = real 0) by reflexivity.
  assert (Q1 : cval z (quartic_q1 e a a e a) = real 0) by (unfold quartic_q1; rewrite y_div, w_times2, E0; cnum).
  assert (H2 : (1 / (real 3 * (t2 * cval z e)) * cval z (ecbrt (quartic_w e a a e a)) = 0)%C).
  { transitivity (cval z (quartic_q2 e a a e a)); [unfold quartic_q2; rewrite w_times2, y_div, w_times3, y_t2, !w_int; reflexivity|].
    rewrite !w_plusc, y_nil_p, y_neg, !y_div, y_2, (w_times2 z (EInt 2) a), A0, Q1 in H.
    transitivity (real 0 * real 0)%C; [rewrite H|]; unfold cdiv; cnum. }
  apply cmul_0 in H2. destruct H2 as [H2|H2].
  - unfold cdiv in H2. apply cmul_0 in H2. destruct H2 as [H2|H2]; [apply (f_equal fst) in H2; cbn in H2; lra|].
    assert (N : (real 3 * (t2 * cval z e))%C <> real 0).
    { apply cmul_ne; [apply real_ne; lra|]. apply cmul_ne; [intros T; pose proof t2_cube as TT; rewrite T in TT; apply N2; rewrite <- TT; ring|]. exact He. }
    pose proof (Finv_l cplx_field _ N) as F. rewrite H2 in F. apply (f_equal fst) in F. cbn [cmul real fst snd] in F. lra.
  - rewrite y_cbrt in H2. pose proof (ccbrt_cube (cval z (quartic_w e a a e a))) as C3. rewrite H2 in C3. apply HW. rewrite <- C3. ring.
Qed.
Example system_applies z : (cval z (EInt 1) * cval z (EInt 1) - cval z (EInt 2) * cval z (EInt 3) <> 0)%C.
Proof. rewrite !w_int. intros E. apply (f_equal fst) in E. cbn in E. lra. Qed.
