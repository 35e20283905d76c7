(* Property theorems: trigonometric rules (C78), ArcTan of two arguments and
   RotationMatrix (C79). *)
From Verif Require Import M_Syntax M_LibCalc M_LibTrig S_Real S_Trig T_LibCalc.
From Coq Require Import Reals Lra List Permutation.
Import ListNotations.
Open Scope R_scope.

Section with_env.
Variable r : var -> R.
Hypothesis C : constants r.

Lemma v_int n : val r (EInt n) = IZR n. Proof. reflexivity. Qed.
Lemma v_rat n d : val r (ERat n d) = IZR n / IZR d. Proof. reflexivity. Qed.
Lemma v_pi : val r ePi = PI. Proof. exact (proj1 C). Qed.
Lemma v_e : val r (sys "E") = exp 1. Proof. exact (proj2 C). Qed.
Lemma v_times l : val r (cTimes l) = rprod (map (val r) l). Proof. apply den_times. Qed.
Lemma v_plus l : val r (cPlus l) = rsum (map (val r) l). Proof. apply den_plus. Qed.
Lemma v_neg a : val r (neg_ a) = - val r a.
Proof. unfold neg_. rewrite v_times. cbn [map]. rewrite v_int. unfold rprod. cbn [fold_right]. lra. Qed.
Lemma v_sin a : val r (sin_ a) = sin (val r a). Proof. reflexivity. Qed.
Lemma v_cos a : val r (cos_ a) = cos (val r a). Proof. reflexivity. Qed.
Lemma v_tan a : int_lit a = None \/ True -> val r (tan_ a) = sin (val r a) / cos (val r a). Proof. reflexivity. Qed.
Lemma v_cot a : val r (cot_ a) = cos (val r a) / sin (val r a). Proof. reflexivity. Qed.
Lemma v_sec a : val r (app1 "Sec" a) = / cos (val r a). Proof. reflexivity. Qed.
Lemma v_csc a : val r (app1 "Csc" a) = / sin (val r a). Proof. reflexivity. Qed.
Lemma v_cosh a : val r (app1 "Cosh" a) = cosh (val r a). Proof. reflexivity. Qed.
Lemma v_coth a : val r (app1 "Coth" a) = cosh (val r a) / sinh (val r a). Proof. reflexivity. Qed.
Lemma v_csch a : val r (app1 "Csch" a) = / sinh (val r a). Proof. reflexivity. Qed.
Lemma v_asin a : val r (app1 "ArcSin" a) = asin (val r a). Proof. reflexivity. Qed.
Lemma v_acos a : val r (app1 "ArcCos" a) = acos (val r a). Proof. reflexivity. Qed.
Lemma v_atan a : val r (app1 "ArcTan" a) = atan (val r a). Proof. reflexivity. Qed.
Lemma v_texp a : val r (app1 "TrigExpand" a) = val r a. Proof. reflexivity. Qed.
Lemma v_conj a : val r (conj_ a) = val r a. Proof. reflexivity. Qed.
Lemma v_abs a : val r (abs_ a) = Rabs (val r a). Proof. reflexivity. Qed.
Lemma v_pow_int a n : val r (cPower a (EInt n)) = powerRZ (val r a) n. Proof. reflexivity. Qed.
Lemma v_recip a : val r (recip a) = / val r a. Proof. apply den_recip. Qed.
Lemma v_sqrt a : 0 < val r a -> val r (sqrt_ a) = sqrt (val r a).
Proof.
  intro H. unfold sqrt_. transitivity (exp (1 / 2 * ln (val r a))); [reflexivity|].
  replace (1 / 2) with (/ 2) by lra. apply Rpower_sqrt, H.
Qed.
Lemma v_pi_times n d : val r (pi_times n d) = IZR n / IZR d * PI.
Proof. unfold pi_times. rewrite v_times. cbn [map]. rewrite v_rat, v_pi. unfold rprod. cbn [fold_right]. lra. Qed.
Lemma v_half_sqrt3 : val r half_sqrt3 = sqrt 3 / 2.
Proof. unfold half_sqrt3. rewrite v_times. cbn [map]. rewrite v_sqrt by (rewrite v_int; lra). rewrite v_rat, v_int. unfold rprod. cbn [fold_right]. lra. Qed.
Lemma v_grouped_plus l l1 e : Permutation l (l1 ++ [e]) -> l1 <> [] -> val r (cPlus l) = val r (grouped "Plus" l1) + val r e.
Proof. intros P H. unfold val. rewrite (split_plus trig_fn r l l1 [e] P H); [reflexivity|discriminate]. Qed.
Lemma v_grouped_neg l l1 : Permutation l (EInt (-1) :: l1) -> l1 <> [] -> val r (cTimes l) = - val r (grouped "Times" l1).
Proof.
  intros P H. unfold val. rewrite (split_times trig_fn r l [EInt (-1)] l1 P); [|discriminate|exact H].
  cbn [grouped]. change (den trig_fn r (EInt (-1))) with (-1). lra.
Qed.

Lemma cos_kpi n : cos (IZR n * PI) = if Z.even n then 1 else -1.
Proof.
  assert (N : forall k : nat, cos (INR k * PI) = if Nat.even k then 1 else -1).
  { intro k. assert (A : cos (INR k * PI) = (if Nat.even k then 1 else -1) /\ sin (INR k * PI) = 0); [|tauto].
    induction k as [|k [IH1 IH2]].
    - cbn [INR Nat.even]. rewrite Rmult_0_l, cos_0, sin_0. split; reflexivity.
    - rewrite S_INR. replace ((INR k + 1) * PI) with (INR k * PI + PI) by ring. rewrite neg_cos, neg_sin, IH1, IH2.
      rewrite Nat.even_succ, <- Nat.negb_even. destruct (Nat.even k); cbn [negb]; split; lra. }
  assert (EV : forall k : nat, Z.even (Z.of_nat k) = Nat.even k).
  { induction k as [|k IH]; [reflexivity|]. rewrite Nat2Z.inj_succ, Z.even_succ, Nat.even_succ, <- Z.negb_even, <- Nat.negb_even, IH. reflexivity. }
  destruct (Z.le_ge_cases 0 n) as [H|H].
  - rewrite <- (Z2Nat.id n H), <- INR_IZR_INZ, N, EV. reflexivity.
  - rewrite <- (Z.opp_involutive n), opp_IZR. replace (- IZR (- n) * PI) with (- (IZR (- n) * PI)) by ring. rewrite cos_neg, Z.even_opp.
    rewrite <- (Z2Nat.id (- n)) by lia. rewrite <- INR_IZR_INZ, N, EV. reflexivity.
Qed.

Lemma sin_table_ok n d e : In (n, d, e) sin_table -> sin (IZR n / IZR d * PI) = val r e.
Proof.
  pose proof (sin_period (PI/2) 1) as P1. pose proof sin_PI2 as P2. pose proof sin_2PI3 as P3. pose proof sin_PI3 as P4. pose proof sin_PI4 as P5. pose proof sin_3PI2 as P6.
  cbn [INR] in P1. rewrite P2 in P1.
  intro H. repeat (destruct H as [E|H]; [injection E as <- <- <-|]); [..|destruct H];
    rewrite ?v_neg, ?v_recip, ?v_half_sqrt3, ?v_int; rewrite ?v_sqrt by (rewrite v_int; lra); rewrite ?v_int.
  - replace (-5 / 2 * PI) with (- (PI / 2 + 2 * 1 * PI)) by field. rewrite sin_neg, P1. lra.
  - replace (-3 / 2 * PI) with (- (3 * (PI / 2))) by field. rewrite sin_neg, P6. lra.
  - replace (-2 / 3 * PI) with (- (2 * (PI / 3))) by field. rewrite sin_neg, P3. lra.
  - replace (-1 / 2 * PI) with (- (PI / 2)) by field. rewrite sin_neg, P2. lra.
  - replace (-1 / 3 * PI) with (- (PI / 3)) by field. rewrite sin_neg, P4. lra.
  - replace (1 / 4 * PI) with (PI / 4) by field. rewrite P5. lra.
  - replace (1 / 3 * PI) with (PI / 3) by field. rewrite P4. lra.
  - replace (1 / 2 * PI) with (PI / 2) by field. rewrite P2. lra.
  - replace (2 / 3 * PI) with (2 * (PI / 3)) by field. rewrite P3. lra.
  - replace (3 / 2 * PI) with (3 * (PI / 2)) by field. rewrite P6. lra.
  - replace (5 / 2 * PI) with (PI / 2 + 2 * 1 * PI) by field. rewrite P1. lra.
Qed.
Lemma cos_table_ok n d e : In (n, d, e) cos_table -> cos (IZR n / IZR d * PI) = val r e.
Proof.
  pose proof (cos_period (PI/2) 1) as P1. pose proof cos_PI2 as P2. pose proof cos_2PI3 as P3. pose proof cos_PI3 as P4. pose proof cos_PI4 as P5.
  pose proof (neg_cos (PI / 2)) as P6.
  cbn [INR] in P1. rewrite P2 in P1, P6.
  intro H. repeat (destruct H as [E|H]; [injection E as <- <- <-|]); [..|destruct H];
    rewrite ?v_neg, ?v_recip, ?v_half_sqrt3, ?v_int, ?v_rat; rewrite ?v_sqrt by (rewrite v_int; lra); rewrite ?v_int.
  - replace (-5 / 2 * PI) with (- (PI / 2 + 2 * 1 * PI)) by field. rewrite cos_neg, P1. lra.
  - replace (-3 / 2 * PI) with (- (PI / 2 + PI)) by field. rewrite cos_neg, P6. lra.
  - replace (-1 / 2 * PI) with (- (PI / 2)) by field. rewrite cos_neg, P2. lra.
  - replace (-1 / 3 * PI) with (- (PI / 3)) by field. rewrite cos_neg, P4. lra.
  - replace (1 / 4 * PI) with (PI / 4) by field. rewrite P5. lra.
  - replace (1 / 3 * PI) with (PI / 3) by field. rewrite P4. lra.
  - replace (1 / 2 * PI) with (PI / 2) by field. rewrite P2. lra.
  - replace (2 / 3 * PI) with (2 * (PI / 3)) by field. rewrite P3. lra.
  - replace (3 / 2 * PI) with (PI / 2 + PI) by field. rewrite P6. lra.
  - replace (5 / 2 * PI) with (PI / 2 + 2 * 1 * PI) by field. rewrite P1. lra.
Qed.
Lemma sqrt54 : sqrt (1 + Rsqr (1 / 2)) = sqrt 5 / 2.
Proof.
  replace (1 + Rsqr (1 / 2)) with (5 / (2 * 2)) by (unfold Rsqr; lra).
  rewrite sqrt_div_alt by lra. rewrite sqrt_square by lra. reflexivity.
Qed.
Lemma sqrt5_pos : 0 < sqrt 5. Proof. apply sqrt_lt_R0. lra. Qed.

Lemma def_arg f a : defined r (app1 f a) -> defined r a. Proof. intros [_ [D _]]. exact D. Qed.
Lemma def_asin a : defined r (app1 "ArcSin" a) -> -1 <= val r a <= 1.
Proof. intros [[_ [_ [_ [_ [_ [_ [D _]]]]]]] _]. apply D. reflexivity. Qed.
Lemma def_acos a : defined r (app1 "ArcCos" a) -> -1 <= val r a <= 1.
Proof. intros [[_ [_ [_ [_ [_ [_ [_ D]]]]]]] _]. apply D. reflexivity. Qed.
Lemma def_tan a : defined r (tan_ a) -> cos (val r a) <> 0.
Proof. intros [[D _] _]. apply D. reflexivity. Qed.
Lemma def_cot a : defined r (cot_ a) -> sin (val r a) <> 0.
Proof. intros [[_ [_ [D _]]] _]. apply D. reflexivity. Qed.
Lemma def_csch a : defined r (app1 "Csch" a) -> sinh (val r a) <> 0.
Proof. intros [[_ [_ [_ [_ [_ [D _]]]]]] _]. apply D. reflexivity. Qed.
Lemma def_recip a : defined r (recip a) -> val r a <> 0 /\ defined r a.
Proof. intros [D [D' _]]. split; [|exact D']. apply D; reflexivity. Qed.

Lemma rule_value e e' : trig_rule e e' -> defined r e -> val r e' = val r e.
Proof.
  intros H Df. destruct H as [|l l1 P N|l|n Hn| |n|n d e H|a| | | |n Hn|n Hn|n d e H|l l1 P N|n Hn|a| |x|l l1 P N|a|x|l l1 P N|l l1 P N|l a b rest P Hb|l|l l1 P N| | | | |a|a|l cs a inner P|x].
  - rewrite v_sin, !v_int. symmetry. apply sin_0.
  - rewrite v_neg, !v_sin, (v_grouped_neg l l1 P N), sin_neg. reflexivity.
  - rewrite v_neg, !v_sin, v_neg, sin_neg. lra.
  - rewrite v_neg, !v_sin, !v_int, opp_IZR, sin_neg. lra.
  - rewrite v_sin, v_pi, v_int. symmetry. apply sin_PI.
  - rewrite v_sin, v_times. cbn [map]. rewrite v_pi, !v_int. unfold rprod. cbn [fold_right]. rewrite Rmult_1_r. symmetry. apply sin_eq_0_1. exists n. reflexivity.
  - rewrite v_sin, v_pi_times. symmetry. apply sin_table_ok, H.
  - rewrite v_sin, v_asin. symmetry. apply sin_asin, def_asin, (def_arg "Sin"), Df.
  - rewrite v_recip, v_sqrt by (rewrite v_int; lra). rewrite v_sin, v_atan, v_rat, v_int, sin_atan, sqrt54. pose proof sqrt5_pos. field. lra.
  - rewrite v_cos, !v_int. symmetry. apply cos_0.
  - rewrite v_cos, v_pi, v_int. symmetry. apply cos_PI.
  - rewrite v_cos, v_times. cbn [map]. rewrite v_pi, !v_int. unfold rprod. cbn [fold_right]. rewrite Rmult_1_r, cos_kpi, Hn. reflexivity.
  - rewrite v_cos, v_times. cbn [map]. rewrite v_pi, !v_int. unfold rprod. cbn [fold_right]. rewrite Rmult_1_r, cos_kpi, <- Z.negb_odd, Hn. reflexivity.
  - rewrite v_cos, v_pi_times. symmetry. apply cos_table_ok, H.
  - rewrite !v_cos, (v_grouped_neg l l1 P N), cos_neg. reflexivity.
  - rewrite !v_cos, !v_int, opp_IZR, cos_neg. reflexivity.
  - rewrite v_cos, v_acos. symmetry. apply cos_acos, def_acos, (def_arg "Cos"), Df.
  - rewrite v_times. cbn [map]. rewrite v_recip, v_sqrt by (rewrite v_int; lra). rewrite v_cos, v_atan, v_rat, !v_int, cos_atan. unfold rprod. cbn [fold_right].
    rewrite sqrt54. pose proof sqrt5_pos. field. lra.
  - rewrite v_recip, v_cot, v_tan by auto. destruct (def_recip _ Df) as [T D2]. rewrite v_tan in T by auto. pose proof (def_tan _ D2) as K.
    assert (K2 : sin (val r x) <> 0) by (intro Z0; apply T; rewrite Z0; unfold Rdiv; ring). field. split; assumption.
  - rewrite v_cot, v_tan, v_neg by auto. rewrite (v_grouped_plus l l1 _ P N). unfold half_pi. rewrite v_pi_times.
    replace (1 / 2 * PI) with (PI / 2) by field. set (y := val r (grouped "Plus" l1)) in *.
    rewrite sin_plus, cos_plus, sin_PI2, cos_PI2, cos_neg, sin_neg. unfold Rdiv.
    replace (cos y * 0 - sin y * 1) with (- sin y) by ring. replace (sin y * 0 + cos y * 1) with (cos y) by ring. reflexivity.
  - rewrite v_tan, v_atan by auto. symmetry. apply tan_atan.
  - rewrite v_recip, v_cot, v_tan by auto. destruct (def_recip _ Df) as [T D2]. rewrite v_cot in T. pose proof (def_cot _ D2) as K.
    assert (K2 : cos (val r x) <> 0) by (intro Z0; apply T; rewrite Z0; unfold Rdiv; ring). field. split; assumption.
  - rewrite v_neg, v_cot, v_tan by auto. rewrite (v_grouped_plus l l1 _ P N). unfold half_pi. rewrite v_pi_times.
    replace (1 / 2 * PI) with (PI / 2) by field. set (y := val r (grouped "Plus" l1)) in *.
    rewrite sin_plus, cos_plus, sin_PI2, cos_PI2. unfold Rdiv.
    replace (cos y * 0 - sin y * 1) with (- sin y) by ring. replace (sin y * 0 + cos y * 1) with (cos y) by ring. ring.
  - rewrite v_sec, v_csc. rewrite (v_grouped_plus l l1 _ P N), v_pi_times.
    replace (-1 / 2 * PI) with (- (PI / 2)) by field. set (y := val r (grouped "Plus" l1)).
    rewrite cos_plus, sin_neg, cos_neg, sin_PI2, cos_PI2. f_equal. ring.
  - rewrite !v_times. rewrite (rprod_perm _ _ (Permutation_map (val r) P)). cbn [map]. unfold rprod. cbn [fold_right]. fold (rprod (map (val r) rest)).
    rewrite v_cosh, v_coth, !v_pow_int, v_csch. set (y := val r a).
    assert (S0 : sinh y <> 0).
    { assert (Dx : defined r (cPower (app1 "Csch" a) (EInt b))).
      { destruct Df as [_ Df]. assert (In (cPower (app1 "Csch" a) (EInt b)) l) by (apply (Permutation_in _ (Permutation_sym P)); right; left; reflexivity).
        clear - H Df. induction l as [|z l IH]; [destruct H|]. destruct H as [<-|H]; [exact (proj1 Df)|]. apply IH; [exact (proj2 Df)|exact H]. }
      destruct Dx as [_ [D _]]. apply def_csch, D. }
    replace (powerRZ (/ sinh y) b) with (powerRZ (/ sinh y) (b - 1) * / sinh y); [field; exact S0|].
    replace b with ((b - 1) + 1)%Z at 2 by lia. rewrite powerRZ_add by (apply Rinv_neq_0_compat, S0). rewrite powerRZ_1. reflexivity.
  - rewrite v_neg, !v_asin, v_neg, asin_opp. lra.
  - rewrite v_neg, !v_asin, (v_grouped_neg l l1 P N), asin_opp. reflexivity.
  - rewrite v_asin, !v_int. symmetry. apply asin_0.
  - rewrite v_atan, v_pi_times, v_int. replace (-1) with (- (1)) at 2 by lra. rewrite atan_opp, atan_1. field.
  - rewrite v_atan, !v_int. symmetry. apply atan_0.
  - rewrite v_atan, v_pi_times, v_int. rewrite atan_1. field.
  - rewrite v_texp, v_cos, v_plus. cbn [map]. rewrite !v_times. cbn [map]. rewrite !v_pow_int, v_cos, v_sin, !v_int. unfold rsum, rprod. cbn [fold_right].
    set (y := val r a). rewrite !Rmult_1_r, cos_2a. change (powerRZ (cos y) 2) with (cos y * (cos y * 1)). change (powerRZ (sin y) 2) with (sin y * (sin y * 1)). ring.
  - rewrite v_texp. reflexivity.
  - rewrite !v_times. rewrite (rprod_perm _ _ (Permutation_map (val r) P)).
    change (ERat 1 2 :: cs ++ [cPlus [a; cTimes [neg_ a; cos_ inner]]]) with ([ERat 1 2] ++ (cs ++ [cPlus [a; cTimes [neg_ a; cos_ inner]]])).
    rewrite !map_app, !rprod_app. cbn [map]. rewrite !v_pow_int, v_sin, v_plus. cbn [map]. rewrite !v_times. cbn [map]. rewrite v_neg, v_cos, !v_rat.
    set (CS := rprod (map (val r) cs)). unfold rsum, rprod. cbn [fold_right]. clearbody CS. rewrite !Rmult_1_r, Rplus_0_r.
    set (y := val r inner). replace (cos y) with (1 - 2 * sin (1 / 2 * y) * sin (1 / 2 * y)).
    + change (powerRZ (sin (1 / 2 * y)) 2) with (sin (1 / 2 * y) * (sin (1 / 2 * y) * 1)). field.
    + rewrite <- cos_2a_sin. f_equal. field.
  - rewrite v_plus, v_times. cbn [map]. rewrite v_cosh, v_int. unfold rsum, rprod. cbn [fold_right].
    assert (A : forall e, int_lit e = None -> val r (cPower (sys "E") e) = exp (val r e)).
    { intros e He. unfold val. rewrite den_power by exact He. fold (val r). rewrite v_e, ln_exp, Rmult_1_r. reflexivity. }
    rewrite !A by reflexivity. rewrite v_neg. unfold cosh. field.
Qed.
End with_env.

(* C78: every rule keeps the value, wherever the left side has one. *)
Theorem C78_value r e e' : constants r -> trig_rule e e' -> defined r e -> val r e' = val r e.
Proof. intros C. apply rule_value, C. Qed.
Print Assumptions C78_value.

Definition env0 (p : R) (f : string -> R) : var -> R :=
  fun v => match v with VSym s => if String.eqb s (sysname "Pi") then PI else if String.eqb s (sysname "E") then exp 1 else f s | _ => p end.
Lemma env0_constants p f : constants (env0 p f). Proof. split; reflexivity. Qed.

Ltac defd := repeat match goal with |- _ /\ _ => split end; try (let K := fresh in intro K; discriminate K).
(* Sin[-(a b)] and Tan[a + Pi/2] at a = Pi/4, b = 2 *)
Example sin_case : trig_rule (sin_ (cTimes [EInt (-1); ESym "a"; ESym "b"])) (neg_ (sin_ (cTimes [ESym "a"; ESym "b"]))).
Proof. apply (tr_sin_neg _ [ESym "a"; ESym "b"]); [reflexivity|discriminate]. Qed.
Definition env1 : var -> R := env0 0 (fun s => if String.eqb s "a" then PI / 4 else 2).
Example tan_case : constants env1 /\ trig_rule (tan_ (cPlus [ESym "a"; half_pi])) (cot_ (neg_ (ESym "a"))) /\
  defined env1 (tan_ (cPlus [ESym "a"; half_pi])) /\ val env1 (cot_ (neg_ (ESym "a"))) = -1.
Proof.
  assert (C : constants env1) by apply env0_constants.
  assert (Q : sin (PI / 4) <> 0). { rewrite sin_PI4. pose proof sqrt2_neq_0. intro H1. apply Rmult_integral in H1. destruct H1 as [H1|H1]; [lra|]. apply Rinv_neq_0_compat in H1; assumption. }
  assert (Q2 : cos (PI / 4) = sin (PI / 4)) by (rewrite sin_PI4, cos_PI4; reflexivity).
  split; [exact C|]. split; [apply (tr_tan_shift _ [ESym "a"]); [reflexivity|discriminate]|]. split.
  - assert (V : val env1 (cPlus [ESym "a"; half_pi]) = PI / 4 + PI / 2).
    { rewrite v_plus. cbn [map]. unfold half_pi. rewrite (v_pi_times _ C). unfold rsum. cbn [fold_right]. change (val env1 (ESym "a")) with (PI / 4). field. }
    split; [|repeat split; try (intros K; discriminate K); trivial].
    unfold defined_at. cbn [map]. rewrite V. defd. intros _.
    rewrite cos_plus, sin_PI2, cos_PI2. lra.
  - rewrite v_cot, v_neg. change (val env1 (ESym "a")) with (PI / 4). rewrite cos_neg, sin_neg, Q2. field. exact Q.
Qed.

(* C78: Cot[-a + b] with one further term b *)
Theorem C78_cot_negation_partial r l l1 b : Permutation l (EInt (-1) :: l1) -> l1 <> [] ->
  cot_neg_rule (cot_ (cPlus [cTimes l; b])) (neg_ (cot_ (cPlus [grouped "Times" l1; cTimes [EInt (-1); b]]))) /\
  val r (neg_ (cot_ (cPlus [grouped "Times" l1; cTimes [EInt (-1); b]]))) = val r (cot_ (cPlus [cTimes l; b])).
Proof.
  intros P N. split; [apply (tr_cot_neg l l1 [b] P N)|].
  rewrite v_neg, !v_cot, !v_plus. cbn [map]. rewrite (v_grouped_neg r l l1 P N), v_times. cbn [map]. rewrite v_int.
  unfold rsum, rprod. cbn [fold_right]. set (A := val r (grouped "Times" l1)). set (B := val r b).
  replace (- A + (B + 0)) with (- (A - B)) by ring. replace (A + (-1 * (B * 1) + 0)) with (A - B) by ring.
  rewrite cos_neg, sin_neg. unfold Rdiv. rewrite Rinv_opp. ring.
Qed.
Print Assumptions C78_cot_negation_partial.
Example cot_case : cot_neg_rule (cot_ (cPlus [cTimes [EInt (-1); ESym "a"]; ESym "b"])) (neg_ (cot_ (cPlus [ESym "a"; cTimes [EInt (-1); ESym "b"]]))).
Proof. apply (tr_cot_neg [EInt (-1); ESym "a"] [ESym "a"] [ESym "b"]); [reflexivity|discriminate]. Qed.

(* C78: with two further terms the rule multiplies them: Cot[-a + b + c] becomes
   -Cot[a - b c], whose value differs (a = Pi/2, b = 0, c = Pi/4: 0 instead of -1) *)
Theorem C78_cot_negation_refuted : exists r e e', constants r /\ cot_neg_rule e e' /\ defined r e /\ defined r e' /\ val r e' <> val r e.
Proof.
  exists (env0 0 (fun s => if String.eqb s "a" then PI / 2 else if String.eqb s "b" then 0 else PI / 4)).
  exists (cot_ (cPlus [cTimes [EInt (-1); ESym "a"]; ESym "b"; ESym "c"])).
  exists (neg_ (cot_ (cPlus [ESym "a"; cTimes [EInt (-1); ESym "b"; ESym "c"]]))).
  set (r := env0 _ _).
  assert (V1 : val r (cPlus [cTimes [EInt (-1); ESym "a"]; ESym "b"; ESym "c"]) = - (PI / 4)).
  { rewrite v_plus. cbn [map]. rewrite v_times. cbn [map]. unfold rsum, rprod. cbn [fold_right]. rewrite v_int.
    change (val r (ESym "a")) with (PI / 2). change (val r (ESym "b")) with 0. change (val r (ESym "c")) with (PI / 4). field. }
  assert (V2 : val r (cPlus [ESym "a"; cTimes [EInt (-1); ESym "b"; ESym "c"]]) = PI / 2).
  { rewrite v_plus. cbn [map]. rewrite v_times. cbn [map]. unfold rsum, rprod. cbn [fold_right]. rewrite v_int.
    change (val r (ESym "a")) with (PI / 2). change (val r (ESym "b")) with 0. change (val r (ESym "c")) with (PI / 4). field. }
  assert (Q : sin (PI / 4) <> 0). { rewrite sin_PI4. pose proof sqrt2_neq_0. intro H1. apply Rmult_integral in H1. destruct H1 as [H1|H1]; [lra|]. apply Rinv_neq_0_compat in H1; assumption. }
  assert (Q2 : cos (PI / 4) = sin (PI / 4)) by (rewrite sin_PI4, cos_PI4; reflexivity).
  split; [apply env0_constants|]. split; [apply (tr_cot_neg [EInt (-1); ESym "a"] [ESym "a"] [ESym "b"; ESym "c"]); [reflexivity|discriminate]|].
  split; [|split].
  - split; [|repeat split; try (intros K; discriminate K); trivial]. unfold defined_at. cbn [map]. rewrite V1. defd. intros _. rewrite sin_neg. lra.
  - split; [exact Logic.I|]. split; [exact Logic.I|]. split; [|exact Logic.I].
    split; [|repeat split; try (intros K; discriminate K); trivial]. unfold defined_at. cbn [map]. rewrite V2. defd. intros _. rewrite sin_PI2. lra.
  - rewrite v_neg, !v_cot, V1, V2, cos_neg, sin_neg, cos_PI2, Q2. unfold Rdiv. rewrite Rinv_opp.
    rewrite Rmult_0_l. rewrite Ropp_mult_distr_r_reverse. rewrite Rinv_r by exact Q. lra.
Qed.
Print Assumptions C78_cot_negation_refuted.

(* C79: ArcTan[x, y] of two exact numbers is the polar angle in (-Pi, Pi] *)
Lemma exact_sign r e : exact_number e -> exists s, sign_of e = Some s /\
  (((0 <? s)%Z = true /\ 0 < val r e) \/ (s = 0%Z /\ val r e = 0) \/ ((s <? 0)%Z = true /\ val r e < 0)).
Proof.
  intros [[n ->]|[n [d [-> Hd]]]]; exists (Z.sgn n); (split; [reflexivity|]).
  - rewrite v_int. destruct n as [|p|p]; cbn [Z.sgn]; [right; left; split; reflexivity|left; split; [reflexivity|apply IZR_lt; reflexivity]|right; right; split; [reflexivity|apply IZR_lt; reflexivity]].
  - rewrite v_rat. assert (D : 0 < IZR d) by (apply IZR_lt; exact Hd). apply Rinv_0_lt_compat in D. unfold Rdiv.
    destruct n as [|p|p]; cbn [Z.sgn]; [right; left; split; [reflexivity|ring]|left; split; [reflexivity|]|right; right; split; [reflexivity|]].
    + apply Rmult_lt_0_compat; [apply IZR_lt; reflexivity|exact D].
    + assert (IZR (Z.neg p) < 0) by (apply IZR_lt; reflexivity). rewrite <- (Rmult_0_l (/ IZR d)). apply Rmult_lt_compat_r; assumption.
Qed.

Lemma hyp_scale x y : x <> 0 -> sqrt (x * x + y * y) = Rabs x * sqrt (1 + Rsqr (y / x)).
Proof.
  intro H. rewrite <- (sqrt_Rsqr_abs x), <- sqrt_mult_alt by apply Rle_0_sqr. f_equal. unfold Rsqr. field. exact H.
Qed.
Lemma cos_atan_q x y : x <> 0 -> sqrt (x * x + y * y) * cos (atan (y / x)) = Rabs x.
Proof.
  intro H. rewrite hyp_scale by exact H. rewrite cos_atan. field.
  apply Rgt_not_eq, sqrt_lt_R0. pose proof (Rle_0_sqr (y / x)). lra.
Qed.
Lemma sin_atan_q x y : x <> 0 -> sqrt (x * x + y * y) * sin (atan (y / x)) = Rabs x * (y / x).
Proof.
  intro H. rewrite hyp_scale by exact H. rewrite sin_atan. field. split; [exact H|].
  apply Rgt_not_eq, sqrt_lt_R0. pose proof (Rle_0_sqr (y / x)). lra.
Qed.

Theorem C79_arctan2 r x y : constants r -> exact_number x -> exact_number y -> ~ (val r x = 0 /\ val r y = 0) ->
  exists t, arctan2 x y = Some t /\ - PI < val r t <= PI /\
    val r x = sqrt (val r x * val r x + val r y * val r y) * cos (val r t) /\
    val r y = sqrt (val r x * val r x + val r y * val r y) * sin (val r t).
Proof.
  intros C Hx Hy N. destruct (exact_sign r x Hx) as [sx [Sx Vx]]. destruct (exact_sign r y Hy) as [sy [Sy Vy]].
  unfold arctan2. rewrite Sx, Sy. pose proof PI_RGT_0 as PP.
  assert (VQ : val r (app1 "ArcTan" (cTimes [y; recip x])) = atan (val r y / val r x)).
  { rewrite v_atan, v_times. cbn [map]. rewrite v_recip. unfold rprod. cbn [fold_right]. f_equal. unfold Rdiv. ring. }
  pose proof (v_pi r C) as VP. set (X := val r x) in *. set (Y := val r y) in *. clearbody X Y.
  pose proof (atan_bound (Y / X)) as [B1 B2].
  eexists. split; [reflexivity|].
  destruct Vx as [[Ex Vx]|[[-> Vx]|[Ex Vx]]].
  - rewrite Ex, VQ. rewrite cos_atan_q, sin_atan_q, Rabs_pos_eq by lra. repeat split; try lra. field. lra.
  - rewrite Vx. replace (0 <? 0)%Z with false by reflexivity. replace (0 =? 0)%Z with true by reflexivity. cbn [andb].
    replace (0 * 0 + Y * Y) with (Rsqr Y) by (unfold Rsqr; ring). rewrite sqrt_Rsqr_abs.
    destruct Vy as [[Ey Vy]|[[-> Vy]|[Ey Vy]]].
    + rewrite Ey. rewrite (v_pi_times r C), Rabs_pos_eq by lra. replace (1 / 2 * PI) with (PI / 2) by field. rewrite cos_PI2, sin_PI2. repeat split; lra.
    + exfalso. apply N. split; assumption.
    + replace (0 <? sy)%Z with false by (symmetry; apply Z.ltb_ge; apply Z.ltb_lt in Ey; lia). rewrite Ey.
      rewrite (v_pi_times r C), Rabs_left by lra. replace (-1 / 2 * PI) with (- (PI / 2)) by field. rewrite cos_neg, sin_neg, cos_PI2, sin_PI2. repeat split; lra.
  - replace (0 <? sx)%Z with false by (symmetry; apply Z.ltb_ge; apply Z.ltb_lt in Ex; lia). rewrite Ex. cbn [andb].
    assert (Vy' : ((0 <=? sy)%Z = true /\ 0 <= Y) \/ ((sy <? 0)%Z = true /\ Y < 0)).
    { destruct Vy as [[Ey Vy]|[[-> Vy]|Vy]]; [left|left|right; exact Vy]; (split; [|lra]); [apply Z.leb_le; apply Z.ltb_lt in Ey; lia|reflexivity]. }
    clear Vy. destruct Vy' as [[Ey Y0]|[Ey Vy]].
    + rewrite Ey.
      rewrite v_plus. cbn [map]. rewrite VQ, VP. unfold rsum. cbn [fold_right]. rewrite Rplus_0_r, neg_cos, neg_sin.
      rewrite !Ropp_mult_distr_r_reverse, cos_atan_q, sin_atan_q by lra. rewrite Rabs_left by exact Vx.
      assert (Q0 : atan (Y / X) <= 0).
      { assert (Y / X <= 0). { unfold Rdiv. assert (/ X < 0) by (apply Rinv_lt_0_compat, Vx). rewrite <- (Rmult_0_r Y). apply Rmult_le_compat_l; lra. }
        rewrite <- atan_0. destruct (Req_dec (Y / X) 0) as [->|K]; [lra|]. left. apply atan_increasing. lra. }
      repeat split; try lra. field. lra.
    + replace (0 <=? sy)%Z with false by (symmetry; apply Z.leb_gt; apply Z.ltb_lt in Ey; lia). rewrite Ey.
      rewrite v_plus. cbn [map]. rewrite VQ, v_neg, VP. unfold rsum. cbn [fold_right]. rewrite Rplus_0_r.
      assert (Q0 : 0 < atan (Y / X)).
      { assert (0 < Y / X). { unfold Rdiv. assert (/ X < 0) by (apply Rinv_lt_0_compat, Vx). replace (Y * / X) with ((- Y) * (- / X)) by ring. apply Rmult_lt_0_compat; lra. }
        rewrite <- atan_0. apply atan_increasing. lra. }
      replace (atan (Y / X) + - PI) with (- (- atan (Y / X) + PI)) by ring.
      rewrite cos_neg, sin_neg, neg_cos, neg_sin, cos_neg, sin_neg, !Ropp_involutive, !Ropp_mult_distr_r_reverse, cos_atan_q, sin_atan_q by lra.
      rewrite Rabs_left by exact Vx. repeat split; try lra. field. lra.
Qed.
Print Assumptions C79_arctan2.
Theorem C79_arctan2_origin r x y : exact_number x -> exact_number y -> val r x = 0 -> val r y = 0 -> arctan2 x y = Some (sys "Indeterminate").
Proof.
  intros Hx Hy X0 Y0. destruct (exact_sign r x Hx) as [sx [Sx Vx]]. destruct (exact_sign r y Hy) as [sy [Sy Vy]].
  destruct Vx as [[_ Vx]|[[-> _]|[_ Vx]]]; [lra| |lra]. destruct Vy as [[_ Vy]|[[-> _]|[_ Vy]]]; [lra| |lra].
  unfold arctan2. rewrite Sx, Sy. reflexivity.
Qed.
Print Assumptions C79_arctan2_origin.
Example arctan_case : exact_number (EInt (-3)) /\ exact_number (ERat (-1) 2) /\
  arctan2 (EInt (-3)) (ERat (-1) 2) = Some (cPlus [app1 "ArcTan" (cTimes [ERat (-1) 2; recip (EInt (-3))]); neg_ ePi]).
Proof. split; [left; eexists; reflexivity|]. split; [right; do 2 eexists; split; reflexivity|reflexivity]. Qed.

(* C79: RotationMatrix[t] turns a point by the angle t *)
Theorem C79_rotation_plane r t rho phi :
  mat_vec (mat_val r (rotation2 t)) [rho * cos phi; rho * sin phi] = [rho * cos (phi + val r t); rho * sin (phi + val r t)].
Proof.
  unfold rotation2, mat_vec. change (mat_val r (mkList [mkList [cos_ t; neg_ (sin_ t)]; mkList [sin_ t; cos_ t]])) with [[val r (cos_ t); val r (neg_ (sin_ t))]; [val r (sin_ t); val r (cos_ t)]].
  rewrite v_neg, v_sin, v_cos. cbn [map dot]. rewrite cos_plus, sin_plus. repeat (f_equal; try ring).
Qed.
Print Assumptions C79_rotation_plane.

Lemma v_quot r p q x fs k : val r (quot p q x fs k) = powerRZ (val r x) p * (powerRZ (val r x) q * (rprod (map (val r) fs) * powerRZ (Rabs (val r x)) (- k))).
Proof.
  unfold quot. rewrite v_times. cbn [map]. rewrite map_app.
  match goal with |- rprod (?a :: ?b :: ?l) = _ => replace (rprod (a :: b :: l)) with (a * (b * rprod l)) by reflexivity end.
  rewrite rprod_app, !v_pow_int, v_conj. cbn [map]. rewrite v_pow_int, v_abs. unfold rprod at 2. cbn [fold_right]. rewrite Rmult_1_r. reflexivity.
Qed.

Lemma pow_abs_even x n : x <> 0 -> powerRZ (Rabs x) (- Z.of_nat (2 * n)) = / (x ^ (2 * n)).
Proof.
  intro H. rewrite powerRZ_neg'. rewrite <- pow_powerRZ, !pow_mult.
  assert (E2 : Rabs x ^ 2 = x ^ 2). { cbn [pow]. rewrite !Rmult_1_r. symmetry. apply Rsqr_abs. }
  rewrite E2. reflexivity.
Qed.
Lemma rprod_one a : rprod [a] = a. Proof. unfold rprod. cbn [fold_right]. ring. Qed.
Lemma norm_x x : norm3 x 0 0 = Rabs x. Proof. unfold norm3. replace (x * x + 0 * 0 + 0 * 0) with (Rsqr x) by (unfold Rsqr; ring). apply sqrt_Rsqr_abs. Qed.
Lemma norm_y x : norm3 0 x 0 = Rabs x. Proof. unfold norm3. replace (0 * 0 + x * x + 0 * 0) with (Rsqr x) by (unfold Rsqr; ring). apply sqrt_Rsqr_abs. Qed.
Lemma norm_z x : norm3 0 0 x = Rabs x. Proof. unfold norm3. replace (0 * 0 + 0 * 0 + x * x) with (Rsqr x) by (unfold Rsqr; ring). apply sqrt_Rsqr_abs. Qed.
(* the sign x / |x| *)
Lemma quot33 r x fs : val r x <> 0 -> val r (quot 3 3 x fs 6) = rprod (map (val r) fs).
Proof. intro H. rewrite v_quot. change (- (6))%Z with (- Z.of_nat (2 * 3))%Z. rewrite pow_abs_even by exact H. change (powerRZ (val r x) 3) with (val r x * (val r x * (val r x * 1))). cbn [Nat.mul Nat.add pow]. field. exact H. Qed.
Lemma quot11 r x fs : val r x <> 0 -> val r (quot 1 1 x fs 2) = rprod (map (val r) fs).
Proof. intro H. rewrite v_quot. change (- (2))%Z with (- Z.of_nat (2 * 1))%Z. rewrite pow_abs_even by exact H. change (powerRZ (val r x) 1) with (val r x * 1). cbn [Nat.mul Nat.add pow]. field. exact H. Qed.
Lemma abs_cube x : x <> 0 -> powerRZ (Rabs x) (-3) = / (x * x) * / Rabs x.
Proof.
  intro H. assert (A : Rabs x <> 0) by apply Rabs_no_R0, H. change (-3)%Z with (- (3))%Z. rewrite powerRZ_neg'.
  change (powerRZ (Rabs x) 3) with (Rabs x * (Rabs x * (Rabs x * 1))). rewrite Rmult_1_r. rewrite <- Rinv_mult_distr by (try exact A; apply Rmult_integral_contrapositive_currified; exact H).
  f_equal. assert (E2 : x * x = Rabs x * Rabs x) by apply Rsqr_abs. rewrite E2. ring.
Qed.
Lemma quot21 r x fs : val r x <> 0 -> val r (quot 2 1 x fs 3) = val r x / Rabs (val r x) * rprod (map (val r) fs).
Proof.
  intro H. rewrite v_quot. replace (- (3))%Z with (-3)%Z by reflexivity. rewrite abs_cube by exact H. assert (A : Rabs (val r x) <> 0) by apply Rabs_no_R0, H.
  change (powerRZ (val r x) 2) with (val r x * (val r x * 1)). change (powerRZ (val r x) 1) with (val r x * 1). field. split; assumption.
Qed.
Lemma quot12 r x fs : val r x <> 0 -> val r (quot 1 2 x fs 3) = val r x / Rabs (val r x) * rprod (map (val r) fs).
Proof.
  intro H. rewrite v_quot. replace (- (3))%Z with (-3)%Z by reflexivity. rewrite abs_cube by exact H. assert (A : Rabs (val r x) <> 0) by apply Rabs_no_R0, H.
  change (powerRZ (val r x) 2) with (val r x * (val r x * 1)). change (powerRZ (val r x) 1) with (val r x * 1). field. split; assumption.
Qed.
Lemma quot10 r x fs : val r x <> 0 -> val r (quot 1 0 x fs 1) = val r x / Rabs (val r x) * rprod (map (val r) fs).
Proof.
  intro H. rewrite v_quot. assert (A : Rabs (val r x) <> 0) by apply Rabs_no_R0, H. rewrite powerRZ_neg'.
  change (powerRZ (val r x) 1) with (val r x * 1). change (powerRZ (val r x) 0) with 1. change (powerRZ (Rabs (val r x)) 1) with (Rabs (val r x) * 1). field. exact A.
Qed.
Lemma quot01 r x fs : val r x <> 0 -> val r (quot 0 1 x fs 1) = val r x / Rabs (val r x) * rprod (map (val r) fs).
Proof.
  intro H. rewrite v_quot. assert (A : Rabs (val r x) <> 0) by apply Rabs_no_R0, H. rewrite powerRZ_neg'.
  change (powerRZ (val r x) 1) with (val r x * 1). change (powerRZ (val r x) 0) with 1. change (powerRZ (Rabs (val r x)) 1) with (Rabs (val r x) * 1). field. exact A.
Qed.
Lemma sign_sq x : x <> 0 -> x / Rabs x * (x / Rabs x) = 1.
Proof.
  intro H. assert (A : Rabs x <> 0) by apply Rabs_no_R0, H. transitivity (Rsqr x / Rsqr (Rabs x)); [unfold Rsqr; field; exact A|].
  rewrite <- Rsqr_abs. field. unfold Rsqr. apply Rmult_integral_contrapositive_currified; exact H.
Qed.

(* C79: RotationMatrix[t, {x, 0, 0}] etc. is the rotation about that axis *)
Theorem C79_rotation_space r t x v1 v2 v3 : val r x <> 0 ->
  mat_vec (mat_val r (rotation_x t x)) [v1; v2; v3] = rodrigues (val r t) (val r x) 0 0 v1 v2 v3 /\
  mat_vec (mat_val r (rotation_y t x)) [v1; v2; v3] = rodrigues (val r t) 0 (val r x) 0 v1 v2 v3 /\
  mat_vec (mat_val r (rotation_z t x)) [v1; v2; v3] = rodrigues (val r t) 0 0 (val r x) v1 v2 v3.
Proof.
  intro H. pose proof (sign_sq _ H) as SQ.
  assert (M : forall a b c d e f g h i, mat_val r (mkList [mkList [a; b; c]; mkList [d; e; f]; mkList [g; h; i]]) = [[val r a; val r b; val r c]; [val r d; val r e; val r f]; [val r g; val r h; val r i]]) by reflexivity.
  unfold rotation_x, rotation_y, rotation_z. rewrite !M. unfold mat_vec, rodrigues. cbn [map dot]. cbv zeta. rewrite norm_x, norm_y, norm_z.
  rewrite !v_neg, !quot33, !quot11, !quot21, !quot12, !quot10, !quot01 by exact H. cbn [map]. rewrite !rprod_one, !v_cos, !v_sin, !v_int.
  change (rprod []) with 1. set (s := val r x / Rabs (val r x)) in *. clearbody s. unfold Rdiv. rewrite !Rmult_0_l.
  assert (P3 : forall a b c a' b' c' : R, a = a' -> b = b' -> c = c' -> [a; b; c] = [a'; b'; c']) by (intros; subst; reflexivity).
  split; [|split]; apply P3; try ring.
  - transitivity (v1 * cos (val r t) + (s * s) * v1 * (1 - cos (val r t))); [rewrite SQ|]; ring.
  - transitivity (v2 * cos (val r t) + (s * s) * v2 * (1 - cos (val r t))); [rewrite SQ|]; ring.
  - transitivity (v3 * cos (val r t) + (s * s) * v3 * (1 - cos (val r t))); [rewrite SQ|]; ring.
Qed.
Print Assumptions C79_rotation_space.
(* a quarter turn about {0, 0, -2} takes (1, 0, 0) to (0, -1, 0) *)
Example rotation_case : let r := env0 0 (fun _ => 0) in
  mat_vec (mat_val r (rotation_z half_pi (EInt (-2)))) [1; 0; 0] = [0; -1; 0].
Proof.
  intro r. assert (H : val r (EInt (-2)) <> 0) by (rewrite v_int; lra). destruct (C79_rotation_space r half_pi (EInt (-2)) 1 0 0 H) as [_ [_ ->]].
  unfold rodrigues. cbv zeta. unfold half_pi. rewrite (v_pi_times r (env0_constants _ _)), norm_z, v_int, Rabs_left by lra. replace (1 / 2 * PI) with (PI / 2) by field. rewrite cos_PI2, sin_PI2.
  f_equal; [field|]. f_equal; [field|]. f_equal. field.
Qed.
