(* C87: PowerExpand. *)
From Coq Require Import Reals Lra Lia Psatz List Permutation QArith Qreals.
From Verif Require Import M_Syntax M_LibCalc M_LibPower M_LibTrig M_LibComplex S_Real S_Trig S_Polar S_Complex P_Polar T_LibTrig T_LibPower T_LibComplex.
Import ListNotations.
Open Scope R_scope.

Lemma real_cmul x y : cmul (real x) (real y) = real (x * y). Proof. ceq. Qed.
Lemma real_cadd x y : cadd (real x) (real y) = real (x + y). Proof. ceq. Qed.
Lemma real_inj x y : real x = real y -> x = y. Proof. intros H. exact (f_equal fst H). Qed.
Lemma w_pow_real z a b x y : cval z a = real x -> 0 < x -> cval z b = real y -> cval z (cPower a b) = real (exp (y * ln x)).
Proof.
  intros A X B. destruct b as [s|s|n|n d|f|p q|l];
    try (rewrite w_pow by discriminate; rewrite A, B; apply pow_pos_real; auto).
  rewrite w_powZ, A, cpow_Z_real by lra. rewrite w_int in B. apply real_inj in B. subst y. f_equal.
  rewrite powerRZ_Rpower by auto. reflexivity.
Qed.
Fixpoint pos_real z e (H : positive z e) {struct H} : exists v, cval z e = real v /\ 0 < v.
Proof.
  destruct H as [n Hn|n d Hn Hd|s v E V|l Hl|a b y Ha E].
  - eexists; split; [reflexivity|]. apply IZR_lt; auto.
  - eexists; split; [reflexivity|]. apply Rdiv_lt_0_compat; apply IZR_lt; auto.
  - eauto.
  - enough (K : exists v, cval z (cTimes l) = real v /\ 0 < v) by exact K. induction Hl as [|e l He Hl IH].
    + exists 1. split; [reflexivity|lra].
    + destruct (pos_real z e He) as (v & Ev & Hv). destruct IH as (w & Ew & Hw). exists (v * w).
      rewrite w_timesc, Ev, Ew, real_cmul. split; [reflexivity|nra].
  - destruct (pos_real z a Ha) as (v & Ev & Hv). eexists. split; [eapply w_pow_real; eauto|apply exp_pos].
Qed.
Lemma pos_times_inv z l : positive z (cTimes l) -> Forall (positive z) l.
Proof. intros H. inversion H; subst; auto. Qed.
Lemma pos_power_inv z a b : positive z (cPower a b) -> positive z a /\ exists y, cval z b = real y.
Proof. intros H. inversion H; subst; eauto. Qed.
Lemma w_grouped z l : cval z (grouped "Times" l) = cval z (cTimes l).
Proof.
  destruct l as [|a [|b t]]; try reflexivity. cbn [grouped]. rewrite w_timesc. change (cval z (cTimes [])) with (real 1).
  rewrite cmul_1_r. reflexivity.
Qed.
Lemma pos_grouped z l : Forall (positive z) l -> positive z (grouped "Times" l).
Proof.
  destruct l as [|a [|b t]]; intros H; try (apply Pos_times; exact H). inversion H; auto.
Qed.
Lemma w_times_app z l1 l2 : cval z (cTimes (l1 ++ l2)) = cmul (cval z (cTimes l1)) (cval z (cTimes l2)).
Proof.
  induction l1 as [|a l1 IH]; [change (cval z (cTimes [])) with (real 1); rewrite cmul_1_l; reflexivity|].
  rewrite <- app_comm_cons, !w_timesc, IH, cmul_assoc. reflexivity.
Qed.
Lemma w_half z : cval z half = real (1 / 2). Proof. reflexivity. Qed.

(* C87: the rules of PowerExpand keep the value when the bases and the arguments
   of logarithms are products and real powers of positive numbers (or, under a
   square root, -1 times such a number); missing: the values where they do not *)
Theorem C87_power_expand_partial z e e' : power_expand_rule e e' ->
  (exists x, e = app1 "Log" x /\ positive z x) \/ (exists x p, e = cPower x p /\ positive z x) \/
  (exists a p, e = cPower (cTimes [EInt (-1); a]) p /\ positive z a) ->
  cval z e' = cval z e.
Proof.
  intros H C. destruct H as [l l1 l2 Hp N1 N2|x k|a|a|a b|a b n d].
  - destruct C as [(x & E & P)|[(x & p & E & P)|(x & p & E & P)]]; try discriminate E. injection E as <-.
    apply pos_times_inv in P. eapply Permutation_Forall in P; [|exact Hp]. apply Forall_app in P. destruct P as [P1 P2].
    rewrite w_plus2, !w_log, !w_grouped, (w_times_perm z _ _ Hp), w_times_app.
    destruct (pos_real z _ (Pos_times z _ P1)) as (v & -> & V). destruct (pos_real z _ (Pos_times z _ P2)) as (w & -> & W).
    rewrite real_cmul, !clog_pos, ln_mult, real_cadd by nra. reflexivity.
  - destruct C as [(y & E & P)|[(y & p & E & P)|(y & p & E & P)]]; try discriminate E. injection E as <-.
    apply pos_power_inv in P. destruct P as [P [y Ey]]. destruct (pos_real z _ P) as (v & Ev & V).
    rewrite w_times2, !w_log, (w_pow_real z x k v y), Ev, Ey, !clog_pos, ln_exp, real_cmul by auto using exp_pos. reflexivity.
  - assert (P : positive z a).
    { destruct C as [(y & E & P)|[(y & p & E & P)|(y & p & E & P)]].
      - discriminate E.
      - injection E as <- <-. apply pos_times_inv in P. inversion P as [|? ? P1 _]; subst. inversion P1; subst. lia.
      - injection E as <- <-. exact P. }
    destruct (pos_real z _ P) as (v & Ev & V).
    rewrite w_times2, w_i, !w_pow, w_times2, w_half, w_int, Ev, real_cmul by discriminate.
    rewrite !cpowc_ne by (apply real_ne; lra). rewrite (clog_neg (-1 * v)), (clog_pos v) by lra. replace (- (-1 * v)) with v by ring.
    apply cplx_eq; cbn [cmul ci cexp real fst snd]; replace (1 / 2 * PI + 0 * ln v) with (PI / 2) by field;
      replace (1 / 2 * 0 + 0 * ln v) with 0 by ring; rewrite ?cos_PI2, ?sin_PI2, ?cos_0, ?sin_0;
      replace (1 / 2 * ln v - 0 * PI) with (1 / 2 * ln v) by ring; replace (1 / 2 * ln v - 0 * 0) with (1 / 2 * ln v) by ring; ring.
  - assert (P : positive z a).
    { destruct C as [(y & E & P)|[(y & p & E & P)|(y & p & E & P)]]; try discriminate E.
      injection E as <- <-. apply pos_power_inv in P. apply P. }
    destruct (pos_real z _ P) as (v & Ev & V). rewrite w_pow by discriminate.
    rewrite (w_pow_real z a (EInt 2) v 2), w_half, pow_pos_real, Ev, ln_exp by (auto using exp_pos). f_equal.
    replace (1 / 2 * (2 * ln v)) with (ln v) by field. symmetry. apply exp_ln; auto.
  - assert (P : positive z b /\ (positive z a \/ a = EInt (-1))).
    { destruct C as [(y & E & P)|[(y & p & E & P)|(y & p & E & P)]]; try discriminate E.
      - injection E as <- <-. apply pos_times_inv in P. inversion P as [|? ? P1 P2]; subst. inversion P2 as [|? ? P3 _]; subst.
        apply pos_power_inv in P3. tauto.
      - injection E as -> <- <-. apply pos_power_inv in P. tauto. }
    destruct P as [Pb Pa]. destruct (pos_real z _ Pb) as (w & Ew & W).
    pose proof (w_pow_real z b (EInt (-1)) w (-1) Ew W eq_refl) as Ei.
    pose proof (w_pow_real z b half w (1 / 2) Ew W eq_refl) as Er.
    pose proof (w_pow_real z (cPower b half) (EInt (-1)) _ (-1) Er (exp_pos _) eq_refl) as Eri. rewrite ln_exp in Eri.
    assert (Wi : exp (-1 * ln w) = / w).
    { replace (-1 * ln w) with (ln (/ w)) by (rewrite ln_Rinv by auto; ring). apply exp_ln, Rinv_0_lt_compat; auto. }
    pose proof (Rinv_0_lt_compat w W) as Wp.
    destruct Pa as [Pa| ->].
    + destruct (pos_real z _ Pa) as (v & Ev & V).
      rewrite w_times2, Eri, (w_pow_real z a half v (1 / 2)), w_pow, w_times2, Ev, Ei, w_half, !real_cmul by (auto; discriminate).
      rewrite Wi, pow_pos_real, ln_mult, ln_Rinv by nra. rewrite <- exp_plus. f_equal. f_equal. ring.
    + rewrite w_times2, Eri, !w_pow, w_times2, w_int, Ei, w_half, !real_cmul by discriminate.
      rewrite Wi, !cpowc_ne by (apply real_ne; nra). rewrite !clog_neg by nra. replace (- (-1 * / w)) with (/ w) by ring. replace (- (-1)) with 1 by ring. rewrite ln_1, ln_Rinv by auto.
      apply cplx_eq; cbn [cmul cexp real fst snd].
      * replace (1 / 2 * PI + 0 * 0) with (PI / 2) by field. replace (1 / 2 * PI + 0 * - ln w) with (PI / 2) by field. rewrite cos_PI2. ring.
      * replace (1 / 2 * PI + 0 * 0) with (PI / 2) by field. replace (1 / 2 * PI + 0 * - ln w) with (PI / 2) by field. rewrite sin_PI2.
        replace (1 / 2 * 0 - 0 * PI) with 0 by ring. rewrite exp_0. ring_simplify. f_equal. ring.
  - assert (P : positive z a).
    { destruct C as [(y & E & P)|[(y & p & E & P)|(y & p & E & P)]]; try discriminate E.
      injection E as <- <-. apply pos_power_inv in P. apply P. }
    destruct (pos_real z _ P) as (v & Ev & V).
    rewrite (w_pow_real z a (cTimes [EInt b; ERat n d]) v (IZR b * (IZR n / IZR d))); auto.
    2:{ rewrite w_times2, w_int, w_rat. apply real_cmul. }
    rewrite (w_pow_real z (cPower a (EInt b)) (ERat n d) (exp (IZR b * ln v)) (IZR n / IZR d)); [|apply w_pow_real; auto|apply exp_pos|reflexivity].
    rewrite ln_exp. f_equal. f_equal. ring.
Qed.
Print Assumptions C87_power_expand_partial.
(* not in general: Log[x y] at x = y = -1, Sqrt[x^2] at x = -1 *)
Theorem C87_log_refuted : exists z x y, power_expand_rule (app1 "Log" (cTimes [x; y])) (cPlus [app1 "Log" x; app1 "Log" y]) /\
  cval z (cPlus [app1 "Log" x; app1 "Log" y]) <> cval z (app1 "Log" (cTimes [x; y])).
Proof.
  exists (fun _ => real (-1)), (sys "x"), (sys "y"). split.
  - apply (pe_log_times [sys "x"; sys "y"] [sys "x"] [sys "y"]); [apply Permutation_refl|discriminate|discriminate].
  - rewrite w_plus2, !w_log, w_times2. change (cval (fun _ => real (-1)) (sys "x")) with (real (-1)).
    change (cval (fun _ => real (-1)) (sys "y")) with (real (-1)). rewrite real_cmul, clog_neg, clog_pos by lra.
    intros E. apply (f_equal snd) in E. cbn [cadd real fst snd] in E. pose proof PI_RGT_0. lra.
Qed.
Print Assumptions C87_log_refuted.
Theorem C87_sqrt_refuted : exists z x, power_expand_rule (cPower (cPower x (EInt 2)) half) x /\
  cval z x <> cval z (cPower (cPower x (EInt 2)) half).
Proof.
  exists (fun _ => real (-1)), (sys "x"). split; [constructor|].
  rewrite w_pow by discriminate. rewrite w_powZ, w_half. change (cval (fun _ => real (-1)) (sys "x")) with (real (-1)).
  replace (cpow_Z (real (-1)) 2) with (real 1) by (change (cpow_Z (real (-1)) 2) with (cmul (real (-1)) (cmul (real (-1)) (real 1))); ceq).
  rewrite pow_pos_real, ln_1, Rmult_0_r, exp_0 by lra. intros E. apply real_inj in E. lra.
Qed.
Print Assumptions C87_sqrt_refuted.
Example C87_ex : power_expand_rule (app1 "Log" (cTimes [sys "x"; cPower (sys "y") (EInt 3)])) (cPlus [app1 "Log" (sys "x"); app1 "Log" (cPower (sys "y") (EInt 3))]) /\
  positive (fun _ => real 2) (cTimes [sys "x"; cPower (sys "y") (EInt 3)]).
Proof.
  split; [apply (pe_log_times _ [sys "x"] [cPower (sys "y") (EInt 3)]); [apply Permutation_refl|discriminate|discriminate]|].
  apply Pos_times. apply Forall_forall. intros e [<-|[<-|[]]].
  - eapply Pos_sym; [reflexivity|lra].
  - eapply Pos_power; [eapply Pos_sym; [reflexivity|lra]|reflexivity].
Qed.
