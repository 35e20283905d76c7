(* Property theorems: Numerator and Denominator (C109), Together (C110),
   constant factors (C111). *)
From Verif Require Import M_Syntax M_Num M_NumTheory M_LibExpand M_LibManip S_Field P_LibExpand T_LibExpand T_NumTheory.
From Coq Require Import Field Field_theory Permutation Lia Znumtheory.

(* ---- what the pattern of manip.m 72 recognises, stated on its own ---- *)
(* e is b to a negative number, or to the negative of a symbol, and r is the
   same base to the opposite exponent *)
Inductive reciprocal : ex -> ex -> ex -> Prop :=
| rp_int b z : (z < 0)%Z -> reciprocal b (EExpr [sys "Power"; b; EInt z]) (EExpr [sys "Power"; b; EInt (- z)])
| rp_rat b n d : (n * d < 0)%Z -> reciprocal b (EExpr [sys "Power"; b; ERat n d]) (EExpr [sys "Power"; b; ERat (- n) d])
| rp_flt b m x a : m <> 0%N -> reciprocal b (EExpr [sys "Power"; b; EFlt (FFin true m x a)]) (EExpr [sys "Power"; b; EFlt (FFin false m x (- a))])
| rp_inf b : reciprocal b (EExpr [sys "Power"; b; EFlt (FInf true)]) (EExpr [sys "Power"; b; EFlt (FInf false)])
| rp_sym b s : reciprocal b (EExpr [sys "Power"; b; EExpr [sys "Times"; EInt (-1); ESym s]]) (EExpr [sys "Power"; b; ESym s]).

Lemma den_reciprocal e b n : den_factor e = Some (b, n) -> e = xPower b n /\ reciprocal b e (xPower b (negated n)).
Proof.
  destruct e as [s|s|z|nu d|f|a1 a2|l]; try discriminate.
  destruct l as [|h [|x [|y [|? ?]]]]; try discriminate; destruct h as [h|h|h|h1 h2|h|h1 h2|h]; try discriminate.
  cbn [den_factor]. destruct (String.eqb_spec h (sysname "Power")) as [-> |]; [|discriminate]. cbn [andb].
  destruct (den_exponent y) eqn:D; [|discriminate]. intro E. injection E as -> ->.
  split; [reflexivity|]. unfold den_exponent in D. apply Bool.orb_true_iff in D. destruct D as [D|D].
  - destruct n as [s|s|z|nu d|f|a1 a2|l]; try discriminate.
    + apply rp_int. apply Z.ltb_lt, D.
    + apply rp_rat. apply Z.ltb_lt, D.
    + destruct f as [s|s m x a]; cbn in D; [subst s; apply rp_inf|].
      destruct s; [|discriminate]. apply rp_flt. cbn in D. apply Bool.negb_true_iff, N.eqb_neq in D. exact D.
  - destruct n as [s|s|z|nu d|f|a1 a2|l]; try discriminate.
    destruct l as [|g [|x [|y [|? ?]]]]; try discriminate; destruct g as [g|g|g|g1 g2|g|g1 g2|g]; try discriminate;
      destruct x as [s|s|z|nu d|f|a1 a2|lx]; try discriminate; destruct y as [s|s|z'|nu d|f|a1 a2|ly]; try discriminate.
    apply Bool.andb_true_iff in D. destruct D as [D1 D2]. apply String.eqb_eq in D1. apply Z.eqb_eq in D2. subst g z.
    apply rp_sym.
Qed.

Lemma reciprocal_den b e r : reciprocal b e r -> exists n, den_factor e = Some (b, n) /\ r = xPower b (negated n).
Proof.
  intros H. destruct H as [b z H|b n d H|b m x a H|b|b s];
    [exists (EInt z)|exists (ERat n d)|exists (EFlt (FFin true m x a))|exists (EFlt (FInf true))|exists (EExpr [sys "Times"; EInt (-1); ESym s])];
    (split; [|reflexivity]);
    cbn [den_factor sys]; rewrite String.eqb_refl; cbn [andb]; unfold den_exponent, negative_num; try reflexivity.
  - apply Z.ltb_lt in H. rewrite H. reflexivity.
  - apply Z.ltb_lt in H. rewrite H. reflexivity.
  - apply N.eqb_neq in H. rewrite H. reflexivity.
Qed.

Section values.
  Variable F : field.
  Add Field mf : (f_theory F).
  Lemma f1_not_0 : (f1 : F) <> f0.
  Proof. exact (F_1_neq_0 (f_theory F)). Qed.
  Lemma mul_not_0 (a b : F) : a <> f0 -> b <> f0 -> fmul a b <> f0.
  Proof.
    intros Ha Hb E. apply Hb. assert (X : b = fmul (finv a) (fmul a b)) by (field; exact Ha).
    rewrite X, E. ring.
  Qed.
  Lemma fpow_not_0 (x : F) k : x <> f0 -> fpow x k <> f0.
  Proof.
    intro H. induction k as [|k IH]; [exact f1_not_0|]. rewrite fpow_S. apply mul_not_0; assumption.
  Qed.
  Lemma fzpow_opp (x : F) n : x <> f0 -> fmul (fzpow x n) (fzpow x (- n)) = f1.
  Proof.
    intro Hx. destruct n as [|p|p].
    - cbn. ring.
    - cbn [fzpow Z.opp]. change (Z.to_nat (Z.pos p)) with (Pos.to_nat p). pose proof (fpow_not_0 x (Pos.to_nat p) Hx) as N.
      generalize dependent (fpow x (Pos.to_nat p)). intros y N. field. exact N.
    - cbn [fzpow Z.opp]. change (Z.to_nat (Z.pos p)) with (Pos.to_nat p). pose proof (fpow_not_0 x (Pos.to_nat p) Hx) as N.
      generalize dependent (fpow x (Pos.to_nat p)). intros y N. field. exact N.
  Qed.
  Variable v : ex -> F.
  Hypothesis Hv : arith_valuation F v.
  Lemma split_value l : (forall b e r, In e l -> reciprocal b e r -> fmul (v e) (v r) = f1) ->
    fmul (fprod (map v l)) (fprod (map v (den_factors l))) = fprod (map v (num_factors l)) /\
    fprod (map v (den_factors l)) <> f0.
  Proof.
    induction l as [|e l IH]; intro H.
    - split; [cbn; ring|exact f1_not_0].
    - destruct IH as [I1 I2]; [intros b x r Hx; apply H; right; exact Hx|].
      cbn [num_factors filter den_factors]. fold (num_factors l). destruct (den_factor e) as [[b n]|] eqn:E; cbn [is_none].
      + destruct (den_reciprocal e b n E) as [_ R]. pose proof (H b e _ (or_introl eq_refl) R) as Q.
        cbn [map]. rewrite !fprod_cons. set (r := v (xPower b (negated n))) in *. split.
        * rewrite <- I1. transitivity (fmul (fmul (v e) r) (fmul (fprod (map v l)) (fprod (map v (den_factors l))))); [ring|].
          rewrite Q. ring.
        * apply mul_not_0; [|exact I2]. intro Z. apply f1_not_0. rewrite <- Q, Z. ring.
      + cbn [map]. rewrite !fprod_cons. split; [|exact I2]. rewrite <- I1. ring.
  Qed.
End values.

(* ---- C109 ---- *)
(* in every field: where the reciprocal factors of a product are invertible,
   the product is Numerator[e] / Denominator[e] *)
Theorem C109_quotient : forall (F : field) (v : ex -> F) l, arith_valuation F v ->
  (forall b e r, In e l -> reciprocal b e r -> fmul (v e) (v r) = f1) ->
  let e := EExpr (sys "Times" :: l) in
  v (denominator e) <> f0 /\ v e = fdiv (v (numerator e)) (v (denominator e)).
Proof.
  intros F v l Hv H e. destruct (split_value F v l H) as [E N]. unfold e.
  assert (Dn : denominator (EExpr (sys "Times" :: l)) = xTimes (den_factors l)) by reflexivity.
  assert (Nu : numerator (EExpr (sys "Times" :: l)) = xTimes (num_factors l)) by reflexivity.
  rewrite Dn, Nu. unfold xTimes. rewrite !(av_times F v Hv). split; [exact N|].
  rewrite <- E. set (x := fprod (map v l)). set (d := fprod (map v (den_factors l))) in *.
  clearbody x d. pose (mth := f_theory F).
  rewrite (Fdiv_def mth). rewrite <- (Rmul_assoc (F_R mth)). rewrite (Rmul_comm (F_R mth) d), (Finv_l mth) by exact N.
  rewrite (Rmul_comm (F_R mth)). symmetry. apply (Rmul_1_l (F_R mth)).
Qed.
Print Assumptions C109_quotient.

(* with integer exponents it is enough that the bases are not zero *)
Theorem C109_integer_powers : forall (F : field) (v : ex -> F) l, arith_valuation F v ->
  (forall b n, In (EExpr [sys "Power"; b; n]) l -> (exists z, n = EInt z) /\ v b <> f0) ->
  let e := EExpr (sys "Times" :: l) in
  v (denominator e) <> f0 /\ v e = fdiv (v (numerator e)) (v (denominator e)).
Proof.
  intros F v l Hv H. apply C109_quotient; [exact Hv|]. intros b e r Hin R.
  destruct R as [b z R|b n d R|b m x a R|b|b s]; destruct (H _ _ Hin) as [[z' Z] N]; try discriminate Z.
  rewrite !(av_power F v Hv). apply fzpow_opp, N.
Qed.
Print Assumptions C109_integer_powers.

(* other expressions *)
Theorem C109_atoms : forall (F : field) (v : ex -> F) e, arith_valuation F v ->
  (forall l, e <> EExpr (sys "Times" :: l)) ->
  v e = fdiv (v (numerator e)) (v (denominator e)).
Proof.
  intros F v e Hv H.
  assert (One : v e = fdiv (v e) (v (EInt 1))).
  { rewrite (av_int F v Hv). unfold of_int. cbn. rewrite (Fdiv_def (f_theory F)).
    assert (X : finv (f1 : F) = f1).
    { transitivity (fmul (finv (f1 : F)) f1); [rewrite (Rmul_comm (F_R (f_theory F))); symmetry; apply (Rmul_1_l (F_R (f_theory F)))|].
      apply (Finv_l (f_theory F)), f1_not_0. }
    rewrite X, (Rmul_comm (F_R (f_theory F))). symmetry. apply (Rmul_1_l (F_R (f_theory F))). }
  destruct e as [s|s|z|n d|f|a1 a2|l]; try exact One.
  - cbn [numerator denominator]. rewrite (av_rat F v Hv), !(av_int F v Hv). reflexivity.
  - destruct l as [|h l]; [exact One|]. destruct h as [h|h|h|h1 h2|h|h1 h2|h]; try exact One.
    cbn [numerator denominator]. destruct (String.eqb_spec h (sysname "Times")) as [-> |]; [|exact One].
    exfalso. exact (H l eq_refl).
Qed.
Print Assumptions C109_atoms.

(* no reciprocal factor is left in the numerator of a product, and the
   denominator is made of the opposite powers of exactly the reciprocal ones *)
Theorem C109_no_reciprocals : forall l,
  (exists ns ds, numerator (EExpr (sys "Times" :: l)) = EExpr (sys "Times" :: ns) /\
    denominator (EExpr (sys "Times" :: l)) = EExpr (sys "Times" :: ds) /\
    (forall x, In x ns <-> In x l /\ ~ exists b r, reciprocal b x r) /\
    (forall r, In r ds <-> exists b e, In e l /\ reciprocal b e r)).
Proof.
  intro l. exists (num_factors l), (den_factors l). split; [reflexivity|]. split; [reflexivity|]. split.
  - intro x. unfold num_factors. rewrite filter_In. split; intros [Hx Q]; (split; [exact Hx|]).
    + intros [b [r R]]. destruct (reciprocal_den b x r R) as [n [D _]]. rewrite D in Q. discriminate.
    + destruct (den_factor x) as [[b n]|] eqn:D; [|reflexivity]. exfalso. apply Q. destruct (den_reciprocal x b n D) as [_ R]. eauto.
  - intro r. induction l as [|e l IH]; cbn [den_factors].
    + split; [intros []|intros [b [e [[] _]]]].
    + destruct (den_factor e) as [[b n]|] eqn:D.
      * cbn [In]. rewrite IH. destruct (den_reciprocal e b n D) as [_ R]. split.
        -- intros [<-|[b' [e' [Hin R']]]]; [exists b, e; auto|exists b', e'; auto].
        -- intros [b' [e' [[<-|Hin] R']]]; [left|right; eauto].
           destruct (reciprocal_den b' e r R') as [n' [D' ->]]. rewrite D in D'. injection D' as -> ->. reflexivity.
      * rewrite IH. split; intros [b [e' [Hin R]]].
        -- exists b, e'. split; [right|]; assumption.
        -- destruct Hin as [<-|Hin]; [|eauto]. destruct (reciprocal_den b e r R) as [n' [D' _]]. congruence.
Qed.
Print Assumptions C109_no_reciprocals.

(* a lone reciprocal and a rational coefficient are not split: Numerator[1/b]
   is 1/b, and Numerator[2/3 a] is 2/3 a *)
Theorem C109_complete_refuted : exists a b,
  numerator (EExpr [sys "Power"; b; EInt (-1)]) = EExpr [sys "Power"; b; EInt (-1)] /\
  denominator (EExpr [sys "Power"; b; EInt (-1)]) = EInt 1 /\
  numerator (EExpr [sys "Times"; ERat 2 3; a]) = EExpr [sys "Times"; ERat 2 3; a] /\
  denominator (EExpr [sys "Times"; ERat 2 3; a]) = EExpr [sys "Times"].
Proof. exists xa, xb. repeat split; reflexivity. Qed.
Print Assumptions C109_complete_refuted.

Example C109_ex : numerator (xTimes [xPower xa (EInt 2); xPower xb (EInt (-2)); xPower xa (xTimes [EInt (-1); xb])]) = xTimes [xPower xa (EInt 2)] /\
  denominator (xTimes [xPower xa (EInt 2); xPower xb (EInt (-2)); xPower xa (xTimes [EInt (-1); xb])]) = xTimes [xPower xb (EInt 2); xPower xa xb].
Proof. split; reflexivity. Qed.
(* a valuation and a product that meet the hypotheses *)
Example C109_ex_value : forall b n, In (EExpr [sys "Power"; b; n]) [xPower xa (EInt 2); xPower xb (EInt (-2))] ->
  (exists z, n = EInt z) /\ cval b <> f0.
Proof. intros b n [E|[E|[]]]; injection E as <- <-; (split; [eexists; reflexivity|]); vm_compute; discriminate. Qed.

(* ---- C110 ---- *)
Definition keeps {F : field} (v : ex -> F) (R : ex -> ex -> Prop) : Prop := forall a b, R a b -> v b = v a.

(* every denominator Together may multiply by has a nonzero value *)
Inductive nonzero_dens {F : field} (v : ex -> F) (ev expand : ex -> ex -> Prop) : forall e r, together ev expand e r -> Prop :=
| nz_product args l bs a' P B H : nonzero_dens v ev expand _ _ H -> nonzero_dens v ev expand _ _ (tg_product ev expand args l bs a' P B H)
| nz_power e p e' H : nonzero_dens v ev expand _ _ H -> nonzero_dens v ev expand _ _ (tg_power ev expand e p e' H)
| nz_denominator args t rest c d x y r P R C X E H : v d <> f0 -> nonzero_dens v ev expand _ _ H ->
    nonzero_dens v ev expand _ _ (tg_denominator ev expand args t rest c d x y r P R C X E H)
| nz_rational args t rest c n d x y r P R C X E H : of_int d <> (f0 : F) -> nonzero_dens v ev expand _ _ H ->
    nonzero_dens v ev expand _ _ (tg_rational ev expand args t rest c n d x y r P R C X E H)
| nz_complex args t rest c n d x y r P R C X E H : of_int d <> (f0 : F) -> nonzero_dens v ev expand _ _ H ->
    nonzero_dens v ev expand _ _ (tg_complex ev expand args t rest c n d x y r P R C X E H)
| nz_same e : nonzero_dens v ev expand _ _ (tg_same ev expand e).

Section together_value.
  Variable F : field.
  Add Field tf : (f_theory F).
  Variable v : ex -> F.
  Hypothesis Hv : arith_valuation F v.
  Lemma v_times2 a b : v (xTimes [a; b]) = fmul (v a) (v b).
  Proof. unfold xTimes. rewrite (av_times F v Hv). cbn. ring. Qed.
  Lemma v_plus2 a b : v (xPlus [a; b]) = fadd (v a) (v b).
  Proof. unfold xPlus. rewrite (av_plus F v Hv). cbn. ring. Qed.
  Lemma v_times3 a b c : v (xTimes [a; b; c]) = fmul (v a) (fmul (v b) (v c)).
  Proof. unfold xTimes. rewrite (av_times F v Hv). cbn. ring. Qed.
  Lemma v_rec d : v d <> f0 -> v (rec_power d) = finv (v d).
  Proof. intro H. unfold rec_power, xPower. rewrite (av_power F v Hv).
    change (fzpow (v d) (-1)) with (finv (fmul (v d) f1)). field. exact H. Qed.
  Lemma v_sum_of l : l <> [] -> v (sum_of l) = fsum (map v l).
  Proof.
    intro H. destruct l as [|x [|y l]]; [congruence| |].
    - cbn. ring.
    - cbn [sum_of]. unfold xPlus. apply (av_plus F v Hv).
  Qed.
  Lemma v_plus_split args t rest : Permutation args (t :: rest) -> v (xPlus args) = fadd (v t) (fsum (map v rest)).
  Proof. intro P. unfold xPlus. rewrite (av_plus F v Hv), (fsum_perm F _ _ (Permutation_map v P)). reflexivity. Qed.
  Lemma v_coefficient x t c : coefficient_of x t c -> v t = fmul (v c) (v x).
  Proof.
    intro H. destruct H as [|fs cs P N].
    - rewrite (av_int F v Hv). unfold of_int. cbn. ring.
    - unfold xTimes. rewrite (av_times F v Hv), (fprod_perm F _ _ (Permutation_map v P)). cbn [map].
      rewrite fprod_cons, (v_factor F v Hv) by exact N. ring.
  Qed.
  Lemma v_dm e m : v (distribute_multiply e m) = fmul (v e) (v m).
  Proof.
    unfold distribute_multiply. destruct e as [s|s|z|n d|f|a1 a2|l]; try apply v_times2.
    destruct l as [|h l]; [apply v_times2|]. destruct h as [h|h|h|h1 h2|h|h1 h2|h]; try apply v_times2.
    destruct (String.eqb_spec h (sysname "Plus")) as [-> |]; [|apply v_times2].
    unfold xPlus. change (ESym (sysname "Plus")) with (sys "Plus"). rewrite !(av_plus F v Hv), map_map.
    transitivity (fmul (v m) (fsum (map v l))); [|ring]. rewrite <- (fsum_scale F (v m) v l).
    apply fsum_ext. intros x _. rewrite v_times2. ring.
  Qed.
  Hypothesis Hi : forall n d, v (ECplx (EInt 0) (ERat n d)) = fmul (v (ECplx (EInt 0) (EInt 1))) (fdiv (of_int n) (of_int d)).
  Hypothesis Hp : forall a b p, v a = v b -> v (xPower a p) = v (xPower b p).
  Variables ev expand : ex -> ex -> Prop.
  Hypothesis Hev : keeps v ev.
  Hypothesis Hex : keeps v expand.
  Lemma together_value e r (H : together ev expand e r) : nonzero_dens v ev expand e r H -> v r = v e.
  Proof.
    intro NZ. induction NZ as [args l bs a' P B H NZ IH|e p e' H NZ IH|args t rest c d x y r P R C X E H N NZ IH
      |args t rest c n d x y r P R C X E H N NZ IH|args t rest c n d x y r P R C X E H N NZ IH|e].
    - rewrite v_times2, IH, (v_factor F v Hv) by exact B. unfold xTimes. rewrite (av_times F v Hv).
      rewrite (fprod_perm F _ _ (Permutation_map v P)). reflexivity.
    - apply Hp, IH.
    - rewrite IH, (Hev _ _ E), v_times2, v_plus2, (v_rec d N), (Hex _ _ X), v_dm, (v_sum_of rest R).
      rewrite (v_plus_split _ _ _ P), (v_coefficient _ _ _ C), (v_rec d N). field. exact N.
    - assert (N' : v (EInt d) <> f0) by (rewrite (av_int F v Hv); exact N).
      rewrite IH, (Hev _ _ E), v_times2, v_plus2, v_times2, (v_rec _ N'), (Hex _ _ X), v_times2, (v_sum_of rest R).
      rewrite (v_plus_split _ _ _ P), (v_coefficient _ _ _ C), (av_rat F v Hv), !(av_int F v Hv). field. exact N.
    - assert (N' : v (EInt d) <> f0) by (rewrite (av_int F v Hv); exact N).
      rewrite IH, (Hev _ _ E), v_times2, v_plus2, v_times3, (v_rec _ N'), (Hex _ _ X), v_times2, (v_sum_of rest R).
      rewrite (v_plus_split _ _ _ P), (v_coefficient _ _ _ C), Hi, !(av_int F v Hv). unfold imaginary_unit. field. exact N.
    - reflexivity.
  Qed.
  Lemma v_factor_out c l : v c <> f0 -> v (factor_out c l) = v (xPlus l).
  Proof.
    intro N. unfold factor_out. rewrite v_times2. unfold xPlus. rewrite !(av_plus F v Hv), map_map.
    rewrite (fsum_ext F _ (fun x => fmul (finv (v c)) (v x))).
    - rewrite fsum_scale. field. exact N.
    - intros x _. rewrite v_times2, (v_rec c N). ring.
  Qed.
End together_value.

(* every way of applying the rules of Together, to any expression, keeps its
   value in every field in which none of the denominators multiplied by is
   zero; Expand as in C76, evaluation any relation that keeps values *)
Theorem C110_together_value : forall (F : field) (v : ex -> F) (ev expand : ex -> ex -> Prop) e r
  (H : together ev expand e r),
  arith_valuation F v ->
  (forall n d, v (ECplx (EInt 0) (ERat n d)) = fmul (v (ECplx (EInt 0) (EInt 1))) (fdiv (of_int n) (of_int d))) ->
  (forall a b p, v a = v b -> v (EExpr [sys "Power"; a; p]) = v (EExpr [sys "Power"; b; p])) ->
  keeps v ev -> keeps v expand -> nonzero_dens v ev expand e r H -> v r = v e.
Proof. intros F v ev expand e r H Hv Hi Hp Hev Hex. apply (together_value F v Hv Hi Hp ev expand Hev Hex). Qed.
Print Assumptions C110_together_value.

(* pulling the constant out of the sum at the end keeps the value *)
Theorem C110_constant_value : forall (F : field) (v : ex -> F) c l, arith_valuation F v -> v c <> f0 ->
  v (factor_out c l) = v (EExpr (sys "Plus" :: l)).
Proof. intros F v c l Hv. apply (v_factor_out F v Hv). Qed.
Print Assumptions C110_constant_value.

(* 1/a + 3/b: the rules do apply, and the denominators are not zero at a=2, b=3 *)
Definition frac_sum := xPlus [rec_power xa; xTimes [EInt 3; rec_power xb]].
Definition frac_res := xTimes [xPlus [EInt 1; xTimes [xTimes [EInt 3; rec_power xb]; xa]]; rec_power xa].
Example C110_ex : exists H : together eq eq frac_sum frac_res,
  nonzero_dens cval eq eq frac_sum frac_res H /\ cval frac_sum = Qcanon.Q2Qc (QArith_base.Qmake 3 2).
Proof.
  assert (C : coefficient_of (rec_power xa) (rec_power xa) (EInt 1)) by constructor.
  assert (N : [xTimes [EInt 3; rec_power xb]] <> []) by discriminate.
  exists (tg_denominator eq eq _ _ [xTimes [EInt 3; rec_power xb]] _ xa _ _ _ (Permutation_refl _) N C eq_refl eq_refl (tg_same eq eq frac_res)).
  split; [|apply Qcanon.Qc_is_canon; vm_compute; reflexivity]. apply nz_denominator; [vm_compute; discriminate|]. constructor.
Qed.

(* ---- C111 ---- *)
Lemma fold_gcd_div zs : forall a, (fold_left Z.gcd zs a | a) /\ forall z, In z zs -> (fold_left Z.gcd zs a | z).
Proof.
  induction zs as [|z zs IH]; intro a; cbn [fold_left].
  - split; [apply Z.divide_refl|intros ? []].
  - destruct (IH (Z.gcd a z)) as [D1 D2]. split; [apply (Z.divide_trans _ _ _ D1), Z.gcd_divide_l|].
    intros x [<-|Hx]; [apply (Z.divide_trans _ _ _ D1), Z.gcd_divide_r|apply D2, Hx].
Qed.
Lemma fold_gcd_greatest zs : forall a d, (d | a) -> (forall z, In z zs -> (d | z)) -> (d | fold_left Z.gcd zs a).
Proof.
  induction zs as [|z zs IH]; intros a d Ha H; cbn [fold_left]; [exact Ha|].
  apply IH; [apply Z.gcd_greatest; [exact Ha|apply H; left; reflexivity]|]. intros x Hx. apply H. right. exact Hx.
Qed.
Lemma fold_gcd_nonneg zs : forall a, (0 <= a)%Z -> (0 <= fold_left Z.gcd zs a)%Z.
Proof. induction zs as [|z zs IH]; intros a Ha; cbn [fold_left]; [exact Ha|]. apply IH, Z.gcd_nonneg. Qed.

(* the constant taken out of a sum with integer coefficients divides them all,
   leaves no common factor, and leaves the last coefficient positive *)
Theorem C111_constant : forall zs, (exists z, In z zs /\ z <> 0%Z) ->
  exists qs, zs = map (Z.mul (factor_const zs)) qs /\
  (forall d, (forall q, In q qs -> (d | q)%Z) -> (d | 1)%Z) /\
  (last zs 0 <> 0 -> 0 < last qs 0)%Z.
Proof.
  intros zs [z0 [Hz0 N0]]. set (g := fold_left Z.gcd zs 0%Z).
  assert (G : (0 < g)%Z).
  { pose proof (fold_gcd_nonneg zs 0 ltac:(lia)). destruct (Z.eq_dec g 0) as [E|]; [|fold g in H; lia].
    destruct (fold_gcd_div zs 0%Z) as [_ D]. specialize (D z0 Hz0). fold g in D. rewrite E in D.
    apply Z.divide_0_l in D. contradiction. }
  set (c := factor_const zs).
  assert (C : c = g \/ c = (- g)%Z) by (unfold c, factor_const; fold g; destruct (last zs 0 <? 0)%Z; auto).
  assert (C0 : c <> 0%Z) by lia.
  assert (CD : forall z, In z zs -> (c | z)%Z).
  { intros z Hz. destruct (fold_gcd_div zs 0%Z) as [_ D]. specialize (D z Hz). fold g in D.
    destruct C as [-> | ->]; [exact D|]. apply Z.divide_opp_l, D. }
  exists (map (fun z => (z / c)%Z) zs). split; [|split].
  - rewrite map_map. rewrite <- (map_id zs) at 1. apply map_ext_in. intros z Hz. destruct (CD z Hz) as [k ->].
    rewrite Z.div_mul by exact C0. lia.
  - intros d Hd.
    assert (X : (c * d | g)%Z).
    { apply fold_gcd_greatest; [apply Z.divide_0_r|]. intros z Hz. destruct (CD z Hz) as [k E].
      assert (Hk : In k (map (fun z => (z / c)%Z) zs)).
      { apply in_map_iff. exists z. split; [rewrite E; apply Z.div_mul, C0|exact Hz]. }
      destruct (Hd k Hk) as [m ->]. exists m. rewrite E. ring. }
    destruct X as [k X]. destruct C as [C|C]; [exists k|exists (- k)%Z]; nia.
  - intro L. assert (Hne : zs <> []) by (intro E; rewrite E in Hz0; destruct Hz0).
    assert (Hl : last (map (fun z => (z / c)%Z) zs) 0%Z = (last zs 0 / c)%Z).
    { clearbody c. clear - Hne. destruct zs as [|z zs]; [congruence|]. clear Hne. revert z. induction zs as [|y zs IH]; intro z; [reflexivity|].
      cbn [map]. change (last (z / c :: y / c :: map (fun z => z / c) zs) 0)%Z with (last (map (fun z => z / c) (y :: zs)) 0)%Z.
      rewrite IH. reflexivity. }
    rewrite Hl. assert (Hin : In (last zs 0%Z) zs).
    { clear - Hne. destruct zs as [|z zs]; [congruence|]. clear Hne. revert z. induction zs as [|y zs IH]; intro z; [left; reflexivity|].
      right. apply IH. }
    destruct (CD _ Hin) as [k E]. rewrite E, Z.div_mul by exact C0.
    assert (Sg : (last zs 0 < 0 -> c = - g)%Z /\ (0 <= last zs 0 -> c = g)%Z).
    { unfold c, factor_const. fold g. destruct (Z.ltb_spec (last zs 0) 0); split; intro; lia. }
    destruct (Z_lt_le_dec (last zs 0) 0) as [A|A].
    + rewrite (proj1 Sg A) in E. nia.
    + rewrite (proj2 Sg A) in E. nia.
Qed.
Print Assumptions C111_constant.

Example C111_ex : factor_const [4; -6; -2]%Z = (-2)%Z /\ factor_const [6; 9]%Z = 3%Z.
Proof. split; reflexivity. Qed.
