(* Property theorems: arithmetic printed in InputForm (C65). *)
From Verif Require Import M_Syntax M_Float M_Hash M_InputForm S_InputForm P_InputForm P_InputForm2.
From Coq Require Import QArith Qcanon.
Open Scope nat_scope.

(* an interpretation: rational numbers, with integer powers; the "square root"
   and every other function of one argument is the identity *)
Definition qpow (a b : Qc) : Qc :=
  if Qc_eq_dec b (Q2Qc (1 # 2)) then a
  else if Qc_eq_dec b (Q2Qc (-1 # 2)) then (/ a)%Qc
  else match Qnum b with
       | Zpos k => Qcpower a (Pos.to_nat k)
       | Z0 => 1%Qc
       | Zneg k => (/ Qcpower a (Pos.to_nat k))%Qc
       end.
Definition qfun (s : string) (l : list Qc) : Qc := match l with [a] => a | _ => 0%Qc end.
Lemma qint_add x y : Q2Qc (inject_Z (x + y)) = (Q2Qc (inject_Z x) + Q2Qc (inject_Z y))%Qc.
Proof. apply Qc_is_canon. cbn [this Q2Qc]. rewrite inject_Z_plus. unfold Qcplus. cbn [this Q2Qc]. rewrite !Qred_correct. reflexivity. Qed.
Definition rationals (env : string -> Qc) : interp.
Proof.
  refine (Interp Qc 0%Qc 1%Qc Qcplus Qcmult Qcopp Qcinv qpow (fun z => Q2Qc (inject_Z z)) env qfun _ _ _ _ _ _ _ _ _ _ _ _ _ _).
  - apply Qcplus_comm. - apply Qcplus_assoc. - apply Qcplus_0_l. - apply Qcplus_opp_r. - apply Qcmult_comm. - apply Qcmult_assoc. - apply Qcmult_1_l.
  - apply Qcmult_plus_distr_l. - reflexivity. - apply qint_add. - apply Qcinv_mult_distr.
  - intro a. unfold qpow. destruct (Qc_eq_dec _ _) as [E|_]; [discriminate E|]. destruct (Qc_eq_dec _ _) as [E|_]; [discriminate E|].
    change (Qnum (Q2Qc (inject_Z (-1)))) with (-1)%Z. cbv iota. change (Pos.to_nat 1) with 1%nat. cbn [Qcpower]. rewrite Qcmult_1_r. reflexivity.
  - intro a. unfold qpow. destruct (Qc_eq_dec _ _) as [_|E]; [reflexivity|]. destruct E. reflexivity.
  - intro a. unfold qpow. destruct (Qc_eq_dec _ _) as [E|_]; [discriminate E|]. destruct (Qc_eq_dec _ _) as [_|E]; [reflexivity|]. destruct E. reflexivity.
Defined.

(* The text printed for a faithful arithmetic expression is read as exactly one
   expression, and that expression has the same value as the original under
   every interpretation of symbols, functions and powers. *)
Theorem C65_input_form_partial : forall e, faithful e -> exists ts t, input_form e = Some ts /\ reads ts t /\
  (forall t', reads ts t' -> t' = t) /\ forall I : interp, value I t = value I e.
Proof.
  intros e F. destruct (printed_value (rationals (fun _ => 0%Qc)) e F) as [ts [t0 [E _]]].
  assert (K : forall I : interp, exists t, reads ts t /\ value I t = value I e).
  { intro I. destruct (printed_value I e F) as [ts' [t [E' [H V]]]]. rewrite E in E'. injection E' as <-. exists t. split; assumption. }
  destruct (K (rationals (fun _ => 0%Qc))) as [t [H _]]. exists ts, t. split; [exact E|]. split; [exact H|]. split.
  - intros t' H'. exact (reads_fun _ _ _ H' H).
  - intro I. destruct (K I) as [t' [H' V]]. rewrite (reads_fun _ _ _ H H'). exact V.
Qed.
Print Assumptions C65_input_form_partial.

Definition gx : ex := ESym "x". Definition gy : ex := ESym "y". Definition ga : ex := ESym "a". Definition gb : ex := ESym "b".
Definition P2 (a b : ex) : ex := EExpr [sys "Power"; a; b].
(* -x/y + (1 + x)^2 + 3/2 f[x, Sqrt[y]] *)
Definition sample : ex :=
  EExpr [sys "Plus"; EExpr [sys "Times"; EInt (-1); gx; P2 gy (EInt (-1))];
         P2 (EExpr [sys "Plus"; EInt 1; gx]) (EInt 2);
         EExpr [sys "Times"; ERat 3 2; EExpr [ESym "f"; gx; P2 gy (ERat 1 2)]]].
Lemma no_collision_int z : z = 2%Z \/ z = (-1)%Z -> no_collision (EInt z).
Proof. intros H y Hy E. destruct H as [-> | ->]; cbn [In] in Hy; destruct Hy as [<-|[<-|[<-|[]]]]; try reflexivity; exfalso; revert E; vm_compute; discriminate. Qed.
Lemma no_collision_half : no_collision (ERat 1 2).
Proof. intros y Hy E. cbn [In] in Hy; destruct Hy as [<-|[<-|[<-|[]]]]; try reflexivity; exfalso; revert E; vm_compute; discriminate. Qed.
Ltac notfrac := let H := fresh in intro H; unfold fraction, number, negative in H;
  repeat match goal with K : exists _, _ |- _ => destruct K | K : _ /\ _ |- _ => destruct K | K : _ \/ _ |- _ => destruct K end; try discriminate; try lia.
Example C65_input_form_nontrivial : faithful sample /\ input_form sample = Some ([TMinus; TLP; TName "x"; TRP; TDiv; TLP; TName "y"; TRP] ++ [TSpace; TPlus; TSpace] ++
    [TLP; TInt 1; TSpace; TPlus; TSpace; TName "x"; TRP; TPow; TInt 2] ++ [TSpace; TPlus; TSpace] ++
    [TLP; TInt 3; TTimes; TName "f"; TLB; TName "x"; TComma; TSpace; TName (sysname "Sqrt"); TLB; TName "y"; TRB; TRB; TRP; TDiv; TLP; TInt 2; TRP]).
Proof.
  split; [|vm_compute; reflexivity]. unfold sample, P2, gx, gy.
  repeat first [ apply f_sym | apply f_int | apply f_rat; unfold low64; cbn; intro; congruence
    | apply f_plus | apply f_pow | apply f_times | apply Forall_cons | apply Forall_nil
    | apply f_call; [| |discriminate|discriminate|discriminate]
    | apply no_collision_int; auto; fail | apply no_collision_half ];
  try (intros z E; injection E as <-; intro; first [reflexivity|discriminate]); try (intros z E; discriminate E); try (notfrac; fail).
  intro H. cbn in H. intuition discriminate.
Qed.

(* ---- expressions outside the fragment that are printed wrongly ----
   (the text is arithmetic, but has another value) *)
Definition wrong (e : ex) : Prop := exists ts t env, input_form e = Some ts /\ reads ts t /\ value (rationals env) t <> value (rationals env) e.
Definition env2 (v w : Qc) (s : string) : Qc := if String.eqb s "x" then v else w.
Ltac by_reading ts t env := exists ts, t, env; split; [vm_compute; reflexivity|]; split; [split; [reflexivity|exists 30; vm_compute; reflexivity]|vm_compute; discriminate].
Definition q (n : Z) : Qc := Q2Qc (inject_Z n).

(* (-1)^x is printed as -1^x, which means -(1^x) *)
Theorem C65_negative_base_refuted : wrong (P2 (EInt (-1)) gx).
Proof. by_reading [TMinus; TInt 1; TPow; TName "x"] (e_neg (e_pow (EInt 1) gx)) (fun _ : string => q 2). Qed.
Print Assumptions C65_negative_base_refuted.

(* x^(y/2) is printed as x^(y)/(2) *)
Theorem C65_fraction_exponent_refuted : wrong (P2 gx (EExpr [sys "Times"; ERat 1 2; gy])).
Proof.
  by_reading [TName "x"; TPow; TLP; TName "y"; TRP; TDiv; TLP; TInt 2; TRP] (e_times (e_pow gx gy) (e_pow (EInt 2) (EInt (-1)))) (env2 (q 2) (q 4)).
Qed.
Print Assumptions C65_fraction_exponent_refuted.

(* (a/b)^2 is printed as (a)/(b)^2 *)
Theorem C65_fraction_base_refuted : wrong (P2 (EExpr [sys "Times"; gx; P2 gy (EInt (-1))]) (EInt 2)).
Proof.
  by_reading [TLP; TName "x"; TRP; TDiv; TLP; TName "y"; TRP; TPow; TInt 2] (e_times gx (e_pow (e_pow gy (EInt 2)) (EInt (-1)))) (env2 (q 2) (q 4)).
Qed.
Print Assumptions C65_fraction_base_refuted.

(* y * x^(2^64-1) is printed as (y)/(x), and x*(2^64+1)/2 as (x)/(2): the
   exponent and the numerator are looked at through Int64() *)
Theorem C65_low64_refuted : wrong (EExpr [sys "Times"; ERat (2 ^ 64 + 1) 2; gx]) /\
  input_form (EExpr [sys "Times"; gy; P2 gx (EInt (2 ^ 64 - 1))]) = input_form (EExpr [sys "Times"; gy; P2 gx (EInt (-1))]).
Proof.
  split; [|vm_compute; reflexivity].
  by_reading [TLP; TName "x"; TRP; TDiv; TLP; TInt 2; TRP] (e_times gx (e_pow (EInt 2) (EInt (-1)))) (env2 (q 1) (q 1)).
Qed.
Print Assumptions C65_low64_refuted.

(* an unevaluated (-1)*(-3)*x is printed as --3*x, which is not arithmetic *)
Theorem C65_double_minus_refuted : exists ts, input_form (EExpr [sys "Times"; EInt (-1); EInt (-3); gx]) = Some ts /\ forall t, ~ reads ts t.
Proof. exists [TMinus; TMinus; TInt 3; TTimes; TName "x"]. split; [vm_compute; reflexivity|]. intros t [H _]. discriminate H. Qed.
Print Assumptions C65_double_minus_refuted.

(* the unevaluated sum ((-1)*1*x + y)/z is printed as -(x + y)/(z) *)
Theorem C65_stripped_sign_refuted : wrong (EExpr [sys "Times"; EExpr [sys "Plus"; EExpr [sys "Times"; EInt (-1); EInt 1; gx]; gy]; P2 gy (EInt (-1))]).
Proof.
  by_reading [TMinus; TLP; TName "x"; TSpace; TPlus; TSpace; TName "y"; TRP; TDiv; TLP; TName "y"; TRP]
    (e_times (e_neg (e_plus gx gy)) (e_pow gy (EInt (-1)))) (env2 (q 1) (q 1)).
Qed.
Print Assumptions C65_stripped_sign_refuted.

(* (a + b)[x] and a + b[x] have the same text *)
Theorem C65_compound_head_refuted : input_form (EExpr [EExpr [sys "Plus"; ga; gb]; gx]) = input_form (EExpr [sys "Plus"; ga; EExpr [gb; gx]]) /\
  EExpr [EExpr [sys "Plus"; ga; gb]; gx] <> EExpr [sys "Plus"; ga; EExpr [gb; gx]].
Proof. split; [vm_compute; reflexivity|discriminate]. Qed.
Print Assumptions C65_compound_head_refuted.

(* ... while the same products and powers inside the fragment are printed with
   the right value *)
Theorem C65_fraction_in_sum : forall I : interp, exists ts t,
  input_form (EExpr [sys "Plus"; gx; EExpr [sys "Times"; EInt (-1); gx; P2 gy (EInt (-1))]]) = Some ts /\ reads ts t /\
  value I t = radd I (rsym I "x") (rmul I (rneg I (rsym I "x")) (rinv I (rsym I "y"))).
Proof.
  intro I. exists [TName "x"; TSpace; TMinus; TSpace; TLP; TName "x"; TRP; TDiv; TLP; TName "y"; TRP], (e_plus gx (e_neg (e_times gx (e_pow gy (EInt (-1)))))).
  split; [vm_compute; reflexivity|]. split; [split; [reflexivity|exists 30; vm_compute; reflexivity]|].
  rewrite val_plus, val_neg, val_div. cbn [value gx gy]. apply f_equal. apply neg_mul_l.
Qed.
Print Assumptions C65_fraction_in_sum.
