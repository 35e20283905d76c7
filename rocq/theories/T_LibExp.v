(* Property theorems: exponentials and trigonometric functions (C119). *)
From Coq Require Import Reals Lra Lia Psatz List Permutation QArith Qreals.
From Verif Require Import M_Syntax M_LibCalc M_LibPower M_LibTrig M_LibComplex M_LibExp S_Real S_Trig S_Polar S_Complex P_Polar T_LibTrig T_LibPower T_LibComplex.
Import ListNotations.
Open Scope R_scope.

(* ---- specification ---- *)
Definition copp (w : cplx) : cplx := (- fst w, - snd w).
(* the values of Tan and Cosh are the usual ones, and the value of any other
   function depends on the values of its arguments only *)
Definition standard (z : ex -> cplx) : Prop :=
  (forall a, z (tan_ a) = cmul (csin (cval z a)) (cinv (ccos (cval z a)))) /\
  (forall a, z (app1 "Cosh" a) = cmul (real (1 / 2)) (cadd (cexp (cval z a)) (cexp (copp (cval z a))))) /\
  (forall h args args', Forall2 (fun a b => cval z a = cval z b) args args' -> z (EExpr (h :: args)) = z (EExpr (h :: args'))).

Section Values.
Variable z : ex -> cplx.
Hypothesis St : standard z.

(* parts of equal values, integers only for themselves *)
Definition alike (a b : ex) : Prop := cval z b = cval z a /\ forall n, b = EInt n <-> a = EInt n.
Lemma alike_values args args' : Forall2 alike args args' -> List.map (cval z) args' = List.map (cval z) args.
Proof. induction 1 as [|a b l l' [E _] _ IH]; [reflexivity|]. cbn [List.map]. rewrite E, IH. reflexivity. Qed.
Lemma alike_cong h args args' : Forall2 alike args args' -> cval z (EExpr (h :: args')) = cval z (EExpr (h :: args)).
Proof.
  intro F. destruct St as (_ & _ & Cg).
  assert (Z0 : z (EExpr (h :: args')) = z (EExpr (h :: args))).
  { apply Cg. clear - F. induction F as [|a b l l' [E _] _ IH]; constructor; assumption. }
  destruct h as [s|s|n|n d|f|a1 a2|l]; try exact Z0. cbn [cval].
  destruct (is_fn s "Plus"); [rewrite (alike_values _ _ F); reflexivity|].
  destruct (is_fn s "Times"); [rewrite (alike_values _ _ F); reflexivity|].
  destruct F as [|a a' l l' [Ea Ia] F]; [exact Z0|]. destruct F as [|b b' l l' [Eb Ib] F].
  - rewrite Ea. destruct (fn1 s (cval z a)); [reflexivity|exact Z0].
  - destruct F; [|exact Z0]. destruct (is_fn s "Power"); [|exact Z0]. rewrite Ea, Eb.
    destruct b as [t|t|n|n d|f|b1 b2|l].
    3: { rewrite (proj2 (Ib n) eq_refl). reflexivity. }
    all: destruct b' as [t'|t'|n'|n' d'|f'|b1' b2'|l']; try reflexivity; exfalso; assert (Q := proj1 (Ib n') eq_refl); discriminate Q.
Qed.

Lemma w_exp_of k a : cval z (exp_of k a) = cexp (cmul (cval z k) (cval z a)).
Proof. unfold exp_of. rewrite w_epow, w_times2. reflexivity. Qed.
Lemma w_minus_i : cval z minus_i = (0, -1).
Proof. unfold minus_i. rewrite w_cplx, !w_int. ceq. Qed.
Lemma w_halfc : cval z half = real (1 / 2). Proof. unfold half. rewrite w_rat. reflexivity. Qed.
Lemma cos_exp w : cadd (cmul (cexp (cmul (0, -1) w)) (real (1 / 2))) (cmul (cexp (cmul ci w)) (real (1 / 2))) = ccos w.
Proof.
  apply cplx_eq; cbn [cadd cmul ci cexp ccos real fst snd].
  - replace (0 * fst w - -1 * snd w) with (snd w) by ring. replace (0 * snd w + -1 * fst w) with (- fst w) by ring.
    replace (0 * fst w - 1 * snd w) with (- snd w) by ring. replace (0 * snd w + 1 * fst w) with (fst w) by ring.
    rewrite cos_neg, sin_neg. unfold cosh. field.
  - replace (0 * fst w - -1 * snd w) with (snd w) by ring. replace (0 * snd w + -1 * fst w) with (- fst w) by ring.
    replace (0 * fst w - 1 * snd w) with (- snd w) by ring. replace (0 * snd w + 1 * fst w) with (fst w) by ring.
    rewrite cos_neg, sin_neg. unfold sinh. field.
Qed.
Lemma sin_exp w : cadd (cmul (real (1 / 2)) (cmul ci (cexp (cmul (0, -1) w))))
  (cmul (real (-1)) (cmul (real (1 / 2)) (cmul ci (cexp (cmul ci w))))) = csin w.
Proof.
  apply cplx_eq; cbn [cadd cmul ci cexp csin real fst snd].
  - replace (0 * fst w - -1 * snd w) with (snd w) by ring. replace (0 * snd w + -1 * fst w) with (- fst w) by ring.
    replace (0 * fst w - 1 * snd w) with (- snd w) by ring. replace (0 * snd w + 1 * fst w) with (fst w) by ring.
    rewrite cos_neg, sin_neg. unfold cosh. field.
  - replace (0 * fst w - -1 * snd w) with (snd w) by ring. replace (0 * snd w + -1 * fst w) with (- fst w) by ring.
    replace (0 * fst w - 1 * snd w) with (- snd w) by ring. replace (0 * snd w + 1 * fst w) with (fst w) by ring.
    rewrite cos_neg, sin_neg. unfold sinh. field.
Qed.
Lemma cinv_scale k w : k <> 0 -> cinv (cmul (real k) w) = cmul (real (/ k)) (cinv w).
Proof.
  intro K. destruct w as [a b]. destruct (Req_dec (a * a + b * b) 0) as [E|E].
  - assert (A : a = 0) by nra. assert (B : b = 0) by nra. subst. apply cplx_eq; cbn [cinv cmul real fst snd]; unfold Rdiv; ring.
  - apply cplx_eq; cbn [cinv cmul real fst snd].
    + replace (k * a - 0 * b) with (k * a) by ring. replace (k * b + 0 * a) with (k * b) by ring.
      replace (k * a * (k * a) + k * b * (k * b)) with (k * k * (a * a + b * b)) by ring. field. auto.
    + replace (k * a - 0 * b) with (k * a) by ring. replace (k * b + 0 * a) with (k * b) by ring.
      replace (k * a * (k * a) + k * b * (k * b)) with (k * k * (a * a + b * b)) by ring. field. auto.
Qed.
Lemma tan_exp w : cmul ci (cmul (cadd (cexp (cmul (0, -1) w)) (cmul (real (-1)) (cexp (cmul ci w))))
  (cinv (cadd (cexp (cmul (0, -1) w)) (cexp (cmul ci w))))) = cmul (csin w) (cinv (ccos w)).
Proof.
  rewrite <- (cos_exp w), <- (sin_exp w). set (p := cexp (cmul (0, -1) w)). set (q := cexp (cmul ci w)). clearbody p q.
  replace (cadd (cmul p (real (1 / 2))) (cmul q (real (1 / 2)))) with (cmul (real (1 / 2)) (cadd p q)) by ceq.
  rewrite cinv_scale by lra. replace (real (/ (1 / 2))) with (real 2) by (unfold real; f_equal; field).
  set (v := cinv (cadd p q)). clearbody v. apply cplx_eq; cbn [cadd cmul ci real fst snd]; field.
Qed.

Lemma inner_value e : cval z (to_exp_inner e) = cval z e.
Proof.
  unfold to_exp_inner. destruct e as [s|s|n|n d|f|a1 a2|l]; try reflexivity.
  destruct l as [|[h| | | | | |] [|a [|]]]; try reflexivity.
  destruct (String.eqb_spec h (sysname "Cos")) as [->|_].
  { change (EExpr [ESym (sysname "Cos"); a]) with (cos_ a). rewrite w_cos, w_plus2, !w_times2, !w_exp_of, w_halfc, w_minus_i, w_i. apply cos_exp. }
  destruct (String.eqb_spec h (sysname "Sin")) as [->|_].
  { change (EExpr [ESym (sysname "Sin"); a]) with (sin_ a).
    rewrite w_sin, w_plus2, w_times3, w_timesc, w_times3, !w_exp_of, w_halfc, w_minus_i, w_i, w_int. apply sin_exp. }
  destruct (String.eqb_spec h (sysname "Tan")) as [->|_]; [|reflexivity].
  change (cval z (EExpr [ESym (sysname "Tan"); a])) with (z (tan_ a)). destruct St as (T & _ & _). rewrite T.
  rewrite w_times3, !w_plus2, w_times2, w_powZ, w_plus2, !w_exp_of, w_minus_i, w_i, w_int.
  replace (cpow_Z (cadd (cexp (cmul (0, -1) (cval z a))) (cexp (cmul ci (cval z a)))) (-1))
    with (cinv (cadd (cexp (cmul (0, -1) (cval z a))) (cexp (cmul ci (cval z a))))).
  - apply tan_exp.
  - cbn [cpow_Z]. change (Pos.to_nat 1) with 1%nat. cbn [cpow_nat]. rewrite cmul_1_r. reflexivity.
Qed.
Lemma inner_int e n : to_exp_inner e = EInt n <-> e = EInt n.
Proof.
  unfold to_exp_inner. destruct e as [s|s|m|m d|f|a1 a2|l]; try tauto.
  destruct l as [|[h| | | | | |] [|a [|]]]; try tauto.
  repeat match goal with |- context [if ?b then _ else _] => destruct b end; try tauto; split; discriminate.
Qed.
Lemma trig_alike e : alike e (trig_to_exp e).
Proof.
  induction e as [s|s|n|n d|f|a1 a2 IH1 IH2|l IH] using ex_ind'; try (split; [reflexivity|intro; reflexivity]).
  destruct l as [|h args]; [split; [reflexivity|intro; reflexivity]|]. inversion IH as [|? ? _ IH']; subst.
  split.
  - cbn [trig_to_exp]. rewrite inner_value. apply alike_cong. clear IH. induction IH' as [|a l Ha _ IHl]; constructor; assumption.
  - intro n. cbn [trig_to_exp]. rewrite inner_int. split; discriminate.
Qed.
End Values.

(* ---- C119 ---- *)
(* TrigToExp keeps the value of every expression *)
Theorem C119_trig_to_exp : forall z e, standard z -> cval z (trig_to_exp e) = cval z e.
Proof. intros z e St. apply trig_alike, St. Qed.
Print Assumptions C119_trig_to_exp.
(* and leaves no Sin, Cos or Tan of one argument *)
Inductive has_trig : ex -> Prop :=
| HT_here h a : In h ["Sin"; "Cos"; "Tan"]%string -> has_trig (EExpr [sys h; a])
| HT_part h l e : In e l -> has_trig e -> has_trig (EExpr (h :: l)).
Lemma trig_expr h l : has_trig (EExpr (h :: l)) ->
  (exists x a, In x ["Sin"; "Cos"; "Tan"]%string /\ h = sys x /\ l = [a]) \/ exists e, In e l /\ has_trig e.
Proof.
  intro H. remember (EExpr (h :: l)) as e eqn:E. destruct H as [x a I|h' l' e' I H].
  - injection E as <- <-. left. exists x, a. repeat split; exact I.
  - injection E as -> ->. right. exists e'. split; assumption.
Qed.
Lemma trig_atom e : is_expr e = false -> ~ has_trig e.
Proof. intros A H. destruct H; discriminate A. Qed.
Lemma not_trig_name h l : ~ In h ["Sin"; "Cos"; "Tan"]%string -> (forall e, In e l -> ~ has_trig e) -> ~ has_trig (EExpr (sys h :: l)).
Proof.
  intros N H T. apply trig_expr in T. destruct T as [(x & a & I & E & _)|(e & I & T)]; [|exact (H e I T)].
  apply N. destruct I as [<-|[<-|[<-|[]]]]; cbn [In]; unfold sys in E; injection E as ->; auto.
Qed.
Ltac no_trig := first [ apply trig_atom; reflexivity | assumption |
  apply not_trig_name; [let K := fresh in intros [K|[K|[K|[]]]]; discriminate K|
    let e := fresh in let I := fresh in intros e I; cbn [In] in I; repeat (destruct I as [<-|I]; [no_trig|]); destruct I] ].
Theorem C119_no_trig_left : forall e, ~ has_trig (trig_to_exp e).
Proof.
  intro e. induction e as [s|s|n|n d|f|a1 a2 IH1 IH2|l IH] using ex_ind'; try (apply trig_atom; reflexivity).
  destruct l as [|h args]; [change (trig_to_exp (EExpr [])) with (EExpr []); intro H; remember (EExpr []) as x eqn:E; destruct H; discriminate E|].
  inversion IH as [|? ? _ IH']; subst. cbn [trig_to_exp].
  assert (G : forall e, In e (map trig_to_exp args) -> ~ has_trig e).
  { intros e I. apply in_map_iff in I. destruct I as (a & <- & I). rewrite Forall_forall in IH'. apply IH', I. }
  set (l := map trig_to_exp args) in *. clearbody l.
  assert (O : (forall x a, In x ["Sin"; "Cos"; "Tan"]%string -> h = sys x -> l = [a] -> False) -> ~ has_trig (EExpr (h :: l))).
  { intros K T. apply trig_expr in T. destruct T as [(x & a & I & E & F)|(y & I & T)]; [exact (K x a I E F)|exact (G y I T)]. }
  unfold to_exp_inner. destruct h as [h|h|n|n d|f|a1 a2|hl]; try (apply O; intros x a _ E; discriminate E).
  destruct l as [|a [|b t]]; try (apply O; intros x y _ _ E; discriminate E).
  assert (Ga : ~ has_trig a) by (apply G; left; reflexivity).
  destruct (String.eqb_spec h (sysname "Cos")) as [->|N1]; [no_trig|].
  destruct (String.eqb_spec h (sysname "Sin")) as [->|N2]; [no_trig|].
  destruct (String.eqb_spec h (sysname "Tan")) as [->|N3]; [no_trig|].
  apply O. intros x y I E _. unfold sys in E. injection E as ->. destruct I as [<-|[<-|[<-|[]]]]; congruence.
Qed.
Print Assumptions C119_no_trig_left.

(* The rules for powers of E and FullSimplify's rule keep the value: E^Log[a]
   where a is not 0, E^(n I Pi) for every integer n. *)
Lemma cexp_add v w : cexp (cadd v w) = cmul (cexp v) (cexp w).
Proof. apply cplx_eq; cbn [cexp cadd cmul fst snd]; rewrite exp_plus, ?cos_plus, ?sin_plus; ring. Qed.
Lemma cexp_clog w : w <> real 0 -> cexp (clog w) = w.
Proof.
  intro N. destruct w as [a b]. assert (H : 0 < a * a + b * b).
  { destruct (Req_dec a 0) as [->|]; [|nra]. destruct (Req_dec b 0) as [->|]; [|nra]. exfalso. apply N. reflexivity. }
  unfold clog, cexp, cabs, carg. cbn [fst snd]. set (r := sqrt (a * a + b * b)).
  assert (R0 : 0 < r) by (apply sqrt_lt_R0, H). assert (RR : r * r = a * a + b * b) by (apply sqrt_sqrt; lra).
  rewrite exp_ln by exact R0.
  assert (B : -1 <= a / r <= 1).
  { assert (A2 : - r <= a <= r) by nra. split.
    - apply Rmult_le_reg_r with r; [exact R0|]. unfold Rdiv. rewrite Rmult_assoc, Rinv_l by lra. lra.
    - apply Rmult_le_reg_r with r; [exact R0|]. unfold Rdiv. rewrite Rmult_assoc, Rinv_l by lra. lra. }
  assert (C : cos (acos (a / r)) = a / r) by (apply cos_acos, B).
  assert (Q : r * sin (acos (a / r)) = Rabs b).
  { rewrite sin_acos by exact B. apply Rsqr_inj.
    - apply Rmult_le_pos; [lra|apply sqrt_pos].
    - apply Rabs_pos.
    - rewrite Rsqr_mult, Rsqr_sqrt.
      + rewrite <- Rsqr_abs. unfold Rsqr. replace (b * b) with (r * r - a * a) by lra. field. lra.
      + unfold Rsqr. replace (1 - a / r * (a / r)) with ((r * r - a * a) * / (r * r)) by (field; lra).
        apply Rmult_le_pos; [nra|]. left. apply Rinv_0_lt_compat. nra. }
  destruct (Rle_dec 0 b) as [P|P].
  - rewrite C. rewrite Q, Rabs_right by lra. unfold Rdiv. f_equal. field. lra.
  - rewrite cos_neg, sin_neg, C. rewrite <- Ropp_mult_distr_r, Q, Rabs_left by lra. f_equal; [|ring]. field. lra.
Qed.
Lemma cexp_i_pi n : cexp (cmul (0, IZR n) (real PI)) = real (IZR (- (n mod 2 * 2 - 1))).
Proof.
  assert (E : cmul (0, IZR n) (real PI) = (0, IZR n * PI)) by ceq. rewrite E. unfold cexp. cbn [fst snd]. rewrite exp_0.
  assert (D : (n = 2 * (n / 2) + n mod 2)%Z) by (apply Z.div_mod; lia). set (k := (n / 2)%Z) in *. clearbody k.
  assert (M : (0 <= n mod 2 < 2)%Z) by (apply Z.mod_pos_bound; lia). set (m := (n mod 2)%Z) in *. clearbody m.
  rewrite D. rewrite plus_IZR, mult_IZR. replace ((2 * IZR k + IZR m) * PI) with (IZR m * PI + 2 * IZR k * PI) by ring.
  assert (P : cos (IZR m * PI + 2 * IZR k * PI) = cos (IZR m * PI) /\ sin (IZR m * PI + 2 * IZR k * PI) = sin (IZR m * PI)).
  { destruct (Z_le_gt_dec 0 k) as [K|K].
    - rewrite <- (Z2Nat.id k K), <- INR_IZR_INZ. split; [apply cos_period|apply sin_period].
    - set (t := IZR m * PI + 2 * IZR k * PI). assert (T : IZR m * PI = t + 2 * INR (Z.to_nat (- k)) * PI).
      { rewrite INR_IZR_INZ, Z2Nat.id by lia. unfold t. rewrite opp_IZR. ring. }
      rewrite T. split; symmetry; [apply cos_period|apply sin_period]. }
  destruct P as [-> ->]. assert (C : m = 0%Z \/ m = 1%Z) by lia. destruct C as [-> | ->].
  - rewrite Rmult_0_l, cos_0, sin_0. change (- (0 * 2 - 1))%Z with 1%Z. ceq.
  - rewrite !Rmult_1_l, cos_PI, sin_PI. change (- (1 * 2 - 1))%Z with (-1)%Z. ceq.
Qed.
(* no logarithm of 0 is taken in E^Log[a] and in E^(Log[a] + ...) *)
Definition logs_defined (z : ex -> cplx) (e : ex) : Prop :=
  forall a, (e = cPower eE (app1 "Log" a) \/ exists l, e = cPower eE (cPlus l) /\ In (app1 "Log" a) l) -> cval z a <> real 0.
Theorem C119_exponentials : forall z e e', standard z -> exp_rule e e' -> logs_defined z e -> cval z e' = cval z e.
Proof.
  intros z e e' (_ & Co & _) R L. destruct R as [l a rest P _|a|l n P|l s P].
  - rewrite w_epow, (w_plus_perm z _ _ P), w_plusc, w_log, cexp_add, w_times2, w_epow. f_equal. symmetry. apply cexp_clog.
    apply L. right. exists l. split; [reflexivity|]. apply (Permutation_in _ (Permutation_sym P)). left. reflexivity.
  - rewrite w_epow, w_log. symmetry. apply cexp_clog, L. left. reflexivity.
  - rewrite w_epow, (w_times_perm z _ _ P), w_times2, w_cplx, !w_int, w_pi.
    replace (cadd (real 0) (cmul ci (real (IZR n)))) with (0, IZR n) by ceq. rewrite cexp_i_pi. reflexivity.
  - rewrite (w_plus_perm z _ _ P), w_plus2, w_times2, !w_epow, w_times2, !w_int.
    change (cval z (app1 "Cosh" (ESym s))) with (z (app1 "Cosh" (ESym s))). rewrite Co.
    replace (cmul (real (-1)) (cval z (ESym s))) with (copp (cval z (ESym s))) by (unfold copp; ceq).
    set (p := cexp (cval z (ESym s))). set (q := cexp (copp (cval z (ESym s)))). clearbody p q. apply cplx_eq; cbn [cadd cmul real fst snd]; field.
Qed.
Print Assumptions C119_exponentials.

(* ---- the hypotheses can be met ---- *)
(* a value for every expression: that of cval, with Tan and Cosh *)
Fixpoint total (r : string -> cplx) (e : ex) : cplx :=
  match e with
  | EInt n => real (IZR n)
  | ERat n d => real (IZR n / IZR d)
  | ECplx a b => cadd (total r a) (cmul ci (total r b))
  | ESym s => if is_fn s "Pi" then real PI else if is_fn s "E" then real (exp 1) else r s
  | EExpr (ESym h :: args) =>
      if is_fn h "Plus" then csum (List.map (total r) args)
      else if is_fn h "Times" then cprod (List.map (total r) args)
      else match args with
           | [a] => match fn1 h (total r a) with
                    | Some v => v
                    | None => if is_fn h "Tan" then cmul (csin (total r a)) (cinv (ccos (total r a)))
                              else if is_fn h "Cosh" then cmul (real (1 / 2)) (cadd (cexp (total r a)) (cexp (copp (total r a))))
                              else real 0
                    end
           | [a; b] =>
               if is_fn h "Power" then
                 match b with
                 | EInt n => cpow_Z (total r a) n
                 | _ => cpowc (total r a) (total r b)
                 end
               else real 0
           | _ => real 0
           end
  | _ => real 0
  end.

Definition other_values (r : string -> cplx) (e : ex) : cplx :=
  match e with
  | ESym s => r s
  | EExpr [ESym h; a] => if is_fn h "Tan" then cmul (csin (total r a)) (cinv (ccos (total r a)))
                         else if is_fn h "Cosh" then cmul (real (1 / 2)) (cadd (cexp (total r a)) (cexp (copp (total r a))))
                         else real 0
  | _ => real 0
  end.
Lemma cval_total r e : cval (other_values r) e = total r e.
Proof.
  induction e as [s|s|n|n d|f|a1 a2 IH1 IH2|l IH] using ex_ind'; try reflexivity.
  - cbn [cval total]. rewrite IH1, IH2. reflexivity.
  - destruct l as [|h args]; [reflexivity|]. inversion IH as [|? ? _ IH']; subst.
    assert (M : List.map (cval (other_values r)) args = List.map (total r) args).
    { clear - IH'. induction IH' as [|a l E _ IH]; [reflexivity|]. cbn [List.map]. rewrite E, IH. reflexivity. }
    destruct h as [s|s|n|n d|f|a1 a2|l].
    1: { cbn [cval]. rewrite M. destruct args as [|a [|b [|c t]]]; cbn [total].
      - destruct (is_fn s "Plus"); [reflexivity|]; destruct (is_fn s "Times"); reflexivity.
      - inversion IH' as [|? ? Ea _]; subst. rewrite Ea. destruct (is_fn s "Plus"); [reflexivity|]. destruct (is_fn s "Times"); [reflexivity|].
        destruct (fn1 s (total r a)); reflexivity.
      - inversion IH' as [|? ? Ea Eb']; subst. inversion Eb' as [|? ? Eb _]; subst. rewrite Ea, Eb.
        destruct (is_fn s "Plus"); [reflexivity|]. destruct (is_fn s "Times"); [reflexivity|]. destruct (is_fn s "Power"); reflexivity.
      - destruct (is_fn s "Plus"); [reflexivity|]; destruct (is_fn s "Times"); reflexivity. }
    all: cbn [cval total other_values]; destruct args as [|a [|b t]]; reflexivity.
Qed.
Lemma other_values_standard r : standard (other_values r).
Proof.
  split; [|split].
  - intro a. rewrite cval_total. reflexivity.
  - intro a. rewrite cval_total. reflexivity.
  - intros h args args' F. destruct h as [s|s|n|n d|f|a1 a2|hl]; try (destruct F as [|a b m m' _ [|]]; reflexivity).
    destruct F as [|a b l l' E [|]]; try reflexivity. rewrite !cval_total in E. cbn [other_values]. rewrite E. reflexivity.
Qed.
(* Sin[x + Tan[y]] *)
Example nested_trig :
  trig_to_exp (app1 "Sin" (cPlus [ESym "x"; tan_ (ESym "y")])) <> app1 "Sin" (cPlus [ESym "x"; tan_ (ESym "y")]) /\
  forall r, cval (other_values r) (trig_to_exp (app1 "Sin" (cPlus [ESym "x"; tan_ (ESym "y")]))) =
            csin (cadd (r "x"%string) (cadd (cmul (csin (r "y"%string)) (cinv (ccos (r "y"%string)))) (real 0))).
Proof.
  split; [discriminate|]. intro r. rewrite C119_trig_to_exp by apply other_values_standard. reflexivity.
Qed.
(* E^(Log[x] + y) is x E^y *)
Example exp_of_log : forall r, r "x"%string <> real 0 ->
  cval (other_values r) (cTimes [ESym "x"; cPower eE (cPlus [ESym "y"])]) = cval (other_values r) (cPower eE (cPlus [app1 "Log" (ESym "x"); ESym "y"])).
Proof.
  intros r N. apply C119_exponentials.
  - apply other_values_standard.
  - apply er_log_plus; [reflexivity|discriminate].
  - intros a [E|(l & E & I)].
    + discriminate E.
    + injection E as <-. destruct I as [I|[I|[]]]; [|discriminate I]. injection I as <-. exact N.
Qed.
(* E^(3 I Pi) is -1 *)
Example exp_3_pi : exp_rule (cPower eE (cTimes [ECplx (EInt 0) (EInt 3); ePi])) (EInt (-1)).
Proof. exact (er_pi _ 3 (Permutation_refl _)). Qed.
