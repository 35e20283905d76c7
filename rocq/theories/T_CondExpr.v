(* Property theorems: ConditionalExpression in numeric functions (C117). *)
From Verif Require Import M_Syntax M_Float M_Hash M_Order M_Sort M_Num M_Arith M_Compare M_Match M_Defs S_Defs P_Defs M_Eval S_Eval S_Iter
  P_Hash P_MatchFuel P_Eval P_Eval2 P_Eval3 P_Eval4 P_Iter T_Eval T_Eval2 T_Eval3 T_Eval4 T_Iter.
Open Scope nat_scope.

(* ---- specification ---- *)
Definition conditional (v q : ex) : ex := fn "ConditionalExpression" [v; q].
(* the arguments of a call, their unconditional values and all their
   conditions, both in the order of the arguments *)
Inductive separated : list ex -> list ex -> list ex -> Prop :=
| SE_nil : separated [] [] []
| SE_cond v q args vs qs : separated args vs qs -> separated (conditional v q :: args) (v :: vs) (q :: qs)
| SE_plain e args vs qs : (forall v q, e <> conditional v q) -> separated args vs qs -> separated (e :: args) (e :: vs) qs.

Lemma cond_expr_some e v q : cond_expr e = Some (v, q) <-> e = conditional v q.
Proof.
  unfold cond_expr, conditional, fn. split.
  - destruct (args_of e (sysname "ConditionalExpression")) as [[|a [|b [|x y]]]|] eqn:E; try discriminate.
    intro K. injection K as -> ->. apply args_of_some, E.
  - intros ->. unfold sys. rewrite args_of_expr, String.eqb_refl. reflexivity.
Qed.
Lemma cond_expr_none e : cond_expr e = None -> forall v q, e <> conditional v q.
Proof. intros N v q E. apply cond_expr_some in E. congruence. Qed.

(* every argument list can be taken apart, in one way *)
Lemma separated_total : forall args, exists vs qs, separated args vs qs.
Proof.
  induction args as [|e l (vs & qs & IH)]; [exists [], []; constructor|].
  destruct (cond_expr e) as [[v q]|] eqn:E.
  - apply (proj1 (cond_expr_some e v q)) in E. subst e. exists (v :: vs), (q :: qs). constructor; exact IH.
  - exists (e :: vs), qs. constructor; [apply cond_expr_none, E|exact IH].
Qed.
Lemma separated_parts args vs qs : separated args vs qs ->
  map (fun e => match cond_expr e with Some (v, _) => v | None => e end) args = vs /\
  flat_map (fun e => match cond_expr e with Some (_, q) => [q] | None => [] end) args = qs /\
  existsb (fun e => match cond_expr e with Some _ => true | None => false end) args = match qs with [] => false | _ => true end.
Proof.
  induction 1 as [|v q args vs qs _ (I1 & I2 & I3)|e args vs qs N _ (I1 & I2 & I3)]; [repeat split| |]; cbn [map flat_map existsb].
  - rewrite (proj2 (cond_expr_some (conditional v q) v q) eq_refl), I1, I2. repeat split.
  - destruct (cond_expr e) as [[v q]|] eqn:E.
    + exfalso. apply (N v q), cond_expr_some, E.
    + rewrite I1, I2. repeat split. exact I3.
Qed.
Lemma separated_propagates h args vs qs : separated args vs qs -> propagate_conditionals (h :: args) =
  match qs with [] => None | _ => Some (conditional (EExpr (h :: vs)) (fn "And" qs)) end.
Proof.
  intro S. destruct (separated_parts _ _ _ S) as (E1 & E2 & E3). unfold propagate_conditionals. rewrite E3. destruct qs as [|q qs]; [reflexivity|].
  rewrite E1, E2. reflexivity.
Qed.

(* ---- C117 ---- *)
(* A call of a numeric function one of whose arguments is conditional has
   exactly the evaluations of the call with the plain values, under the
   conjunction of all the conditions; nothing is evaluated before. *)
Theorem C117_moved_out : forall c es h names args vs qs, cfg_mono c ->
  sym_attrs es h = strings_to_attributes names -> In "NumericFunction"%string names -> separated args vs qs -> qs <> [] ->
  hash_ok (EExpr (ESym h :: args)) -> forall v es',
  evals_to c es (EExpr (ESym h :: args)) v es' <-> evals_to c es (conditional (EExpr (ESym h :: vs)) (fn "And" qs)) v es'.
Proof.
  intros c es h names args vs qs Hc A N S Ne Hz v es'. apply has_numeric in N.
  assert (K : forall k, run c (Datatypes.S (Datatypes.S k)) None es (EExpr (ESym h :: args)) =
    run c k None es (conditional (EExpr (ESym h :: vs)) (fn "And" qs))).
  { intro k. change (run c (Datatypes.S (Datatypes.S k)) None es (EExpr (ESym h :: args))) with (run c (Datatypes.S k) (Some (0%N, false)) es (EExpr (ESym h :: args))).
    rewrite run_expr by exact Hz. unfold pass. cbv zeta. rewrite A, N, (separated_propagates _ _ _ _ S).
    destruct qs as [|q qs]; [congruence|]. 
    destruct (run c k None es _) as [[r s]| |]; reflexivity. }
  unfold evals_to, eval. split; intros [n H].
  - destruct n as [|[|n]]; [discriminate H|discriminate H|]. rewrite K in H. exists n. exact H.
  - exists (Datatypes.S (Datatypes.S n)). rewrite K. exact H.
Qed.
Print Assumptions C117_moved_out.

(* the value: the call with the plain values, under what the conjunction gives *)
Theorem C117_value : forall c es h names args vs qs w es1 q es2, cfg_mono c ->
  sym_attrs es h = strings_to_attributes names -> In "NumericFunction"%string names -> separated args vs qs -> qs <> [] ->
  plain_fn es (sysname "ConditionalExpression") [] -> plain_fn es2 (sysname "ConditionalExpression") [] ->
  no_value es (sysname "ConditionalExpression") -> no_value es2 (sysname "ConditionalExpression") ->
  es_thrown es = None -> evals_to c es (EExpr (ESym h :: vs)) w es1 -> es_thrown es1 = None ->
  evals_to c es1 (fn "And" qs) q es2 -> es_thrown es2 = None -> value c es2 w -> value c es2 q -> ordinary_arg w -> ordinary_arg q ->
  hash_ok (EExpr (ESym h :: args)) -> hash_ok (conditional (EExpr (ESym h :: vs)) (fn "And" qs)) ->
  evals_to c es (EExpr (ESym h :: args)) (conditional w q) es2.
Proof.
  intros c es h names args vs qs w es1 q es2 Hc A N S Ne P P2 NV NV2 T Ew T1 Eq T2 Vw Vq Ow Oq Hz Hz2.
  apply (C117_moved_out c es h names args vs qs Hc A N S Ne Hz).
  destruct (C34_function_call c es (sysname "ConditionalExpression") [] [EExpr (ESym h :: vs); fn "And" qs] [w; q] es2 Hc P P2 NV NV2 T T2) as [K|K].
  - intros a _ [].
  - apply (EA_eval _ _ _ _ _ _ es1); auto; [intros [[]|[[]|[[_ []]|[_ []]]]]|].
    apply (EA_eval _ _ _ _ _ _ es2); auto; [intros [[]|[[]|[[_ []]|[_ []]]]]|constructor].
  - apply (EA_eval _ _ _ _ _ _ es2); auto; [intros [[]|[[]|[[_ []]|[_ []]]]]|].
    apply (EA_eval _ _ _ _ _ _ es2); auto; [intros [[]|[[]|[[_ []]|[_ []]]]]|constructor].
  - repeat constructor; try apply Ow; apply Oq.
  - exact K.
  - exfalso. apply Hz2, K.
Qed.
Print Assumptions C117_value.

(* without a conditional argument nothing is moved: the pass over the call is
   that of a function that is not numeric *)
Theorem C117_nothing_to_move : forall h args, separated args args [] <-> propagate_conditionals (h :: args) = None.
Proof.
  intros h args. split.
  - intro S. rewrite (separated_propagates _ _ _ _ S). reflexivity.
  - intro P. destruct (separated_total args) as (vs & qs & S). rewrite (separated_propagates h _ _ _ S) in P.
    destruct qs as [|q qs]; [|discriminate P]. revert S. clear P. remember [] as z eqn:Z. intro S.
    enough (E : vs = args) by (rewrite E in S; exact S).
    induction S as [|v q args vs qs _ _|e args vs qs N _ IH]; [reflexivity|discriminate Z|]. rewrite IH by exact Z. reflexivity.
Qed.
Print Assumptions C117_nothing_to_move.

(* a condition that is True is not dropped: ConditionalExpression[5, True] is
   a value of its own, and so is ConditionalExpression[5, False] *)
Theorem C117_condition_simplified_refuted : forall c es b, cfg_mono c -> plain_fn es (sysname "ConditionalExpression") [] ->
  no_value es (sysname "ConditionalExpression") -> es_thrown es = None -> b = sTrue \/ b = sFalse -> value c es b ->
  hash_ok (conditional (EInt 5) b) -> value c es (conditional (EInt 5) b).
Proof.
  intros c es b Hc P NV T B Vb Hz.
  destruct (C34_function_call c es (sysname "ConditionalExpression") [] [EInt 5; b] [EInt 5; b] es Hc P P NV NV T T) as [K|K].
  - intros a _ [].
  - apply (EA_eval _ _ _ _ _ _ es); auto; [intros [[]|[[]|[[_ []]|[_ []]]]]|exists 1; reflexivity|].
    apply (EA_eval _ _ _ _ _ _ es); auto; [intros [[]|[[]|[[_ []]|[_ []]]]]|constructor].
  - apply (EA_eval _ _ _ _ _ _ es); auto; [intros [[]|[[]|[[_ []]|[_ []]]]]|exists 1; reflexivity|].
    apply (EA_eval _ _ _ _ _ _ es); auto; [intros [[]|[[]|[[_ []]|[_ []]]]]|constructor].
  - apply Forall_cons; [apply ord_int|]. apply Forall_cons; [|constructor]. destruct B as [-> | ->]; apply ordinary_sym.
  - exact K.
  - exfalso. apply Hz, K.
Qed.
Print Assumptions C117_condition_simplified_refuted.

(* ---- the hypotheses can be met ---- *)
Definition sum_args : list ex := [conditional (EInt 1) (gl "p"); EInt 2; conditional (EInt 4) (gl "q")].
Example sum_separated : separated sum_args [EInt 1; EInt 2; EInt 4] [gl "p"; gl "q"].
Proof.
  apply SE_cond. apply SE_plain; [intros v q; discriminate|]. apply SE_cond. constructor.
Qed.
Example sum_numeric : sym_attrs es0 (sysname "Plus") = strings_to_attributes num_attrs /\ In "NumericFunction"%string num_attrs.
Proof. split; [vm_compute; reflexivity|cbn; tauto]. Qed.
Example sum_conditional : evals_to c0 es0 (fn "Plus" sum_args) (conditional (EInt 7) (fn "And" [gl "p"; gl "q"])) es0.
Proof.
  apply (C117_value c0 es0 (sysname "Plus") num_attrs sum_args [EInt 1; EInt 2; EInt 4] [gl "p"; gl "q"] (EInt 7) es0 _ es0 c0_mono);
    try reflexivity; try (right; split; reflexivity); try hok; try (exists 20; vm_compute; reflexivity).
  - cbn; tauto.
  - exact sum_separated.
  - apply ord_int.
  - repeat split; intros [l E]; discriminate E.
Qed.
Example five_true : value c0 es0 (conditional (EInt 5) sTrue).
Proof.
  apply C117_condition_simplified_refuted; try reflexivity; [exact c0_mono|right; split; reflexivity|left; reflexivity|exists 3; reflexivity|hok].
Qed.
