(* Property theorems: evaluation control (C34 - C38, C47). *)
From Verif Require Import M_Syntax M_Float M_Hash M_Sort M_Num M_Arith M_Compare M_Match M_Defs M_Eval S_Eval P_Hash P_MatchFuel P_Eval P_Eval2 P_Eval3.
Open Scope nat_scope.

(* A configuration and a state for the examples: the standard heads with their
   attributes (resources/*.m), and user symbols f, g, x, y without values. *)
Definition c0 : cfg := Cfg (fun _ => 0%Z) (fun _ => ""%string) (fun _ _ => false) (fun _ => None).
Lemma c0_mono : cfg_mono c0. Proof. intros n b H. discriminate H. Qed.
Definition entry (n : string) (l : list string) (b : bool) : string * def :=
  (sysname n, Def [] (strings_to_attributes l) None b).
Definition es0 : estate := ES (State
  [ entry "And" ["Flat"; "HoldAll"; "OneIdentity"; "Protected"] true;
    entry "Or" ["Flat"; "HoldAll"; "OneIdentity"; "Protected"] true;
    entry "Not" ["Protected"] true;
    entry "If" ["HoldRest"; "Protected"] true;
    entry "While" ["HoldAll"; "Protected"] true;
    entry "Which" ["HoldAll"; "Protected"] true;
    entry "Switch" ["HoldRest"; "Protected"; "ReadProtected"] true;
    entry "CompoundExpression" ["HoldAll"; "ReadProtected"; "Protected"] true;
    entry "Hold" ["HoldAll"; "Protected"] false;
    entry "HoldComplete" ["HoldAllComplete"; "Protected"] false;
    entry "Set" ["HoldFirst"; "SequenceHold"; "Protected"] true;
    entry "SetDelayed" ["HoldAll"; "SequenceHold"; "Protected"] true;
    entry "Throw" ["Protected"] true;
    entry "Catch" ["HoldFirst"; "Protected"] true;
    entry "Function" ["HoldAll"; "Protected"] false;
    entry "ReplaceAll" ["Protected"] true;
    entry "Rule" ["SequenceHold"; "Protected"] false;
    entry "Plus" ["Flat"; "Listable"; "NumericFunction"; "OneIdentity"; "Orderless"; "Protected"] true;
    entry "Times" ["Flat"; "Listable"; "NumericFunction"; "OneIdentity"; "Orderless"; "Protected"] true;
    entry "Equal" ["Protected"] true;
    ("Global`flat"%string, Def [] (strings_to_attributes ["Flat"]) None false);
    ("Global`lst"%string, Def [] (strings_to_attributes ["Listable"]) None false) ]%string false) None None.
Definition gl (s : string) : ex := ESym (append "Global`" s).
Definition fn (h : string) (l : list ex) : ex := EExpr (sys h :: l).
Definition uf (h : string) (l : list ex) : ex := EExpr (gl h :: l).

(* ---- C34 ---- *)
(* In one pass over a function call, for every evaluator and every set of
   attributes, exactly the protected positions are kept and all others are
   evaluated from left to right. *)
Theorem C34_positions : forall ev names es parts r es',
  eval_parts ev (strings_to_attributes names) 0 es parts = Ret (inr r, es') <->
  arg_pass ev (holds names) 0 es parts r es'.
Proof. intros. apply eval_parts_ok. Qed.
Print Assumptions C34_positions.

(* A function without rules evaluates to itself with the unprotected arguments
   replaced by their values; protected arguments are returned as they were. *)
Theorem C34_function_call : forall c es h names args args' es', cfg_mono c ->
  plain_fn es h names -> plain_fn es' h names -> no_value es h -> no_value es' h -> es_thrown es = None -> es_thrown es' = None ->
  (forall a, In a ["NumericFunction"; "Flat"; "Orderless"; "Listable"]%string -> ~ In a names) ->
  evals_args c (holds names) 1 es args args' es' -> evals_args c (holds names) 1 es' args' args' es' ->
  Forall ordinary_arg args' ->
  evals_to c es (EExpr (ESym h :: args)) (EExpr (ESym h :: args')) es' \/ hash (EExpr (ESym h :: args)) = 0%N.
Proof.
  intros c es h names args args' es' Hc P P' NV NV' T T' Ha E E' O.
  destruct (N.eq_dec (hash (EExpr (ESym h :: args))) 0%N) as [Z|Z]; [right; exact Z|left].
  assert (Hd : forall es0, no_value es0 h -> es_thrown es0 = None -> forall l r es1, evals_args c (holds names) 1 es0 l r es1 ->
     evals_args c (holds names) 0 es0 (ESym h :: l) (ESym h :: r) es1).
  { intros e0 N0 T0 l r e1 H. destruct (part_held (strings_to_attributes names) 0) eqn:Q.
    - apply EA_held; [apply part_held_spec, Q|exact H].
    - apply (EA_eval _ _ _ _ _ _ e0); [intro K; apply part_held_spec in K; congruence|apply value_sym, N0|exact T0|exact H]. }
  assert (P1 : forall e0 e1 l r, plain_fn e0 h names -> plain_fn e1 h names -> evals_args c (holds names) 0 e0 (ESym h :: l) (ESym h :: r) e1 -> Forall ordinary_arg r ->
     exists n, forall m, n <= m -> pass c m (run c m None) e0 (ESym h :: l) = Ret (inr (EExpr (ESym h :: r), false), e1)).
  { intros e0 e1 l r Q0 Q1 H Or. destruct (evals_args_large c _ _ _ _ _ _ Hc H) as [n K]. exists n. intros m Hm.
    rewrite (pass_symbol c m (run c m None) e0 h names l (ESym h :: r) e1); try (apply Ha; cbn; tauto).
    - rewrite (plain_apply c m _ e1 h names) by exact Q1. reflexivity.
    - apply (plain_attrs _ _ _ Q0).
    - apply K, Hm.
    - constructor; [apply ordinary_sym|exact Or].
    - discriminate. }
  assert (F : exists n, forall m, n <= m -> pass c m (run c m None) es' (ESym h :: args') = Ret (inr (EExpr (ESym h :: args'), false), es')).
  { apply P1; auto. }
  assert (V : value c es' (EExpr (ESym h :: args'))) by (apply (evals_fixed c es' _ false Hc F)).
  destruct (P1 es es' args args' P P' (Hd es NV T _ _ _ E) O) as [n K].
  destruct (N.eq_dec (hash (EExpr (ESym h :: args'))) (hash (EExpr (ESym h :: args)))) as [Q|Q].
  - exists (S (S (S n))). unfold eval.
    change (run c (S (S (S n))) None es (EExpr (ESym h :: args))) with (run c (S (S n)) (Some (0%N, false)) es (EExpr (ESym h :: args))).
    rewrite run_expr by exact Z. rewrite (K (S n)) by lia. cbn [obind]. apply run_stop, Q.
  - destruct F as [n1 F]. exists (S (S (S (S (n + n1))))). unfold eval.
    change (run c (S (S (S (S (n + n1))))) None es (EExpr (ESym h :: args))) with (run c (S (S (S (n + n1)))) (Some (0%N, false)) es (EExpr (ESym h :: args))).
    rewrite run_expr by exact Z. rewrite (K (S (S (n + n1)))) by lia. cbn [obind].
    rewrite run_expr by exact Q. rewrite (F (S (n + n1))) by lia. cbn [obind]. apply run_stop. reflexivity.
Qed.
Print Assumptions C34_function_call.

(* Hold[...] and its relatives evaluate nothing at all: for every arguments,
   even those whose evaluation would not end or would kill the process. *)
Theorem C34_hold_inert : forall c es h names args, cfg_mono c -> plain_fn es h names ->
  In "HoldAll"%string names \/ In "HoldAllComplete"%string names ->
  (forall a, In a ["NumericFunction"; "Flat"; "Orderless"; "Listable"]%string -> ~ In a names) ->
  Forall ordinary_arg args ->
  evals_to c es (EExpr (ESym h :: args)) (EExpr (ESym h :: args)) es.
Proof.
  intros c es h names args Hc P Hh Ha O. apply (evals_fixed c es _ false Hc). exists 0. intros m _.
  rewrite (pass_symbol c m (run c m None) es h names args (ESym h :: args) es); try (apply Ha; cbn; tauto).
  - rewrite (plain_apply c m _ es h names) by exact P. reflexivity.
  - apply (plain_attrs _ _ _ P).
  - apply arg_pass_hold. intro i. apply holds_all, Hh.
  - constructor; [apply ordinary_sym|exact O].
  - discriminate.
Qed.
Print Assumptions C34_hold_inert.
Lemma plain_hold : plain_fn es0 (sysname "Hold") ["HoldAll"; "Protected"]%string.
Proof. left. eexists. split; [vm_compute; reflexivity|]. repeat split. Qed.
Ltac not_headed := let l := fresh in let E := fresh in intros [l E]; vm_compute in E; first [discriminate E|injection E; intros; congruence].
(* Hold[While[True, x]] although the loop never ends, Hold[x = 1] without assigning *)
Example C34_ex : evals_to c0 es0 (fn "Hold" [fn "While" [sTrue; gl "x"]; fn "Set" [gl "x"; EInt 1]])
                                  (fn "Hold" [fn "While" [sTrue; gl "x"]; fn "Set" [gl "x"; EInt 1]]) es0.
Proof.
  apply (C34_hold_inert c0 es0 _ ["HoldAll"; "Protected"]%string); [exact c0_mono|exact plain_hold|cbn; tauto| |].
  - cbn. intros a [<-|[<-|[<-|[<-|[]]]]] K; repeat (destruct K as [K|K]; [discriminate K|]); exact K.
  - repeat constructor; not_headed.
Qed.
(* f[If[True, 1, 2], And[]] evaluates its arguments; Set holds only the first *)
Example C34_ex2 : exists n, eval c0 n es0 (uf "f" [fn "If" [sTrue; EInt 1; EInt 2]; fn "And" []]) = Ret (uf "f" [EInt 1; sTrue], es0).
Proof. exists 30. vm_compute. reflexivity. Qed.
(* HoldComplete loses an Unevaluated wrapper: mergeSequences is not guarded *)
Theorem C34_unevaluated_stripped_refuted : evals_to c0 es0
  (fn "HoldComplete" [fn "Unevaluated" [gl "x"]]) (fn "HoldComplete" [gl "x"]) es0.
Proof. exists 30. vm_compute. reflexivity. Qed.
Print Assumptions C34_unevaluated_stripped_refuted.
