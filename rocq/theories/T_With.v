(* Property theorems: With (C61). *)
From Verif Require Import M_Syntax M_Float M_Hash M_Sort M_Num M_Arith M_Compare M_Match M_Defs M_Eval S_Eval S_Match S_Replace P_Hash P_MatchFuel P_Eval P_Eval2 P_Eval3 P_Eval4 P_Replace T_Eval T_Eval3 T_Replace.
Open Scope nat_scope.

(* With[{x1 = v1, x2 := v2, ...}, body]; the flag says := *)
Definition assignment (d : bool * (ex * ex)) : ex :=
  EExpr [sys (if fst d then "SetDelayed" else "Set"); fst (snd d); snd (snd d)].
Definition with_ex (vars : list (bool * (ex * ex))) (body : ex) : ex :=
  fn "With" [mkList (map assignment vars); body].
Definition with_attrs : list string := ["HoldAll"; "Protected"]%string.

Lemma with_rules_ok vars : with_rules (map assignment vars) = Some (map snd vars).
Proof. induction vars as [|[d [x v]] t IH]; [reflexivity|]. cbn [map with_rules]. rewrite IH. destruct d; reflexivity. Qed.
Lemma apply_with_ok env vars body : apply_with env [mkList (map assignment vars); body] = Some (rules_replace_all env (map snd vars) body).
Proof. unfold apply_with. replace (args_of (mkList (map assignment vars)) nList) with (Some (map assignment vars)) by reflexivity. rewrite with_rules_ok. reflexivity. Qed.

Lemma with_call c es vars body result w es1 : cfg_mono c -> ready es "With" with_attrs ->
  ordinary_arg body -> rules_replace_all (env_of c es) (map snd vars) body = result ->
  hash_ok (with_ex vars body) -> no_clash (with_ex vars body) result ->
  evals_to c es result w es1 -> evals_to c es (with_ex vars body) w es1.
Proof.
  intros Hc [S0 [NR [NV T]]] Ob ER Hz Nc Ew.
  apply (evals_next c es [sys "With"; mkList (map assignment vars); body] result es w es1 Hc Hz Nc); [|exact Ew].
  apply (system_pass c es (sysname "With") with_attrs [mkList (map assignment vars); body] [mkList (map assignment vars); body] (with_fn c) _ es es Hc S0 (ex_intro _ _ S0));
    try (intros [K|[K|[]]]; discriminate K); auto.
  - apply head_arg; auto. apply held_rest. intros j _. left. left. reflexivity.
  - constructor; [repeat split; intros [l K]; discriminate K|]. constructor; [exact Ob|constructor].
  - exists 0. intros m _. exists [sys "With"; mkList (map assignment vars); body]. unfold with_fn. cbn [tl].
    rewrite apply_with_ok, ER. reflexivity.
Qed.

(* The value of With[{x = v}, body] is the value of body with v, not evaluated,
   in place of every x; nothing else is evaluated before. *)
Theorem C61_with_one : forall c es d x v body w es1, cfg_mono c -> ready es "With" with_attrs ->
  ordinary_arg body ->
  let result := atom_subst "" (ESym x) v body in
  collision_free (ESym x :: subterms body ++ subterms result) ->
  hash_ok (with_ex [(d, (ESym x, v))] body) -> no_clash (with_ex [(d, (ESym x, v))] body) result ->
  evals_to c es result w es1 -> evals_to c es (with_ex [(d, (ESym x, v))] body) w es1.
Proof.
  intros c es d x v body w es1 Hc R Ob result C Hz Nc Ew. apply (with_call c es _ body result w es1); auto.
  cbn [map snd]. unfold rules_replace_all. cbn [fold_left]. apply C27_constant_rule; [exact Logic.I|exact C].
Qed.
Print Assumptions C61_with_one.

(* Several variables.  Partial: no value contains a later variable. *)
Theorem C61_with_partial : forall c es vars body w es1, cfg_mono c -> ready es "With" with_attrs ->
  ordinary_arg body -> Forall (fun d => exists x, fst (snd d) = ESym x) vars ->
  let rules := map snd vars in let result := simult rules body in
  independent rules ->
  (forall k x, In x (flat_map subterms (stages (firstn k rules) body)) -> ~ headed x "") ->
  collision_free (flat_map subterms (stages rules body)) ->
  hash_ok (with_ex vars body) -> no_clash (with_ex vars body) result ->
  evals_to c es result w es1 -> evals_to c es (with_ex vars body) w es1.
Proof.
  intros c es vars body w es1 Hc R Ob _ rules result Ir Hh C Hz Nc Ew. apply (with_call c es _ body result w es1); auto.
  apply C27_rule_list_partial; assumption.
Qed.
Print Assumptions C61_with_partial.

Definition es_with : estate :=
  ES (State (entry "With" with_attrs true :: st_defs (es_defs es0)) false) None None.
Lemma with_ready : ready es_with "With" with_attrs.
Proof.
  split; [eexists; split; [vm_compute; reflexivity|split; reflexivity]|].
  split; [intros d K; vm_compute in K; injection K as <-; reflexivity|split; vm_compute; reflexivity].
Qed.
(* With[{x = 2}, {x, f[x, y]}] *)
Example C61_ex : evals_to c0 es_with (with_ex [(false, (gl "x", EInt 2))] (mkList [gl "x"; uf "f" [gl "x"; gl "y"]]))
   (mkList [EInt 2; uf "f" [EInt 2; gl "y"]]) es_with.
Proof.
  apply (C61_with_one c0 es_with false "Global`x" (EInt 2)); [exact c0_mono|exact with_ready| | | | |].
  - repeat split; intros [l K]; discriminate K.
  - apply collision_freeb_ok. vm_compute. reflexivity.
  - intro K. vm_compute in K. discriminate K.
  - split; intro K; vm_compute in K; discriminate K.
  - exists 30. vm_compute. reflexivity.
Qed.
(* With[{x := 2, y = f[x]}, {x, y}] *)
Example C61_ex_two : evals_to c0 es_with (with_ex [(true, (gl "x", EInt 2)); (false, (gl "y", uf "f" [gl "x"]))] (mkList [gl "x"; gl "y"]))
   (mkList [EInt 2; uf "f" [gl "x"]]) es_with.
Proof.
  apply (C61_with_partial c0 es_with); [exact c0_mono|exact with_ready| | | | | | | |].
  - repeat split; intros [l K]; discriminate K.
  - constructor; [eexists; reflexivity|]. constructor; [eexists; reflexivity|constructor].
  - cbn [map snd independent]. split; [exact Logic.I|]. split; [|split; [exact Logic.I|split; [intros q w []|exact Logic.I]]].
    intros q w [K|[]]. injection K as <- _. cbn. intros [K|[]]. discriminate K.
  - intros k x Hx [l ->]. destruct k as [|[|[|k]]]; vm_compute in Hx; repeat (destruct Hx as [Hx|Hx]; [discriminate Hx|]); exact Hx.
  - apply collision_freeb_ok. vm_compute. reflexivity.
  - intro K. vm_compute in K. discriminate K.
  - split; intro K; vm_compute in K; discriminate K.
  - exists 30. vm_compute. reflexivity.
Qed.

(* With[{x = y, y = 1}, x] should be y and is 1: the variables are replaced one
   after the other *)
Theorem C61_sequential_refuted :
  evals_to c0 es_with (with_ex [(false, (gl "x", gl "y")); (false, (gl "y", EInt 1))] (gl "x")) (EInt 1) es_with /\
  simult [(gl "x", gl "y"); (gl "y", EInt 1)] (gl "x") = gl "y".
Proof. split; [exists 40; vm_compute; reflexivity|reflexivity]. Qed.
Print Assumptions C61_sequential_refuted.
(* the value is not evaluated once but at every occurrence:
   With[{x = (y = y; z)}, Hold[x]] keeps the unevaluated value *)
Theorem C61_value_not_evaluated_refuted :
  evals_to c0 es_with (with_ex [(false, (gl "x", fn "If" [sTrue; EInt 1; EInt 2]))] (fn "Hold" [gl "x"]))
    (fn "Hold" [fn "If" [sTrue; EInt 1; EInt 2]]) es_with.
Proof. exists 40. vm_compute. reflexivity. Qed.
Print Assumptions C61_value_not_evaluated_refuted.
(* inner variables are not renamed: With[{x = 1}, With[{x = 2}, x]] becomes
   With[{1 = 2}, 1], i.e. 2 is replaced for 1 and the inner x is lost *)
Theorem C61_inner_variable_refuted :
  rules_replace_all (env_of c0 es_with) [(gl "x", EInt 1)] (with_ex [(false, (gl "x", EInt 2))] (gl "x")) =
  with_ex [(false, (EInt 1, EInt 2))] (EInt 1).
Proof. vm_compute. reflexivity. Qed.
Print Assumptions C61_inner_variable_refuted.
