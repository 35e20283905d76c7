(* Property theorems: selection of branches, exceptions (C38, C47). *)
From Verif Require Import M_Syntax M_Float M_Hash M_Sort M_Num M_Arith M_Compare M_Match M_Defs M_Eval S_Eval P_Hash P_MatchFuel P_Eval P_Eval2 P_Eval3 P_Eval4 T_Eval.
Open Scope nat_scope.

(* a function of the interpreter ready to be called: it has these attributes,
   no rules and no value, and no exception is pending *)
Definition ready (es : estate) (h : string) (names : list string) : Prop :=
  system_fn es (sysname h) names /\ no_rules es (sysname h) /\ no_value es (sysname h) /\ es_thrown es = None.

(* ---- C38 ---- *)
Definition if_attrs : list string := ["HoldRest"; "Protected"]%string.
Lemma not_in_if a : In a ["NumericFunction"; "Flat"; "Orderless"; "Listable"; "HoldFirst"; "HoldAll"; "HoldAllComplete"]%string -> ~ In a if_attrs.
Proof.
  unfold if_attrs. intros I K. cbn in I, K. destruct K as [<-|[<-|[]]];
    repeat (destruct I as [I|I]; [discriminate I|]); exact I.
Qed.
Lemma if_held i : holds if_attrs i <-> 2 <= i.
Proof.
  unfold holds. split.
  - intros [K|[K|[[-> K]|[K _]]]]; [exfalso|exfalso|exfalso|exact K]; revert K; apply not_in_if; cbn; tauto.
  - intro H. right; right; right. split; [exact H|]. unfold if_attrs; cbn; tauto.
Qed.
Lemma if_args c es h a v es1 rest : no_value es h -> es_thrown es = None -> evals_to c es a v es1 -> es_thrown es1 = None ->
  evals_args c (holds if_attrs) 0 es (ESym h :: a :: rest) (ESym h :: v :: rest) es1.
Proof.
  intros NV T E T1. apply head_arg; auto. apply (EA_eval _ _ _ _ _ _ es1); auto.
  - rewrite if_held. lia.
  - apply held_rest. intros j Hj. apply if_held. lia.
Qed.

(* If[cond, t, f]: with a True condition the result is that of t, evaluated in
   the state left by the condition; f is arbitrary and not evaluated.  With a
   False condition the result is that of f, or Null if there is none. *)
Theorem C38_if : forall c es cond (b : bool) es1 t rest v es2, cfg_mono c ->
  ready es "If" if_attrs -> evals_to c es cond (if b then sTrue else sFalse) es1 -> ready es1 "If" if_attrs ->
  length rest <= 1 -> Forall ordinary_arg (t :: rest) ->
  let branch := if b then t else hd sNull rest in
  hash_ok (fn "If" (cond :: t :: rest)) -> no_clash (fn "If" (cond :: t :: rest)) branch ->
  evals_to c es1 branch v es2 -> evals_to c es (fn "If" (cond :: t :: rest)) v es2.
Proof.
  intros c es cond b es1 t rest v es2 Hc [S [NR [NV T]]] Ec [S1 [NR1 [NV1 T1]]] Len O branch Hz Nc Ev.
  apply (evals_next c es (sys "If" :: cond :: t :: rest) branch es1 v es2 Hc Hz Nc); [|exact Ev].
  apply (system_pass c es (sysname "If") if_attrs (cond :: t :: rest) ((if b then sTrue else sFalse) :: t :: rest) (if_fn c) branch es1 es1 Hc S
    (ex_intro _ _ S1)); try (apply not_in_if; cbn; tauto); auto.
  - apply if_args; auto.
  - constructor; [destruct b; apply ordinary_sym|exact O].
  - exists 0. intros m _. exists (sys "If" :: (if b then sTrue else sFalse) :: t :: rest).
    destruct rest as [|f [|g r]]; [| |cbn in Len; lia]; destruct b; reflexivity.
Qed.
Print Assumptions C38_if.
(* an undecided condition leaves If alone, with neither branch evaluated *)
Theorem C38_if_undecided : forall c es cond t rest, cfg_mono c -> ready es "If" if_attrs -> value c es cond ->
  is_equal (c_fmt c) cond sTrue = EqUnk -> ordinary_arg cond -> Forall ordinary_arg (t :: rest) ->
  evals_to c es (fn "If" (cond :: t :: rest)) (fn "If" (cond :: t :: rest)) es.
Proof.
  intros c es cond t rest Hc [S [NR [NV T]]] V U Oc O.
  apply (evals_fixed c es (sys "If" :: cond :: t :: rest) false Hc).
  apply (system_pass c es (sysname "If") if_attrs (cond :: t :: rest) (cond :: t :: rest) (if_fn c) _ es es Hc S
    (ex_intro _ _ S)); try (apply not_in_if; cbn; tauto); auto.
  - apply if_args; auto.
  - exists 0. intros m _. exists (sys "If" :: cond :: t :: rest).
    destruct rest as [|f [|g r]]; cbn [if_fn]; cbv zeta; rewrite ?U; reflexivity.
Qed.
Print Assumptions C38_if_undecided.
Lemma ready_if : ready es0 "If" if_attrs.
Proof.
  split; [eexists; split; [vm_compute; reflexivity|split; reflexivity]|].
  split; [intros d K; vm_compute in K; injection K as <-; reflexivity|split; vm_compute; reflexivity].
Qed.
Example C38_ex_if : evals_to c0 es0 (fn "If" [sTrue; EInt 1; fn "While" [sTrue; EInt 0]]) (EInt 1) es0.
Proof.
  refine (C38_if c0 es0 sTrue true es0 (EInt 1) [fn "While" [sTrue; EInt 0]] (EInt 1) es0 c0_mono ready_if _ ready_if _ _ _ _ (value_int _ _ _)).
  - exists 1. vm_compute. reflexivity.
  - cbn. lia.
  - repeat constructor; not_headed.
  - intro K. vm_compute in K. discriminate K.
  - split; intro K; vm_compute in K; discriminate K.
Qed.
Example C38_ex_undecided : evals_to c0 es0 (fn "If" [gl "x"; fn "While" [sTrue; EInt 0]]) (fn "If" [gl "x"; fn "While" [sTrue; EInt 0]]) es0.
Proof.
  apply C38_if_undecided; [exact c0_mono|exact ready_if|exists 1; vm_compute; reflexivity|vm_compute; reflexivity|apply ordinary_sym|repeat constructor; not_headed].
Qed.
(* a condition that is neither True nor False but a string or a fraction takes
   the "false" branch *)
Theorem C38_if_string_refuted : evals_to c0 es0 (fn "If" [EStr "abc"; EInt 1; EInt 2]) (EInt 2) es0 /\
  evals_to c0 es0 (fn "If" [ERat 3 2; EInt 1; EInt 2]) (EInt 2) es0.
Proof. split; exists 30; vm_compute; reflexivity. Qed.
Print Assumptions C38_if_string_refuted.

(* Which[c1, v1, c2, v2, ...]: the expression selected, and the state after the
   conditions that had to be tried *)
Inductive which_selects (c : cfg) : estate -> list ex -> ex -> estate -> Prop :=
| WS_none es : which_selects c es [] sNull es
| WS_here es cond v rest es1 : evals_to c es cond sTrue es1 -> which_selects c es (cond :: v :: rest) v es1
| WS_next es cond w r rest es1 v es2 : evals_to c es cond r es1 -> r <> sTrue -> which_selects c es1 rest v es2 ->
    which_selects c es (cond :: w :: rest) v es2.
Definition which_attrs : list string := ["HoldAll"; "Protected"]%string.
Lemma not_in_which a : In a ["NumericFunction"; "Flat"; "Orderless"; "Listable"]%string -> ~ In a which_attrs.
Proof.
  unfold which_attrs. intros I K. cbn in I, K. destruct K as [<-|[<-|[]]];
    repeat (destruct I as [I|I]; [discriminate I|]); exact I.
Qed.
Lemma which_large c es args v es1 : cfg_mono c -> which_selects c es args v es1 ->
  exists n, forall m, n <= m -> which_loop (run c m None) es args = Ret (v, es1).
Proof.
  intro Hc. induction 1 as [es|es cond v rest es1 E|es cond w r rest es1 v es2 E N _ [n IH]].
  - exists 0. reflexivity.
  - destruct (evals_large c _ _ _ _ Hc E) as [n K]. exists n. intros m Hm. cbn [which_loop]. rewrite (K m Hm). reflexivity.
  - destruct (evals_large c _ _ _ _ Hc E) as [n1 K]. exists (n + n1). intros m Hm. cbn [which_loop]. rewrite K by lia. cbn [obind].
    destruct (trueQ r) eqn:Q; [apply trueQ_eq in Q; contradiction|]. apply IH. lia.
Qed.
Theorem C38_which : forall c es args e es1 v es2, cfg_mono c -> ready es "Which" which_attrs -> no_rules es1 (sysname "Which") ->
  Nat.even (length args) = true -> Forall ordinary_arg args -> which_selects c es args e es1 ->
  hash_ok (fn "Which" args) -> no_clash (fn "Which" args) e ->
  evals_to c es1 e v es2 -> evals_to c es (fn "Which" args) v es2.
Proof.
  intros c es args e es1 v es2 Hc [S [NR [NV T]]] NR1 Ev O W Hz Nc E.
  apply (evals_next c es (sys "Which" :: args) e es1 v es2 Hc Hz Nc); [|exact E].
  apply (system_pass c es (sysname "Which") which_attrs args args which_fn e es es1 Hc S (ex_intro _ _ S)); try (apply not_in_which; cbn; tauto); auto.
  - apply held_rest. intros j _. left. unfold which_attrs; cbn; tauto.
  - destruct (which_large c es args e es1 Hc W) as [n K]. exists n. intros m Hm. exists (sys "Which" :: args).
    unfold which_fn. replace (Nat.odd (length (ESym (sysname "Which") :: args))) with true.
    + cbn [tl]. rewrite (K m Hm). reflexivity.
    + cbn [length]. rewrite Nat.odd_succ. auto.
Qed.
Print Assumptions C38_which.
Example C38_ex_which : which_selects c0 es0 [sFalse; fn "While" [sTrue; EInt 0]; gl "x"; EInt 3; sTrue; EInt 5; fn "While" [sTrue; EInt 0]; EInt 6] (EInt 5) es0 /\
  evals_to c0 es0 (fn "Which" [sFalse; fn "While" [sTrue; EInt 0]; gl "x"; EInt 3; sTrue; EInt 5; fn "While" [sTrue; EInt 0]; EInt 6]) (EInt 5) es0.
Proof.
  split.
  - apply (WS_next _ _ _ _ sFalse _ es0); [exists 1; vm_compute; reflexivity|discriminate|].
    apply (WS_next _ _ _ _ (gl "x") _ es0); [exists 1; vm_compute; reflexivity|discriminate|].
    apply WS_here. exists 1; vm_compute; reflexivity.
  - exists 40. vm_compute. reflexivity.
Qed.

(* Switch[e, p1, v1, ...]: the value for the first form that e matches *)
Inductive switch_selects (env : menv) (e : ex) : list ex -> ex -> Prop :=
| SS_here p v rest : matchq_eval env e p = true -> switch_selects env e (p :: v :: rest) v
| SS_next p w rest v : matchq_eval env e p = false -> switch_selects env e rest v -> switch_selects env e (p :: w :: rest) v.
Definition switch_attrs : list string := ["HoldRest"; "Protected"; "ReadProtected"]%string.
Lemma not_in_switch a : In a ["NumericFunction"; "Flat"; "Orderless"; "Listable"; "HoldFirst"; "HoldAll"; "HoldAllComplete"]%string -> ~ In a switch_attrs.
Proof.
  unfold switch_attrs. intros I K. cbn in I, K. destruct K as [<-|[<-|[<-|[]]]];
    repeat (destruct I as [I|I]; [discriminate I|]); exact I.
Qed.
Lemma switch_loop_spec env e args v : switch_loop env e args = Some v <-> switch_selects env e args v.
Proof.
  split.
  - remember (length args) as n eqn:L. assert (H : length args <= n) by lia. clear L. revert args H.
    induction n as [|n IH]; intros args H K; destruct args as [|p [|w t]]; try discriminate K; [cbn in H; lia|].
    cbn [switch_loop] in K. destruct (is_match_q env e p []) eqn:M.
    + injection K as <-. apply SS_here. unfold matchq_eval. rewrite M. reflexivity.
    + apply SS_next; [unfold matchq_eval; rewrite M; reflexivity|]. apply IH; [cbn in H; lia|exact K].
  - induction 1 as [p v rest M|p w rest v M _ IH]; cbn [switch_loop]; unfold matchq_eval in M; destruct (is_match_q env e p []); try discriminate M; auto.
Qed.
Theorem C38_switch : forall c es e e' es1 forms r v es2, cfg_mono c -> ready es "Switch" switch_attrs -> evals_to c es e e' es1 ->
  ready es1 "Switch" switch_attrs -> Nat.even (length forms) = true -> ordinary_arg e' -> Forall ordinary_arg forms ->
  switch_selects (env_of c es1) e' forms r ->
  hash_ok (fn "Switch" (e :: forms)) -> no_clash (fn "Switch" (e :: forms)) r ->
  evals_to c es1 r v es2 -> evals_to c es (fn "Switch" (e :: forms)) v es2.
Proof.
  intros c es e e' es1 forms r v es2 Hc [S [NR [NV T]]] Ee [S1 [NR1 [NV1 T1]]] Ev Oe O W Hz Nc E.
  apply (evals_next c es (sys "Switch" :: e :: forms) r es1 v es2 Hc Hz Nc); [|exact E].
  apply (system_pass c es (sysname "Switch") switch_attrs (e :: forms) (e' :: forms) (switch_fn c) r es1 es1 Hc S (ex_intro _ _ S1)); try (apply not_in_switch; cbn; tauto); auto.
  - apply head_arg; auto. apply (EA_eval _ _ _ _ _ _ es1); auto.
    + intros [K|[K|[[_ K]|[K _]]]]; try lia; revert K; apply not_in_switch; cbn; tauto.
    + apply held_rest. intros j Hj. right; right; right. split; [lia|unfold switch_attrs; cbn; tauto].
  - exists 0. intros m _. exists (sys "Switch" :: e' :: forms). unfold switch_fn.
    assert (L : 2 <= length forms) by (inversion W; cbn; lia).
    change (length (ESym (sysname "Switch") :: e' :: forms)) with (2 + length forms).
    rewrite (proj2 (Nat.leb_le 4 (2 + length forms))) by lia.
    change (Nat.even (2 + length forms)) with (Nat.even (length forms)). rewrite Ev. cbn [andb].
    rewrite (proj2 (switch_loop_spec _ _ _ _) W). reflexivity.
Qed.
Print Assumptions C38_switch.
Example C38_ex_switch : switch_selects (env_of c0 es0) (EInt 3) [gl "a"; EInt 1; EExpr [sys "Blank"; sys "Integer"]; EInt 2; EExpr [sys "Blank"]; EInt 4] (EInt 2) /\
  evals_to c0 es0 (fn "Switch" [EInt 3; gl "a"; EInt 1; EExpr [sys "Blank"; sys "Integer"]; EInt 2; EExpr [sys "Blank"]; EInt 4]) (EInt 2) es0.
Proof.
  split; [apply SS_next; [vm_compute; reflexivity|apply SS_here; vm_compute; reflexivity]|exists 40; vm_compute; reflexivity].
Qed.
