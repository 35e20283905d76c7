(* Property theorems: replacement (C27) and pure functions (C51). *)
From Verif Require Import M_Syntax M_Float M_Hash M_Sort M_Num M_Arith M_Compare M_Match M_Defs M_Eval S_Eval S_Match S_Replace P_Hash P_MatchFuel P_Eval P_Eval2 P_Eval3 P_Eval4 P_Replace T_Match T_Eval T_Eval3.
Open Scope nat_scope.

(* ---- C27 ---- *)
(* For every rule (with any pattern on the left, except one headed by a Flat
   function) ReplaceAll computes exactly the top-down rewriting relation. *)
Theorem C27_top_down : forall env lhs rhs stop e e', not_flat env lhs ->
  rewrites env lhs rhs stop e e' -> collision_free (subterms e ++ subterms e') -> replace_all env lhs rhs stop e = e'.
Proof. intros env lhs rhs stop e e' N R C. apply replace_all_rewrites; assumption. Qed.
Print Assumptions C27_top_down.

(* a rule for a symbol, an integer or a string replaces every occurrence and
   changes nothing else *)
Theorem C27_constant_rule : forall env p v stop e, constant p ->
  collision_free (p :: subterms e ++ subterms (atom_subst stop p v e)) ->
  replace_all env p v stop e = atom_subst stop p v e.
Proof.
  intros env p v stop e Hp C. apply C27_top_down.
  - intros s l ->. contradiction.
  - apply atom_subst_rewrites; [exact Hp|]. eapply collision_sub; [|exact C]. intros x [Hx|Hx]; [left; exact Hx|right; apply in_app_iff; left; exact Hx].
  - eapply collision_sub; [|exact C]. intros x Hx. right. exact Hx.
Qed.
Print Assumptions C27_constant_rule.

Lemma atom_subst_absent stop p v e : ~ In p (subterms e) -> atom_subst stop p v e = e.
Proof.
  induction e as [s|s|z|n d|f|a1 a2 _ _|l IH] using ex_ind'; intro N.
  7:{ cbn [atom_subst]. destruct (has_head (EExpr l) stop); [reflexivity|]. f_equal. rewrite Forall_forall in IH.
      rewrite <- (map_id l) at 2. apply map_ext_in. intros x Hx. apply IH; [exact Hx|]. intro K. apply N. eapply subterms_part; eauto. }
  all: rewrite atom_subst_atom by reflexivity; destruct (ex_eqb _ p) eqn:E; [|reflexivity];
    apply ex_eqb_eq in E; exfalso; apply N; rewrite <- E; left; reflexivity.
Qed.
(* without an occurrence nothing happens, whatever the right-hand side is *)
Theorem C27_no_occurrence : forall env p v stop e, constant p -> ~ In p (subterms e) ->
  collision_free (p :: subterms e) -> replace_all env p v stop e = e.
Proof.
  intros env p v stop e Hp N C. rewrite C27_constant_rule; [apply atom_subst_absent, N|exact Hp|].
  rewrite atom_subst_absent by exact N. eapply collision_sub; [|exact C].
  intros x [Hx|Hx]; [left; exact Hx|]. apply in_app_iff in Hx. right. tauto.
Qed.
Print Assumptions C27_no_occurrence.

(* f[x, g[x, 2], "x"] /. x -> h[x] *)
Example C27_ex : replace_all env0 (gl "x") (uf "h" [gl "x"]) "" (uf "f" [gl "x"; uf "g" [gl "x"; EInt 2]; EStr "x"])
  = uf "f" [uf "h" [gl "x"]; uf "g" [uf "h" [gl "x"]; EInt 2]; EStr "x"].
Proof.
  rewrite C27_constant_rule; [reflexivity|exact Logic.I|].
  apply collision_freeb_ok. vm_compute. reflexivity.
Qed.
Example C27_ex_pattern : replace_all env0 (uf "f" [named "x"]) (uf "g" [ESym "x"]) "" (mkList [uf "f" [uf "f" [EInt 1]]; uf "f" [EInt 1; EInt 2]; EInt 3])
  = mkList [uf "g" [uf "f" [EInt 1]]; uf "f" [EInt 1; EInt 2]; EInt 3].
Proof. vm_compute. reflexivity. Qed.

(* ReplaceAll[e, x -> v] as evaluated by the interpreter *)
Definition ra_attrs : list string := ["Protected"%string].
Lemma prot_free' i : ~ holds ["Protected"%string] i.
Proof. intros [[K|[]]|[[K|[]]|[[_ [K|[]]]|[_ [K|[]]]]]]; discriminate K. Qed.
Theorem C27_replace_all_call : forall c es e r e1 es1 p v es2 w es3, cfg_mono c ->
  ready es "ReplaceAll" ra_attrs -> ready es2 "ReplaceAll" ra_attrs ->
  evals_to c es e e1 es1 -> es_thrown es1 = None ->
  evals_to c es1 r (fn "Rule" [p; v]) es2 -> constant p -> ordinary_arg e1 ->
  collision_free (p :: subterms e1 ++ subterms (atom_subst "" p v e1)) ->
  hash_ok (fn "ReplaceAll" [e; r]) -> no_clash (fn "ReplaceAll" [e; r]) (atom_subst "" p v e1) ->
  evals_to c es2 (atom_subst "" p v e1) w es3 ->
  evals_to c es (fn "ReplaceAll" [e; r]) w es3.
Proof.
  intros c es e r e1 es1 p v es2 w es3 Hc [S0 [NR [NV T]]] [S2 [NR2 [NV2 T2]]] E1 T1 E2 Hp Oe C Hz Nc Ew.
  apply (evals_next c es [sys "ReplaceAll"; e; r] (atom_subst "" p v e1) es2 w es3 Hc Hz Nc); [|exact Ew].
  apply (system_pass c es (sysname "ReplaceAll") ra_attrs [e; r] [e1; fn "Rule" [p; v]] (replace_all_fn c) _ es2 es2 Hc S0 (ex_intro _ _ S2));
    try (intros [K|[]]; discriminate K); auto.
  - apply head_arg; auto. apply (EA_eval _ _ _ _ _ _ es1); [apply prot_free'|exact E1|exact T1|].
    apply (EA_eval _ _ _ _ _ _ es2); [apply prot_free'|exact E2|exact T2|apply EA_nil].
  - constructor; [exact Oe|constructor; [|constructor]]. repeat split; intros [l K]; discriminate K.
  - exists 0. intros m _. exists [sys "ReplaceAll"; e1; fn "Rule" [p; v]].
    change (replace_all_fn c m (run c m None) es2 [ESym (sysname "ReplaceAll"); e1; fn "Rule" [p; v]])
      with (returning (replace_all (env_of c es2) p v "" e1) [sys "ReplaceAll"; e1; fn "Rule" [p; v]] es2).
    rewrite C27_constant_rule by assumption. reflexivity.
Qed.
Print Assumptions C27_replace_all_call.
Example C27_ex_call : evals_to c0 es0 (fn "ReplaceAll" [uf "f" [gl "x"; fn "And" [sTrue; gl "x"]]; fn "Rule" [gl "x"; EInt 3]])
  (uf "f" [EInt 3; EInt 3]) es0.
Proof.
  refine (C27_replace_all_call c0 es0 _ _ (uf "f" [gl "x"; gl "x"]) es0 (gl "x") (EInt 3) es0 _ es0 c0_mono _ _ _ eq_refl _ Logic.I _ _ _ _ _).
  1,2: split; [eexists; split; [vm_compute; reflexivity|split; reflexivity]|];
    split; [intros d K; vm_compute in K; injection K as <-; reflexivity|split; vm_compute; reflexivity].
  - exists 30. vm_compute. reflexivity.
  - exists 30. vm_compute. reflexivity.
  - repeat split; not_headed.
  - apply collision_freeb_ok. vm_compute. reflexivity.
  - intro K. vm_compute in K. discriminate K.
  - split; intro K; vm_compute in K; discriminate K.
  - exists 30. vm_compute. reflexivity.
Qed.

(* A list of rules is applied one rule after the other.  This is the same as
   applying them simultaneously if no right-hand side contains the left-hand
   side of a later rule.  Partial: that condition. *)
Fixpoint independent (rules : list (ex * ex)) : Prop :=
  match rules with
  | [] => True
  | (p, v) :: t => constant p /\ (forall q w, In (q, w) t -> ~ In q (subterms v)) /\ independent t
  end.
(* the expressions met on the way *)
Fixpoint stages (rules : list (ex * ex)) (e : ex) : list ex :=
  match rules with
  | [] => [e]
  | (p, v) :: t => e :: p :: stages t (atom_subst "" p v e)
  end.
Lemma first_rule_absent rules v : (forall q w, In (q, w) rules -> ~ In q (subterms v)) -> forall x, In x (subterms v) -> first_rule rules x = x.
Proof.
  intros H x Hx. induction rules as [|[q w] t IH]; [reflexivity|]. cbn [first_rule].
  destruct (ex_eqb x q) eqn:E.
  - apply ex_eqb_eq in E. subst. exfalso. apply (H q w); [left; reflexivity|exact Hx].
  - apply IH. intros q' w' I. apply (H q' w'). right; exact I.
Qed.
Lemma simult_absent rules v : (forall q w, In (q, w) rules -> ~ In q (subterms v)) -> simult rules v = v.
Proof.
  induction v as [s|s|z|n d|f|a1 a2 _ _|l IH] using ex_ind'; intro H; try (apply (first_rule_absent rules _ H); left; reflexivity).
  cbn [simult]. f_equal. rewrite <- (map_id l) at 2. apply map_ext_in. intros x Hx. rewrite Forall_forall in IH. apply IH; [exact Hx|].
  intros q w I K. apply (H q w I). eapply subterms_part; eauto.
Qed.
Lemma has_head_empty_ok e : ~ headed e "" -> has_head e "" = false.
Proof. apply has_head_not. Qed.
Lemma simult_step p v t e : is_expr p = false -> (forall q w, In (q, w) t -> ~ In q (subterms v)) ->
  (forall x, In x (subterms e) -> ~ headed x "") ->
  simult t (atom_subst "" p v e) = simult ((p, v) :: t) e.
Proof.
  intros Hp Hv. induction e as [s|s|z|n d|f|a1 a2 _ _|l IH] using ex_ind'; intro Hh.
  7:{ cbn [atom_subst]. rewrite has_head_not by (apply Hh, subterms_self). cbn [simult]. f_equal. rewrite map_map. apply map_ext_in.
      intros x Hx. rewrite Forall_forall in IH. apply IH; [exact Hx|]. intros y Hy. apply Hh. eapply subterms_part; eauto. }
  all: rewrite atom_subst_atom by reflexivity; cbn [simult first_rule]; destruct (ex_eqb _ p) eqn:E; [apply simult_absent, Hv|reflexivity].
Qed.
Theorem C27_rule_list_partial : forall env rules e, independent rules ->
  (forall k x, In x (flat_map subterms (stages (firstn k rules) e)) -> ~ headed x "") ->
  collision_free (flat_map subterms (stages rules e)) ->
  rules_replace_all env rules e = simult rules e.
Proof.
  intros env rules. induction rules as [|[p v] t IH]; intros e I Hh C; unfold rules_replace_all in *; cbn [fold_left].
  - clear - e. cbn. symmetry. apply simult_absent. intros q w [].
  - destruct I as [Hp [Hv It]]. rewrite C27_constant_rule.
    + rewrite IH; [apply simult_step| | |].
      * apply const_not_expr, Hp.
      * exact Hv.
      * intros x Hx. apply (Hh 0 x). cbn [firstn stages flat_map]. rewrite app_nil_r. exact Hx.
      * exact It.
      * intros k x Hx. apply (Hh (S k) x). cbn [firstn stages flat_map]. apply in_app_iff. right. apply in_app_iff. right. exact Hx.
      * eapply collision_sub; [|exact C]. intros x Hx. cbn [stages flat_map]. apply in_app_iff. right. apply in_app_iff. right. exact Hx.
    + exact Hp.
    + eapply collision_sub; [|exact C]. intros x Hx. cbn [stages flat_map]. destruct Hx as [<-|Hx].
      * apply in_app_iff. right. apply in_app_iff. left. apply subterms_self.
      * apply in_app_iff in Hx as [Hx|Hx]; apply in_app_iff; [left; exact Hx|right]. apply in_app_iff. right.
        destruct t as [|[q w] t']; cbn [stages flat_map]; [rewrite app_nil_r; exact Hx|apply in_app_iff; left; exact Hx].
Qed.
Print Assumptions C27_rule_list_partial.
(* The full property (each subexpression rewritten at most once) fails: 
   {x, y} /. {x -> y, y -> z} is {z, z} instead of {y, z} *)
Theorem C27_sequential_refuted :
  evals_to c0 es0 (fn "ReplaceAll" [mkList [gl "x"; gl "y"]; mkList [fn "Rule" [gl "x"; gl "y"]; fn "Rule" [gl "y"; gl "z"]]])
    (mkList [gl "z"; gl "z"]) es0 /\
  simult [(gl "x", gl "y"); (gl "y", gl "z")] (mkList [gl "x"; gl "y"]) = mkList [gl "y"; gl "z"].
Proof. split; [exists 40; vm_compute; reflexivity|reflexivity]. Qed.
Print Assumptions C27_sequential_refuted.
Example C27_ex_list : rules_replace_all env0 [(gl "x", EInt 1); (gl "y", uf "f" [gl "x"])] (mkList [gl "x"; uf "g" [gl "y"]])
  = mkList [EInt 1; uf "g" [uf "f" [gl "x"]]].
Proof.
  rewrite C27_rule_list_partial; [reflexivity| | |].
  - cbn [independent]. split; [exact Logic.I|]. split; [|split; [exact Logic.I|split; [intros q w []|exact Logic.I]]].
    intros q w [K|[]]. injection K as <- _. cbn. intros [K|[]]. discriminate K.
  - intros k x Hx [l ->]. destruct k as [|[|[|k]]]; vm_compute in Hx; repeat (destruct Hx as [Hx|Hx]; [discriminate Hx|]); exact Hx.
  - apply collision_freeb_ok. vm_compute. reflexivity.
Qed.

(* ---- C51 ---- *)
Lemma firstn_app_ex (pre args : list ex) k : k <= length pre -> firstn k (pre ++ args) = firstn k pre.
Proof. intro H. rewrite firstn_app. replace (k - length pre) with 0 by lia. apply app_nil_r. Qed.

Lemma subst_slots_spec env body : slot_env env -> slots_proper body -> forall args pre,
  ~ In (sys "Function") (pre ++ args) -> ~ In (sys "Slot") (pre ++ args) ->
  (forall k a j, nth_error (pre ++ args) k = Some a -> (Z.of_nat k + 1 < j <= Z.of_nat (length (pre ++ args)))%Z -> ~ In (slot j) (subterms a)) ->
  collision_free (slot_run_terms (pre ++ args) body) ->
  subst_slots env (Z.of_nat (length pre) + 1) args (slot_subst pre body) = slot_subst (pre ++ args) body.
Proof.
  intros Hs Pr. induction args as [|a t IH]; intros pre Nf Ns Na C.
  - cbn [subst_slots]. rewrite app_nil_r. reflexivity.
  - cbn [subst_slots]. fold (slot (Z.of_nat (length pre) + 1)).
    assert (E : pre ++ a :: t = (pre ++ [a]) ++ t) by (rewrite <- app_assoc; reflexivity).
    assert (St : slot1 (Z.of_nat (length pre) + 1) a (slot_subst pre body) = slot_subst (pre ++ [a]) body).
    { apply slot_subst_add; [exact Pr|intro K; apply Nf, in_app_iff; left; exact K|intro K; apply Ns, in_app_iff; left; exact K|].
      intros x Hx. apply In_nth_error in Hx as [k Hk]. assert (Hl : k < length pre) by (apply nth_error_Some; congruence).
      apply (Na k x); [rewrite nth_error_app1 by exact Hl; exact Hk|]. rewrite app_length. cbn [length]. lia. }
    assert (In0 : forall k x, k <= length (pre ++ a :: t) -> In x (EInt (Z.of_nat k) :: slot (Z.of_nat k) :: subterms (slot_subst (firstn k (pre ++ a :: t)) body)) ->
        In x (slot_run_terms (pre ++ a :: t) body)).
    { intros k x Hk Hx. right. apply in_flat_map. exists k. split; [apply in_seq; lia|exact Hx]. }
    rewrite (C27_top_down env _ _ _ _ (slot1 (Z.of_nat (length pre) + 1) a (slot_subst pre body))).
    + rewrite St. replace (Z.of_nat (length pre) + 1 + 1)%Z with (Z.of_nat (length (pre ++ [a])) + 1)%Z by (rewrite app_length; cbn [length]; lia).
      rewrite E. apply IH; rewrite <- E; assumption.
    + intros s l Q. injection Q as <- _. apply Hs.
    + apply slot1_rewrites; [exact Hs|]. eapply collision_sub; [|exact C].
      replace (Z.of_nat (length pre) + 1)%Z with (Z.of_nat (S (length pre))) by lia.
      intros x [<-|[<-|[<-|Hx]]].
      * left; reflexivity.
      * apply (In0 (S (length pre))); [rewrite app_length; cbn [length]; lia|left; reflexivity].
      * apply (In0 (S (length pre))); [rewrite app_length; cbn [length]; lia|right; left; reflexivity].
      * apply (In0 (length pre)); [rewrite app_length; lia|]. right; right. rewrite firstn_app_ex, firstn_all by lia. exact Hx.
    + rewrite St. eapply collision_sub; [|exact C]. intros x Hx. apply in_app_iff in Hx as [Hx|Hx].
      * apply (In0 (length pre)); [rewrite app_length; lia|]. right; right. rewrite firstn_app_ex, firstn_all by lia. exact Hx.
      * apply (In0 (S (length pre))); [rewrite app_length; cbn [length]; lia|]. right; right. rewrite E, firstn_app_ex by (rewrite app_length; cbn [length]; lia).
        replace (S (length pre)) with (length (pre ++ [a])) by (rewrite app_length; cbn [length]; lia). rewrite firstn_all. exact Hx.
Qed.

(* Function[body][a1, ..., an]: every slot #1 ... #n outside nested functions is
   replaced by its argument, slots beyond n stay.  Partial: the slots are filled
   one after the other, so no argument may contain a later slot, be the symbol
   Function or Slot, and Slot may be used only as Slot[n] in the body. *)
Theorem C51_slots_partial : forall env body args, slot_env env -> slots_proper body ->
  ~ In (sys "Function") args -> ~ In (sys "Slot") args ->
  (forall k a j, nth_error args k = Some a -> (Z.of_nat k + 1 < j <= Z.of_nat (length args))%Z -> ~ In (slot j) (subterms a)) ->
  collision_free (slot_run_terms args body) ->
  eval_function env [sys "Function"; body] args = Ret (slot_subst args body).
Proof.
  intros env body args Hs Pr Nf Ns Na C.
  replace (eval_function env [sys "Function"; body] args) with (Ret (subst_slots env 1 args body)) by (destruct body; reflexivity). f_equal.
  assert (E := subst_slots_spec env body Hs Pr args [] Nf Ns Na C). rewrite slot_subst_nil in E. exact E.
Qed.
Print Assumptions C51_slots_partial.

(* Function[x, body][a, ...]: x is replaced by a outside nested functions *)
Theorem C51_named : forall env x body a rest,
  collision_free (ESym x :: subterms body ++ subterms (atom_subst (sysname "Function") (ESym x) a body)) ->
  eval_function env [sys "Function"; ESym x; body] (a :: rest) = Ret (atom_subst (sysname "Function") (ESym x) a body).
Proof. intros env x body a rest C. cbn [eval_function]. rewrite C27_constant_rule; [reflexivity|exact Logic.I|exact C]. Qed.
Print Assumptions C51_named.

(* the same, as evaluated by the interpreter: the arguments are evaluated, then
   substituted, then the result is evaluated *)
Lemma head_pass c es f args vs es1 : cfg_mono c -> es_thrown es = None ->
  value c es f -> evals_args c (fun _ => False) 1 es args vs es1 -> is_sym f = false ->
  Forall ordinary_arg (f :: vs) ->
  exists n, forall m, n <= m -> pass c m (run c m None) es (f :: args) =
    match args_of f (sysname "Function") with
    | Some fa => obind (eval_function (env_of c es1) (sys "Function" :: fa) vs) (fun r => Ret (inr (r, false), es1))
    | None => Ret (inr (EExpr (f :: vs), false), es1)
    end.
Proof.
  intros Hc T V E Nf O.
  assert (E0 : evals_args c (holds []) 0 es (f :: args) (f :: vs) es1).
  { assert (W : forall i es l r es1, evals_args c (fun _ => False) i es l r es1 -> evals_args c (holds []) i es l r es1).
    { clear. induction 1 as [i es|i es p l r es' Hh|i es p w es1 l r es' _ He T _ IH]; [apply EA_nil|contradiction|].
      apply (EA_eval _ _ _ _ _ _ es1); auto. intros [K|[K|[[_ K]|[_ K]]]]; destruct K. }
    apply (EA_eval _ _ _ _ _ _ es); [intros [K|[K|[[_ K]|[_ K]]]]; destruct K|exact V|exact T|apply W, E]. }
  destruct (evals_args_large c _ _ _ _ _ _ Hc E0) as [n K]. exists n. intros m Hm.
  specialize (K m Hm). apply eval_parts_ok in K.
  assert (HS : match f :: args with ESym s :: _ => Some s | _ => None end = None) by (destruct f; try reflexivity; discriminate Nf).
  unfold pass. cbv zeta. rewrite HS.
  change (strings_to_attributes []) with no_attrs in K. 
  replace (has_attr no_attrs aNumericFunction) with false by reflexivity.
  rewrite K. cbn [obind]. rewrite splice_ordinary by exact O. reflexivity.
Qed.
Theorem C51_call_partial : forall c es body args vs es1 w es2, cfg_mono c -> es_thrown es = None ->
  value c es (fn "Function" [body]) -> evals_args c (fun _ => False) 1 es args vs es1 -> Forall ordinary_arg vs ->
  slot_env (env_of c es1) -> slots_proper body -> ~ In (sys "Function") vs -> ~ In (sys "Slot") vs ->
  (forall k a j, nth_error vs k = Some a -> (Z.of_nat k + 1 < j <= Z.of_nat (length vs))%Z -> ~ In (slot j) (subterms a)) ->
  collision_free (slot_run_terms vs body) ->
  hash_ok (EExpr (fn "Function" [body] :: args)) -> no_clash (EExpr (fn "Function" [body] :: args)) (slot_subst vs body) ->
  evals_to c es1 (slot_subst vs body) w es2 ->
  evals_to c es (EExpr (fn "Function" [body] :: args)) w es2.
Proof.
  intros c es body args vs es1 w es2 Hc T V E O Hs Pr Nf Ns Na C Hz Nc Ew.
  apply (evals_next c es (fn "Function" [body] :: args) (slot_subst vs body) es1 w es2 Hc Hz Nc); [|exact Ew].
  destruct (head_pass c es (fn "Function" [body]) args vs es1 Hc T V E eq_refl) as [n K].
  { constructor; [|exact O]. repeat split; intros [l Q]; discriminate Q. }
  exists n. intros m Hm. rewrite (K m Hm).
  change (args_of (fn "Function" [body]) (sysname "Function")) with (Some [body]). cbn [obind].
  rewrite C51_slots_partial by assumption. reflexivity.
Qed.
Print Assumptions C51_call_partial.
Theorem C51_named_call : forall c es x body arg rest v vs es1 w es2, cfg_mono c -> es_thrown es = None ->
  value c es (fn "Function" [ESym x; body]) -> evals_args c (fun _ => False) 1 es (arg :: rest) (v :: vs) es1 -> Forall ordinary_arg (v :: vs) ->
  let result := atom_subst (sysname "Function") (ESym x) v body in
  collision_free (ESym x :: subterms body ++ subterms result) ->
  hash_ok (EExpr (fn "Function" [ESym x; body] :: arg :: rest)) -> no_clash (EExpr (fn "Function" [ESym x; body] :: arg :: rest)) result ->
  evals_to c es1 result w es2 ->
  evals_to c es (EExpr (fn "Function" [ESym x; body] :: arg :: rest)) w es2.
Proof.
  intros c es x body arg rest v vs es1 w es2 Hc T V E O result C Hz Nc Ew.
  apply (evals_next c es (fn "Function" [ESym x; body] :: arg :: rest) result es1 w es2 Hc Hz Nc); [|exact Ew].
  destruct (head_pass c es (fn "Function" [ESym x; body]) (arg :: rest) (v :: vs) es1 Hc T V E eq_refl) as [n K].
  { constructor; [|exact O]. repeat split; intros [l Q]; discriminate Q. }
  exists n. intros m Hm. rewrite (K m Hm).
  change (args_of (fn "Function" [ESym x; body]) (sysname "Function")) with (Some [ESym x; body]). cbn [obind].
  rewrite C51_named by exact C. reflexivity.
Qed.
Print Assumptions C51_named_call.
Lemma function_value c es l : cfg_mono c -> plain_fn es (sysname "Function") ["HoldAll"; "Protected"]%string -> Forall ordinary_arg l -> value c es (fn "Function" l).
Proof.
  intros Hc P O. apply (C34_hold_inert c es _ ["HoldAll"; "Protected"]%string l Hc P); [left; left; reflexivity| |exact O].
  intros a I K. cbn in I, K. destruct K as [<-|[<-|[]]]; repeat (destruct I as [I|I]; [discriminate I|]); exact I.
Qed.
(* (f[#2, {#1, #3}, #1&] &)[1, y] is f[y, {1, #3}, #1&] *)
Definition body1 : ex := uf "f" [slot 2; mkList [slot 1; slot 3]; fn "Function" [slot 1]].
Example C51_ex : evals_to c0 es0 (EExpr [fn "Function" [body1]; EInt 1; gl "y"])
  (uf "f" [gl "y"; mkList [EInt 1; slot 3]; fn "Function" [slot 1]]) es0.
Proof.
  refine (C51_call_partial c0 es0 body1 [EInt 1; gl "y"] [EInt 1; gl "y"] es0 _ es0 c0_mono eq_refl _ _ _ _ _ _ _ _ _ _ _ _).
  - apply function_value; [exact c0_mono|left; eexists; split; [vm_compute; reflexivity|repeat split]|repeat constructor; not_headed].
  - apply (EA_eval _ _ _ _ _ _ es0); [tauto|apply value_int|reflexivity|].
    apply (EA_eval _ _ _ _ _ _ es0); [tauto|exists 1; vm_compute; reflexivity|reflexivity|apply EA_nil].
  - repeat constructor; not_headed.
  - repeat split; vm_compute; reflexivity.
  - intros l H. vm_compute in H. repeat (destruct H as [H|H]; [first [discriminate H|injection H as <-; eexists; reflexivity]|]). destruct H.
  - intro H. cbn in H. repeat (destruct H as [H|H]; [discriminate H|]). exact H.
  - intro H. cbn in H. repeat (destruct H as [H|H]; [discriminate H|]). exact H.
  - intros [|[|[|k]]] a j H Hj; cbn in H; try discriminate H; injection H as <-; intros [K|[]]; discriminate K.
  - apply collision_freeb_ok. vm_compute. reflexivity.
  - intro K. vm_compute in K. discriminate K.
  - split; intro K; vm_compute in K; discriminate K.
  - exists 30. vm_compute. reflexivity.
Qed.
(* What the partial theorem excludes goes wrong: the slots are filled one after
   the other *)
Theorem C51_sequential_refuted :
  (* (f[#1, #2] &)[#2, 5] *)
  evals_to c0 es0 (EExpr [fn "Function" [uf "f" [slot 1; slot 2]]; slot 2; EInt 5]) (uf "f" [EInt 5; EInt 5]) es0 /\
  slot_subst [slot 2; EInt 5] (uf "f" [slot 1; slot 2]) = uf "f" [slot 2; EInt 5] /\
  (* (#1[#2] &)[Function, 5] *)
  evals_to c0 es0 (EExpr [fn "Function" [EExpr [slot 1; slot 2]]; sys "Function"; EInt 5]) (fn "Function" [slot 2]) es0 /\
  slot_subst [sys "Function"; EInt 5] (EExpr [slot 1; slot 2]) = fn "Function" [EInt 5].
Proof. split; [exists 30; vm_compute; reflexivity|]. split; [reflexivity|]. split; [exists 30; vm_compute; reflexivity|reflexivity]. Qed.
Print Assumptions C51_sequential_refuted.
(* a variable is not replaced inside an inner function that does not bind it:
   Function[x, Function[y, x]][1] is Function[y, x] *)
Theorem C51_closure_refuted :
  evals_to c0 es0 (EExpr [fn "Function" [gl "x"; fn "Function" [gl "y"; gl "x"]]; EInt 1]) (fn "Function" [gl "y"; gl "x"]) es0.
Proof. exists 30. vm_compute. reflexivity. Qed.
Print Assumptions C51_closure_refuted.
(* Function[x, x][] kills the interpreter *)
Theorem C51_no_argument_refuted : crashes c0 es0 (EExpr [fn "Function" [gl "x"; gl "x"]]).
Proof. exists 30. vm_compute. reflexivity. Qed.
Print Assumptions C51_no_argument_refuted.
