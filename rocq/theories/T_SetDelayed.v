(* Property theorems: SetDelayed (C121). *)
From Verif Require Import M_Syntax M_Float M_Hash M_Order M_Sort M_Num M_Arith M_Compare M_Match M_Defs S_Defs P_Defs P_Defs2 P_Defs3 P_Defs4 P_Defs5 T_Defs M_Eval S_Match S_Eval S_Iter S_Call M_LibAssign
  P_Hash P_MatchFuel P_Eval P_Eval2 P_Eval3 P_Eval4 P_Iter P_Call T_Match T_Eval T_Eval2 T_Eval3 T_Eval4 T_Eval5 T_Iter T_Call T_Assign.
Open Scope nat_scope.

(* ---- specification ---- *)
Definition set_delayed_attrs : list string := ["HoldAll"; "SequenceHold"; "Protected"]%string.
(* es' is es with the definition lhs := rhs, a rule of f, stored (what storing a
   definition does to the rules: C28, C29); nothing else has changed *)
Definition builtin_at (es : estate) (m : string) : bool := match lookup (es_defs es) m with Some d => d_builtin d | None => false end.
Definition default_at (es : estate) (m : string) : option ex := match lookup (es_defs es) m with Some d => d_default d | None => None end.
Definition assigned (c : cfg) (es : estate) (f : string) (lhs rhs : ex) (es' : estate) : Prop :=
  (exists st, define (c_fl c) (es_defs es) lhs rhs = Some st /\ forall m, rules_of (es_defs es') m = rules_of st m) /\
  (forall m, m <> f -> lookup (es_defs es') m = lookup (es_defs es) m) /\
  (forall m, sym_attrs es' m = sym_attrs es m /\ builtin_at es' m = builtin_at es m /\ default_at es' m = default_at es m) /\
  st_frozen (es_defs es') = st_frozen (es_defs es) /\ es_thrown es' = es_thrown es /\ es_sown es' = es_sown es.
Definition holds_all (es : estate) (f : string) : Prop :=
  has_attr (sym_attrs es f) aHoldAll = true \/ has_attr (sym_attrs es f) aHoldAllComplete = true.

(* ---- lemmas ---- *)
Definition def2 fl st lhs rhs s : state :=
  let st1 := set_def st s (new_def fl s lhs rhs (lookup st s)) in set_def st1 s (new_def fl s lhs rhs (lookup st1 s)).
Lemma define_twice c es f lhs rhs : st_frozen (es_defs es) = false -> rule_lhs lhs f ->
  obind (es_define c es lhs rhs) (fun es2 => es_define c es2 lhs rhs) = Ret (with_defs es (def2 (c_fl c) (es_defs es) lhs rhs f)).
Proof.
  intros F L. unfold es_define. rewrite (define_rule_lhs _ _ lhs rhs f F L). cbn [obind es_defs with_defs].
  rewrite (define_rule_lhs _ (set_def _ _ _) lhs rhs f) by assumption. reflexivity.
Qed.
Lemma def2_assigned c es f lhs rhs : st_frozen (es_defs es) = false -> rule_lhs lhs f ->
  assigned c es f lhs rhs (with_defs es (def2 (c_fl c) (es_defs es) lhs rhs f)).
Proof.
  intros F L. unfold assigned, def2. cbn [es_defs with_defs es_thrown es_sown]. split; [|split; [|split; [|repeat split]]].
  - exists (set_def (es_defs es) f (new_def (c_fl c) f lhs rhs (lookup (es_defs es) f))). split; [apply define_rule_lhs; assumption|].
    intro m. destruct (String.eqb_spec m f) as [->|N].
    + rewrite !rules_set_same, !new_def_rules, rules_set_same, new_def_rules. apply define_rule_twice. exact Logic.I.
    + now rewrite !rules_set_other by exact N.
  - intros m N. rewrite !lookup_set_other by exact N. reflexivity.
  - intro m. unfold sym_attrs, builtin_at, default_at. cbn [es_defs with_defs]. destruct (String.eqb_spec m f) as [->|N].
    + rewrite !lookup_set_same. unfold new_def. destruct (lookup (es_defs es) f); repeat split.
    + rewrite !lookup_set_other by exact N. repeat split.
Qed.
Lemma def1_assigned c es f lhs rhs : st_frozen (es_defs es) = false -> rule_lhs lhs f ->
  assigned c es f lhs rhs (with_defs es (set_def (es_defs es) f (new_def (c_fl c) f lhs rhs (lookup (es_defs es) f)))).
Proof.
  intros F L. unfold assigned. cbn [es_defs with_defs es_thrown es_sown]. split; [|split; [|split; [|repeat split]]].
  - eexists. split; [apply define_rule_lhs; eassumption|reflexivity].
  - intros m N. rewrite !lookup_set_other by exact N. reflexivity.
  - intro m. unfold sym_attrs, builtin_at, default_at. cbn [es_defs with_defs]. destruct (String.eqb_spec m f) as [->|N].
    + rewrite !lookup_set_same. unfold new_def. destruct (lookup (es_defs es) f); repeat split.
    + rewrite !lookup_set_other by exact N. repeat split.
Qed.
Lemma sd_not a : In a ["NumericFunction"; "Flat"; "Orderless"; "Listable"]%string -> ~ In a set_delayed_attrs.
Proof. intros I K. cbn in I, K. destruct K as [<-|[<-|[<-|[]]]]; repeat (destruct I as [I|I]; [discriminate I|]); exact I. Qed.
Lemma assigned_no_value c es f lhs rhs es' s : assigned c es f lhs rhs es' -> s <> f -> no_value es s -> no_value es' s.
Proof. intros (_ & O & _) N H. unfold no_value, get_sym_def in *. rewrite O by exact N. exact H. Qed.
Lemma assigned_no_rules c es f lhs rhs es' s : assigned c es f lhs rhs es' -> s <> f -> no_rules es s -> no_rules es' s.
Proof. intros (_ & O & _) N H d. rewrite O by exact N. apply H. Qed.
(* SetDelayed in terms of what its code does to the two arguments *)
Lemma set_delayed_call c es lhs rhs es1 es2 f lhs1 : cfg_mono c -> ready es "SetDelayed" set_delayed_attrs ->
  ordinary_arg lhs -> ordinary_arg rhs -> no_rules es1 (sysname "SetDelayed") -> no_value es1 (sysname "Null") -> f <> sysname "SetDelayed" -> f <> (sysname "Null") ->
  assigned c es1 f lhs1 rhs es2 ->
  (exists n, forall m, n <= m -> exists this, set_delayed_fn c m (run c m None) es [sys "SetDelayed"; lhs; rhs] = Ret (sNull, this, es2)) ->
  hash_ok (fn "SetDelayed" [lhs; rhs]) -> evals_to c es (fn "SetDelayed" [lhs; rhs]) sNull es2.
Proof.
  intros Hc (Sy & NR & NV & T) Ol Or NR1 NV1 N1 N2 A H Hz.
  apply (evals_next_value c es [sys "SetDelayed"; lhs; rhs] sNull es2 Hc Hz eq_refl).
  - apply (system_pass c es (sysname "SetDelayed") set_delayed_attrs [lhs; rhs] [lhs; rhs] (set_delayed_fn c) sNull es es2 Hc Sy (ex_intro _ _ Sy));
      try (apply sd_not; cbn; tauto).
    + apply head_arg; [exact NV|exact T|]. apply EA_held; [left; left; reflexivity|]. apply EA_held; [left; left; reflexivity|apply EA_nil].
    + constructor; [exact Ol|constructor; [exact Or|constructor]].
    + reflexivity.
    + apply (assigned_no_rules c es1 f lhs1 rhs es2); [exact A|congruence|exact NR1].
    + exact H.
  - apply value_sym. apply (assigned_no_value c es1 f lhs1 rhs es2); [exact A|congruence|exact NV1].
Qed.

(* ---- theorems ---- *)
(* f[args] := rhs for a function that holds all its arguments: neither the
   arguments nor rhs are evaluated *)
Theorem C121_held_arguments : forall c es f args rhs, cfg_mono c -> ready es "SetDelayed" set_delayed_attrs -> no_value es (sysname "Null") ->
  st_frozen (es_defs es) = false -> holds_all es f -> rule_lhs (EExpr (ESym f :: args)) f -> f <> sysname "SetDelayed" -> f <> (sysname "Null") ->
  ordinary_arg (EExpr (ESym f :: args)) -> ordinary_arg rhs -> hash_ok (fn "SetDelayed" [EExpr (ESym f :: args); rhs]) ->
  exists es', evals_to c es (fn "SetDelayed" [EExpr (ESym f :: args); rhs]) sNull es' /\ assigned c es f (EExpr (ESym f :: args)) rhs es'.
Proof.
  intros c es f args rhs Hc R NV F H L N1 N2 Ol Or Hz. pose proof (def2_assigned c es f (EExpr (ESym f :: args)) rhs F L) as A.
  eexists. split; [|exact A].
  apply (set_delayed_call c es _ rhs es _ f _ Hc R Ol Or (proj1 (proj2 R)) NV N1 N2 A); [|exact Hz].
  exists 0. intros m _. eexists. unfold set_delayed_fn.
  assert (E : has_attr (sym_attrs es f) aHoldAll || has_attr (sym_attrs es f) aHoldAllComplete = true).
  { destruct H as [-> | ->]; [reflexivity|apply orb_true_r]. }
  rewrite E. cbn [obind]. pose proof (define_twice c es f (EExpr (ESym f :: args)) rhs F L) as D.
  destruct (es_define c es (EExpr (ESym f :: args)) rhs) as [es1| |]; cbn [obind] in *; try discriminate D. rewrite D. reflexivity.
Qed.
Print Assumptions C121_held_arguments.
(* otherwise the parts of f[args], but not rhs, are evaluated from left to right
   first (HoldFirst and HoldRest do not matter) *)
Theorem C121_arguments_evaluated : forall c es h args parts f rhs es1, cfg_mono c -> ready es "SetDelayed" set_delayed_attrs ->
  (forall s, h = ESym s -> ~ holds_all es s) -> evals_list c es (h :: args) parts es1 ->
  no_rules es1 (sysname "SetDelayed") -> no_value es1 (sysname "Null") -> st_frozen (es_defs es1) = false ->
  rule_lhs (EExpr parts) f -> f <> sysname "SetDelayed" -> f <> (sysname "Null") ->
  ordinary_arg (EExpr (h :: args)) -> ordinary_arg rhs -> hash_ok (fn "SetDelayed" [EExpr (h :: args); rhs]) ->
  exists es', evals_to c es (fn "SetDelayed" [EExpr (h :: args); rhs]) sNull es' /\ assigned c es1 f (EExpr parts) rhs es'.
Proof.
  intros c es h args parts f rhs es1 Hc R H Ev NR1 NV1 F L N1 N2 Ol Or Hz. pose proof (def2_assigned c es1 f (EExpr parts) rhs F L) as A.
  eexists. split; [|exact A].
  apply (set_delayed_call c es _ rhs es1 _ f _ Hc R Ol Or NR1 NV1 N1 N2 A); [|exact Hz].
  destruct (evals_list_large c es _ _ _ Hc Ev) as [n K]. exists n. intros m Hm. eexists. unfold set_delayed_fn.
  assert (E : match h with ESym s => has_attr (sym_attrs es s) aHoldAll || has_attr (sym_attrs es s) aHoldAllComplete | _ => false end = false).
  { destruct h as [s| | | | | |]; try reflexivity. apply orb_false_iff. specialize (H s eq_refl). unfold holds_all in H.
    split; apply not_true_iff_false; tauto. }
  replace (match h with ESym s => has_attr (sym_attrs es s) aHoldAll || has_attr (sym_attrs es s) aHoldAllComplete | _ => false end) with false.
  rewrite (K m Hm). cbn [obind]. pose proof (define_twice c es1 f (EExpr parts) rhs F L) as D.
  destruct (es_define c es1 (EExpr parts) rhs) as [es2| |]; cbn [obind] in *; try discriminate D. rewrite D. reflexivity.
Qed.
Print Assumptions C121_arguments_evaluated.
(* x := rhs *)
Theorem C121_variable : forall c es x rhs, cfg_mono c -> ready es "SetDelayed" set_delayed_attrs -> no_value es (sysname "Null") ->
  st_frozen (es_defs es) = false -> x <> ""%string -> x <> sysname "SetDelayed" -> x <> (sysname "Null") ->
  ordinary_arg rhs -> hash_ok (fn "SetDelayed" [ESym x; rhs]) ->
  exists es', evals_to c es (fn "SetDelayed" [ESym x; rhs]) sNull es' /\ assigned c es x (ESym x) rhs es'.
Proof.
  intros c es x rhs Hc R NV F Nx N1 N2 Or Hz. pose proof (def1_assigned c es x (ESym x) rhs F (rule_lhs_sym x Nx)) as A.
  eexists. split; [|exact A].
  apply (set_delayed_call c es _ rhs es _ x _ Hc R (ordinary_sym x) Or (proj1 (proj2 R)) NV N1 N2 A); [|exact Hz].
  exists 0. intros m _. eexists. unfold set_delayed_fn, es_define. rewrite (define_rule_lhs _ _ _ _ x F (rule_lhs_sym x Nx)). reflexivity.
Qed.
Print Assumptions C121_variable.

(* The first definition of a function: afterwards a call f[args] that fits the
   left-hand side has the value of the right-hand side with the pattern
   variables filled in. *)
Theorem C121_define_and_call : forall c es es' f names lhs rhs args args' es1 r es2 v es3, cfg_mono c ->
  user_fn es f names -> defined_by es f [] -> assigned c es f lhs rhs es' -> rule_lhs lhs f -> is_expr lhs = true ->
  st_frozen (es_defs es) = false ->
  evals_args c (holds names) 1 es' args args' es1 -> Forall ordinary_arg args' -> lookup (es_defs es1) f = lookup (es_defs es') f ->
  (forall z, selects c (EExpr (ESym f :: args')) es1 [DVal (held lhs) rhs z] (Some r) es2) ->
  hash_ok (EExpr (ESym f :: args)) -> no_clash (EExpr (ESym f :: args)) r -> never_returns c es2 r -> evals_to c es2 r v es3 ->
  evals_to c es' (EExpr (ESym f :: args)) v es3.
Proof.
  intros c es es' f names lhs rhs args args' es1 r es2 v es3 Hc (A & _ & T & Na) D As L Ex F E O Lk Se Hz Nc Nr Ev.
  destruct As as ((st & Df & Ru) & _ & At & _ & Th & _). destruct (At f) as (Af & Bf & _).
  rewrite (define_rule_lhs _ _ lhs rhs f F L) in Df. injection Df as <-. specialize (Ru f). rewrite rules_set_same in Ru.
  assert (R : rules_of (es_defs es') f = [DVal (held lhs) rhs 0]).
  { rewrite Ru. unfold new_def. unfold defined_by in D. destruct (lookup (es_defs es) f) as [d|]; [|reflexivity].
    destruct D as [_ D]. cbn [d_dvs]. rewrite D. reflexivity. }
  assert (DB : defined_by es' f [DVal (held lhs) rhs 0]).
  { unfold defined_by, rules_of in *. destruct (lookup (es_defs es') f) as [d|] eqn:Q; [|discriminate R]. split; [|exact R].
    unfold builtin_at in Bf. rewrite Q in Bf. rewrite Bf. unfold defined_by in D. destruct (lookup (es_defs es) f); [apply D|reflexivity]. }
  apply (C90_call c es' f names args args' es1 [DVal (held lhs) rhs 0] r es2 v es3 Hc); auto.
  - split; [congruence|]. split; [|split; [congruence|exact Na]].
    unfold no_value, get_sym_def. unfold rules_of in R. destruct (lookup (es_defs es') f) as [d|]; [|reflexivity]. rewrite R.
    cbn [find]. unfold is_sym_rule, held. cbn [dv_lhs]. destruct lhs; [discriminate Ex..|reflexivity].
  - unfold defined_by in *. rewrite Lk. exact DB.
Qed.
Print Assumptions C121_define_and_call.

(* ---- examples ---- *)
(* h holds its arguments: h[1 + 1] := y + 1 defines h[1 + 1]; g[1 + 1] := y + 1
   defines g[2] *)
Definition es_h : estate := ES (State (("Global`h"%string, Def [] (strings_to_attributes ["HoldAll"%string]) None false) :: st_defs (es_defs es0)) false) None None.
Definition two : ex := fn "Plus" [EInt 1; EInt 1].
Definition y_1 : ex := fn "Plus" [gl "y"; EInt 1].
Lemma h_ready : ready es_h "SetDelayed" set_delayed_attrs. Proof. ready_tac. Qed.
Lemma h_rule_lhs f l : f <> ""%string -> f <> sysname "Attributes" -> f <> sysname "DownValues" -> rule_lhs (EExpr (ESym f :: l)) f.
Proof. intros A B C. split; [apply T_fun; assumption|]. split; intros t K; injection K; intros; congruence. Qed.
Lemma h_null : no_value es_h (sysname "Null"). Proof. vm_compute. reflexivity. Qed.
Ltac ord := split; [|split]; nh.
Example C121_held_ex : exists es', evals_to c0 es_h (fn "SetDelayed" [uf "h" [two]; y_1]) sNull es' /\
  assigned c0 es_h "Global`h" (uf "h" [two]) y_1 es' /\ rules_of (es_defs es') "Global`h" = [DVal (held (uf "h" [two])) y_1 0].
Proof.
  destruct (C121_held_arguments c0 es_h "Global`h" [two] y_1 c0_mono h_ready h_null eq_refl) as (es' & E & A);
    [left; reflexivity|apply h_rule_lhs; discriminate|discriminate|discriminate|ord|ord|hok|].
  exists es'. split; [exact E|]. split; [exact A|]. destruct A as ((st & D & R) & _). rewrite R.
  vm_compute in D. injection D as <-. reflexivity.
Qed.
Example C121_evaluated_ex : exists es', evals_to c0 es_h (fn "SetDelayed" [uf "g" [two]; y_1]) sNull es' /\
  assigned c0 es_h "Global`g" (uf "g" [EInt 2]) y_1 es'.
Proof.
  apply (C121_arguments_evaluated c0 es_h (gl "g") [two] [gl "g"; EInt 2] "Global`g" y_1 es_h c0_mono h_ready).
  - intros s E. injection E as <-. intros [H|H]; discriminate H.
  - apply EL_cons with es_h; [apply value_sym; reflexivity|]. apply EL_cons with es_h; [exists 20; vm_compute; reflexivity|apply EL_nil].
  - apply h_ready.
  - apply h_null.
  - reflexivity.
  - apply h_rule_lhs; discriminate.
  - discriminate.
  - discriminate.
  - ord.
  - ord.
  - hok.
Qed.
(* id[x_] := x; id[1 + 1] is 2 *)
Definition id_l : ex := uf "id" [var "Global`x"].
Definition es_id : estate := after es_h (fn "SetDelayed" [id_l; gl "x"]).
Lemma id_usable : usable_rule c0 es_id id_l.
Proof. split; [vm_compute; reflexivity|]. cbn. repeat constructor; cbn; intuition discriminate. Qed.
Lemma id_assigned : assigned c0 es_h "Global`id" id_l (gl "x") es_id.
Proof.
  replace es_id with (with_defs es_h (def2 (c_fl c0) (es_defs es_h) id_l (gl "x") "Global`id")) by (vm_compute; reflexivity).
  apply def2_assigned; [reflexivity|]. apply h_rule_lhs; discriminate.
Qed.
Example C121_call_ex : evals_to c0 es_id (uf "id" [two]) (EInt 2) es_id.
Proof.
  apply (C121_define_and_call c0 es_h es_id "Global`id" [] id_l (gl "x") [two] [EInt 2] es_id (EInt 2) es_id (EInt 2) es_id c0_mono).
  - split; [vm_compute; reflexivity|split; [vm_compute; reflexivity|split; [vm_compute; reflexivity|]]]. intros a _ [].
  - vm_compute. reflexivity.
  - exact id_assigned.
  - apply h_rule_lhs; discriminate.
  - reflexivity.
  - reflexivity.
  - apply EA_eval with es_id; [unfold holds; cbn; tauto|exists 20; vm_compute; reflexivity|vm_compute; reflexivity|apply EA_nil].
  - constructor; [apply ord_int|constructor].
  - reflexivity.
  - intro z. eapply SEL_hit with (bs := [("Global`x"%string, EInt 2)]).
    + exact id_usable.
    + apply (proj2 (proj1 (C90_simple_patterns (env_of c0 es_id) id_l _ (proj1 id_usable) (proj2 id_usable)) _)). vm_compute. reflexivity.
    + apply (proj1 (C26_replace_is_substitution _ _ _)). reflexivity.
    + apply G_plain; nh.
  - hok.
  - split; hok.
  - intros e' es' R. remember es_id as est eqn:Ee in R. remember (EInt 2) as e eqn:E in R.
    destruct R as [es e|es e e1 es1 e2 es2 K R]; subst; [nh|]. destruct K as (p & b & n & K & _). discriminate K.
  - exists 2. reflexivity.
Qed.
