(* Property theorems: splicing, threading, Boolean functions (C35 - C37). *)
From Verif Require Import M_Syntax M_Float M_Hash M_Sort M_Num M_Arith M_Compare M_Match M_Defs M_Eval S_Eval P_Hash P_MatchFuel P_Eval P_Eval2 P_Eval3 P_Eval4 T_Eval.
Open Scope nat_scope.

(* ---- C35 ---- *)
Theorem C35_splice : forall h l r, merge_seq h l = r <-> spliced h l r.
Proof. exact merge_seq_spec. Qed.
Print Assumptions C35_splice.
Theorem C35_no_sequence_identity : forall h l, Forall (fun e => ~ headed e h) l -> merge_seq h l = l.
Proof. exact merge_seq_none. Qed.
Print Assumptions C35_no_sequence_identity.
(* no h[...] is left unless an h[...] contained one directly *)
Theorem C35_none_left : forall h l r, spliced h l r -> (forall s, In (EExpr (ESym h :: s)) l -> Forall (fun e => ~ headed e h) s) ->
  Forall (fun e => ~ headed e h) r.
Proof.
  induction 1 as [|s l r _ IH|e l r N _ IH]; intro H; [constructor| |].
  - apply Forall_app. split; [apply H; left; reflexivity|]. apply IH. intros s' I. apply H. right; exact I.
  - constructor; [exact N|]. apply IH. intros s' I. apply H. right; exact I.
Qed.
Print Assumptions C35_none_left.
(* f[a, Sequence[b, c], d] evaluates to f[a, b, c, d] *)
Theorem C35_sequence_in_call : forall c es h args args', cfg_mono c -> plain_fn es h [] -> no_value es h -> es_thrown es = None ->
  Forall (value c es) args -> spliced (sysname "Sequence") args args' -> Forall (value c es) args' -> Forall ordinary_arg args' ->
  hash_ok (EExpr (ESym h :: args)) ->
  evals_to c es (EExpr (ESym h :: args)) (EExpr (ESym h :: args')) es.
Proof.
  intros c es h args args' Hc P NV T V Sp V' O Hz.
  assert (EV : forall l, Forall (value c es) l -> evals_args c (holds []) 1 es l l es).
  { intros l Hl. assert (Q : forall i, evals_args c (holds []) i es l l es); [|apply Q].
    induction Hl as [|x t Hx _ IH]; intro i; [apply EA_nil|].
    apply (EA_eval _ _ _ _ _ _ es); [|exact Hx|exact T|apply IH]. unfold holds. cbn. tauto. }
  assert (P1 : exists n, forall m, n <= m -> pass c m (run c m None) es (ESym h :: args) = Ret (inr (EExpr (ESym h :: args'), false), es)).
  { destruct (evals_args_large c _ _ _ _ _ _ Hc (head_arg c es h [] _ _ _ NV T (EV args V))) as [n K]. exists n. intros m Hm.
    unfold pass. cbv zeta. rewrite (plain_attrs _ _ _ P). change (has_attr (strings_to_attributes []) aNumericFunction) with false. cbv iota.
    rewrite (proj2 (eval_parts_ok (run c m None) [] (ESym h :: args) 0 es (ESym h :: args) es)) by (apply K; lia). cbn [obind].
    unfold splice. cbv zeta. change (has_attr (strings_to_attributes []) aSequenceHold) with false. change (has_attr (strings_to_attributes []) aHoldAllComplete) with false.
    cbn [andb orb].
    assert (M : merge_seq (sysname "Sequence") (ESym h :: args) = ESym h :: args').
    { apply merge_seq_spec, SP_other; [apply not_headed_sym|exact Sp]. }
    rewrite M.
    rewrite merge_eval_none by (constructor; [apply not_headed_sym|eapply Forall_impl; [|exact O]; intros e Q; apply Q]). cbn [obind].
    rewrite merge_seq_none by (constructor; [apply not_headed_sym|eapply Forall_impl; [|exact O]; intros e Q; apply Q]).
    change (flat_sort (strings_to_attributes []) h (ESym h :: args')) with (ESym h :: args', ESym h :: args').
    change (has_attr (strings_to_attributes []) aListable) with false. cbv iota.
    rewrite (plain_apply c m _ es h []) by exact P. reflexivity. }
  assert (F : exists n, forall m, n <= m -> pass c m (run c m None) es (ESym h :: args') = Ret (inr (EExpr (ESym h :: args'), false), es)).
  { destruct (evals_args_large c _ _ _ _ _ _ Hc (head_arg c es h [] _ _ _ NV T (EV args' V'))) as [n K]. exists n. intros m Hm.
    rewrite (pass_symbol c m (run c m None) es h [] args' (ESym h :: args') es); try (cbn; tauto).
    - rewrite (plain_apply c m _ es h []) by exact P. reflexivity.
    - apply (plain_attrs _ _ _ P).
    - apply K, Hm.
    - constructor; [apply ordinary_sym|exact O].
    - discriminate. }
  destruct (N.eq_dec (hash (EExpr (ESym h :: args'))) (hash (EExpr (ESym h :: args)))) as [Q|Q].
  - destruct P1 as [n K]. exists (S (S (S n))). unfold eval.
    change (run c (S (S (S n))) None es (EExpr (ESym h :: args))) with (run c (S (S n)) (Some (0%N, false)) es (EExpr (ESym h :: args))).
    rewrite run_expr by exact Hz. rewrite (K (S n)) by lia. cbn [obind]. apply run_stop, Q.
  - destruct P1 as [n K], F as [n1 F]. exists (S (S (S (S (n + n1))))). unfold eval.
    change (run c (S (S (S (S (n + n1))))) None es (EExpr (ESym h :: args))) with (run c (S (S (S (n + n1)))) (Some (0%N, false)) es (EExpr (ESym h :: args))).
    rewrite run_expr by exact Hz. rewrite (K (S (S (n + n1)))) by lia. cbn [obind].
    rewrite run_expr by exact Q. rewrite (F (S (n + n1))) by lia. cbn [obind]. apply run_stop. reflexivity.
Qed.
Print Assumptions C35_sequence_in_call.
Example C35_ex : spliced (sysname "Sequence") [gl "a"; fn "Sequence" [EInt 1; EInt 2]; fn "Sequence" []] [gl "a"; EInt 1; EInt 2] /\
  evals_to c0 es0 (uf "f" [gl "a"; fn "Sequence" [EInt 1; EInt 2]; fn "Sequence" []]) (uf "f" [gl "a"; EInt 1; EInt 2]) es0.
Proof.
  split; [apply merge_seq_spec; vm_compute; reflexivity|exists 30; vm_compute; reflexivity].
Qed.
(* a Flat function implemented by the interpreter is merged (And), a Flat
   function of the user is not: flat[flat[a], b] stays as it is *)
Example C35_flat_builtin : evals_to c0 es0 (fn "And" [fn "And" [gl "a"; gl "b"]; gl "c"]) (fn "And" [gl "a"; gl "b"; gl "c"]) es0.
Proof. exists 40. vm_compute. reflexivity. Qed.
Theorem C35_flat_not_merged_refuted : has_attr (sym_attrs es0 "Global`flat") aFlat = true /\
  evals_to c0 es0 (uf "flat" [uf "flat" [gl "a"]; gl "b"]) (uf "flat" [uf "flat" [gl "a"]; gl "b"]) es0.
Proof. split; [vm_compute; reflexivity|exists 40; vm_compute; reflexivity]. Qed.
Print Assumptions C35_flat_not_merged_refuted.
(* the head is spliced too: Sequence[][] kills the process, Sequence[f, x][y] becomes f[x, y] *)
Theorem C35_head_spliced_refuted : crashes c0 es0 (EExpr [fn "Sequence" []]) /\
  evals_to c0 es0 (EExpr [fn "Sequence" [gl "f"; gl "x"]; gl "y"]) (uf "f" [gl "x"; gl "y"]) es0.
Proof. split; exists 40; vm_compute; reflexivity. Qed.
Print Assumptions C35_head_spliced_refuted.

(* ---- C36 ---- *)
(* threading happens exactly when there is a list argument and all list
   arguments have one length, and the result has one row per element *)
Theorem C36_thread_exactly : forall h args r, thread_expr h args = Some r <->
  exists n rows, r = mkList rows /\ length rows = n /\
    (exists l, In (EExpr (sList :: l)) args) /\
    (forall l, In (EExpr (sList :: l)) args -> length l = n) /\
    (forall i row, nth_error rows i = Some row -> exists xs, row = EExpr (h :: xs) /\ Forall2 (column i) args xs).
Proof. exact thread_spec. Qed.
Print Assumptions C36_thread_exactly.
(* evaluating a call of a Listable function is evaluating the list of rows *)
Theorem C36_listable_call : forall c es h names args rows v es', cfg_mono c ->
  sym_attrs es h = strings_to_attributes names -> In "Listable"%string names ->
  (forall a, In a ["NumericFunction"; "Flat"; "Orderless"; "HoldFirst"; "HoldRest"; "HoldAll"; "HoldAllComplete"; "SequenceHold"]%string -> ~ In a names) ->
  no_value es h -> es_thrown es = None -> Forall (value c es) args -> Forall ordinary_arg args ->
  (exists l, In (EExpr (sList :: l)) args) ->
  (forall l, In (EExpr (sList :: l)) args -> length l = length rows) ->
  (forall i row, nth_error rows i = Some row -> exists xs, row = EExpr (ESym h :: xs) /\ Forall2 (column i) args xs) ->
  hash_ok (EExpr (ESym h :: args)) -> no_clash (EExpr (ESym h :: args)) (mkList rows) ->
  evals_to c es (mkList rows) v es' -> evals_to c es (EExpr (ESym h :: args)) v es'.
Proof.
  intros c es h names args rows v es' Hc A Li Na NV T V O L1 L2 L3 Hz Nc Ev.
  apply (evals_next c es (ESym h :: args) (mkList rows) es v es' Hc Hz Nc); [|exact Ev].
  assert (EV : forall i, evals_args c (holds names) i es args args es).
  { clear L1 L2 L3 O Hz Nc. induction V as [|x t Hx _ IH]; intro i; [apply EA_nil|].
    apply (EA_eval _ _ _ _ _ _ es); [|exact Hx|exact T|apply IH].
    intros [K|[K|[[_ K]|[_ K]]]]; revert K; apply Na; cbn; tauto. }
  destruct (evals_args_large c _ _ _ _ _ _ Hc (head_arg c es h names _ _ _ NV T (EV 1))) as [n K]. exists n. intros m Hm.
  unfold pass. cbv zeta. rewrite A, numeric_off by (apply Na; cbn; tauto).
  rewrite (proj2 (eval_parts_ok (run c m None) names (ESym h :: args) 0 es (ESym h :: args) es)) by (apply K; lia). cbn [obind].
  rewrite splice_ordinary by (constructor; [apply ordinary_sym|exact O]). cbn [obind].
  unfold flat_sort. rewrite (attr_off names aFlat "Flat" (has_flat names)) by (apply Na; cbn; tauto).
  rewrite (attr_off names aOrderless "Orderless" (has_orderless names)) by (apply Na; cbn; tauto). cbn [andb].
  rewrite (proj2 (has_listable names) Li). cbn [hd tl].
  rewrite (proj2 (thread_spec (ESym h) args (mkList rows))); [reflexivity|].
  exists (length rows), rows. auto.
Qed.
Print Assumptions C36_listable_call.
Example C36_ex : evals_to c0 es0 (uf "lst" [mkList [EInt 1; EInt 2]; gl "k"; mkList [gl "a"; gl "b"]])
  (mkList [uf "lst" [EInt 1; gl "k"; gl "a"]; uf "lst" [EInt 2; gl "k"; gl "b"]]) es0 /\
  evals_to c0 es0 (uf "lst" [mkList [EInt 1; EInt 2]; mkList [EInt 1]]) (uf "lst" [mkList [EInt 1; EInt 2]; mkList [EInt 1]]) es0.
Proof. split; exists 40; vm_compute; reflexivity. Qed.
Example C36_ex_plus : evals_to c0 es0 (fn "Plus" [mkList [EInt 1; EInt 2]; EInt 10; mkList [EInt 5; EInt 6]]) (mkList [EInt 16; EInt 18]) es0.
Proof. exists 60. vm_compute. reflexivity. Qed.

(* ---- C37 ---- *)
Definition junct_attrs : list string := ["Flat"; "HoldAll"; "OneIdentity"; "Protected"]%string.
(* [junction h stop unit]: And stops at False and is True when empty, Or stops
   at True and is False when empty *)
Inductive junction : string -> string -> string -> Prop :=
| J_and : junction "And" "False" "True"
| J_or : junction "Or" "True" "False".

Lemma junct_fn c h s u : junction h s u ->
  exists st, assoc (table c) (sysname h) = Some (junct (sys h) st (sys s) (sys u)) /\
    (forall v, booleanQ v && st v = true <-> v = sys s) /\ (forall v, booleanQ v = true <-> v = sys s \/ v = sys u).
Proof.
  intros [].
  - exists falseQ. split; [reflexivity|]. unfold booleanQ. split; intro v.
    + rewrite andb_true_iff, orb_true_iff, falseQ_eq. unfold sFalse. tauto.
    + rewrite orb_true_iff, falseQ_eq, trueQ_eq. unfold sFalse, sTrue. tauto.
  - exists trueQ. split; [reflexivity|]. unfold booleanQ. split; intro v.
    + rewrite andb_true_iff, orb_true_iff, trueQ_eq. unfold sTrue. tauto.
    + rewrite orb_true_iff, falseQ_eq, trueQ_eq. unfold sFalse, sTrue. tauto.
Qed.
Lemma junct_pass c es h s u args args' r es1 st : junction h s u ->
  assoc (table c) (sysname h) = Some (junct (sys h) st (sys s) (sys u)) ->
  system_fn es (sysname h) junct_attrs -> Forall ordinary_arg args -> spliced (sysname h) args args' -> no_rules es1 (sysname h) ->
  (exists n, forall m, n <= m -> exists this, junct (sys h) st (sys s) (sys u) m (run c m None) es (sys h :: args') = Ret (r, this, es1)) ->
  exists n, forall m, n <= m -> pass c m (run c m None) es (sys h :: args) = Ret (inr (r, false), es1).
Proof.
  intros J T S O Sp NR H.
  apply (flat_holdall_pass c es (sysname h) junct_attrs args args' (junct (sys h) st (sys s) (sys u)) r es1 S); try assumption; unfold junct_attrs; cbn; try tauto;
    intro K; repeat (destruct K as [K|K]; [discriminate K|]); exact K.
Qed.

(* And (Or) returns False (True) as soon as an argument evaluates to it; the
   later arguments (post) are not evaluated: they are arbitrary and the final
   state is the one after evaluating the deciding argument. *)
Theorem C37_short_circuit : forall c es h s u args pre a post vs es1 es2, cfg_mono c -> junction h s u ->
  system_fn es (sysname h) junct_attrs -> Forall ordinary_arg args -> spliced (sysname h) args (pre ++ a :: post) ->
  evals_list c es pre vs es1 -> ~ In (sys s) vs -> evals_to c es1 a (sys s) es2 ->
  no_value es2 (sysname s) -> no_rules es2 (sysname h) -> hash_ok (EExpr (sys h :: args)) ->
  evals_to c es (EExpr (sys h :: args)) (sys s) es2.
Proof.
  intros c es h s u args pre a post vs es1 es2 Hc J S O Sp Ep Nv Ea NV NR Hz.
  destruct (junct_fn c h s u J) as [st [T [St B]]].
  apply (evals_next_value c es (sys h :: args) (sys s) es2 Hc Hz eq_refl); [|apply value_sym, NV].
  apply (junct_pass c es h s u args (pre ++ a :: post) (sys s) es2 st J T S O Sp NR).
  destruct (evals_list_large c _ _ _ _ Hc Ep) as [n1 K1], (evals_large c _ _ _ _ Hc Ea) as [n2 K2].
  exists (n1 + n2). intros m Hm.
  apply (junct_stop (sys h) st (sys s) (sys u) m (run c m None) es (sys h) pre a post vs (sys s) es1 es2).
  - apply K1. lia.
  - apply Forall_forall. intros v I. destruct (booleanQ v && st v) eqn:E; [|reflexivity]. apply St in E. subst. contradiction.
  - apply K2. lia.
  - apply B. left; reflexivity.
  - assert (Q : booleanQ (sys s) && st (sys s) = true) by (apply St; reflexivity). apply andb_true_iff in Q. apply Q.
Qed.
Print Assumptions C37_short_circuit.

(* no argument decides: the decided ones are dropped, the others kept in order;
   none left gives the unit, one left gives that one *)
Definition junct_result (h u : string) (vs : list ex) : ex :=
  match filter (fun v => negb (ex_eqb v (sys u))) vs with
  | [] => sys u
  | [x] => x
  | rest => EExpr (sys h :: rest)
  end.
Lemma junct_value_result h s u vs : (forall v, booleanQ v = true <-> v = sys s \/ v = sys u) -> ~ In (sys s) vs ->
  junct_value (sys h) (sys u) vs = junct_result h u vs.
Proof.
  intros B N. unfold junct_value, junct_result.
  rewrite (filter_ext_in (fun v => negb (booleanQ v)) (fun v => negb (ex_eqb v (sys u)))); [reflexivity|].
  intros v I. f_equal. destruct (ex_eqb v (sys u)) eqn:E.
  - apply B. right. apply ex_eqb_eq, E.
  - destruct (booleanQ v) eqn:Q; [|reflexivity]. apply B in Q as [->|Q]; [contradiction|].
    apply ex_eqb_eq in Q. congruence.
Qed.
Theorem C37_undecided : forall c es h s u args args' vs es1 v es2, cfg_mono c -> junction h s u ->
  system_fn es (sysname h) junct_attrs -> Forall ordinary_arg args -> spliced (sysname h) args args' ->
  evals_list c es args' vs es1 -> ~ In (sys s) vs -> no_rules es1 (sysname h) ->
  hash_ok (EExpr (sys h :: args)) -> no_clash (EExpr (sys h :: args)) (junct_result h u vs) ->
  evals_to c es1 (junct_result h u vs) v es2 -> evals_to c es (EExpr (sys h :: args)) v es2.
Proof.
  intros c es h s u args args' vs es1 v es2 Hc J S O Sp Ea Nv NR Hz Nc Ev.
  destruct (junct_fn c h s u J) as [st [T [St B]]].
  apply (evals_next c es _ _ es1 v es2 Hc Hz Nc); [|exact Ev].
  apply (junct_pass c es h s u args args' _ es1 st J T S O Sp NR).
  destruct (evals_list_large c _ _ _ _ Hc Ea) as [n1 K1]. exists n1. intros m Hm.
  exists (sys h :: vs). rewrite (junct_all (sys h) st (sys s) (sys u) m (run c m None) es (sys h) args' vs es1); [|apply K1; lia|].
  - rewrite (junct_value_result h s u) by assumption. reflexivity.
  - apply Forall_forall. intros w I. destruct (booleanQ w && st w) eqn:E; [|reflexivity]. apply St in E. subst. contradiction.
Qed.
Print Assumptions C37_undecided.

(* all arguments evaluate to True (False) *)
Theorem C37_all_decided : forall c es h s u args args' vs es1, cfg_mono c -> junction h s u ->
  system_fn es (sysname h) junct_attrs -> Forall ordinary_arg args -> spliced (sysname h) args args' ->
  evals_list c es args' vs es1 -> (forall v, In v vs -> v = sys u) -> no_value es1 (sysname u) -> no_rules es1 (sysname h) ->
  hash_ok (EExpr (sys h :: args)) ->
  evals_to c es (EExpr (sys h :: args)) (sys u) es1.
Proof.
  intros c es h s u args args' vs es1 Hc J S O Sp Ea All NV NR Hz.
  destruct (junct_fn c h s u J) as [st [T [St B]]].
  assert (Su : sys s <> sys u) by (destruct J; discriminate).
  assert (Nv : ~ In (sys s) vs) by (intro I; apply Su, All, I).
  apply (evals_next_value c es (sys h :: args) (sys u) es1 Hc Hz eq_refl); [|apply value_sym, NV].
  apply (junct_pass c es h s u args args' _ es1 st J T S O Sp NR).
  destruct (evals_list_large c _ _ _ _ Hc Ea) as [n1 K1]. exists n1. intros m Hm.
  exists (sys h :: vs). rewrite (junct_all (sys h) st (sys s) (sys u) m (run c m None) es (sys h) args' vs es1); [|apply K1; lia|].
  - rewrite (junct_value_result h s u) by assumption. unfold junct_result.
    assert (F : filter (fun v => negb (ex_eqb v (sys u))) vs = []).
    { clear - All. induction vs as [|w t IH]; [reflexivity|]. cbn [filter].
      assert (W : ex_eqb w (sys u) = true) by (apply ex_eqb_eq, All; left; reflexivity). rewrite W. cbn [negb].
      apply IH. intros v I. apply All. right; exact I. }
    rewrite F. reflexivity.
  - apply Forall_forall. intros w I. destruct (booleanQ w && st w) eqn:E; [|reflexivity]. apply St in E. subst. contradiction.
Qed.
Print Assumptions C37_all_decided.

(* Not *)
Theorem C37_not : forall c es a (b : bool) es1 nm, cfg_mono c -> system_fn es (sysname "Not") ["Protected"]%string -> system_fn es1 (sysname "Not") nm ->
  no_value es (sysname "Not") -> es_thrown es = None -> es_thrown es1 = None -> no_rules es1 (sysname "Not") ->
  evals_to c es a (if b then sTrue else sFalse) es1 -> no_value es1 (sysname (if b then "False" else "True")) ->
  hash_ok (fn "Not" [a]) ->
  evals_to c es (fn "Not" [a]) (if b then sFalse else sTrue) es1.
Proof.
  intros c es a b es1 nm Hc S S1 NV T T1 NR Ea NV1 Hz.
  apply (evals_next_value c es [sys "Not"; a] _ es1 Hc Hz); [destruct b; reflexivity| |].
  - apply (system_pass c es (sysname "Not") ["Protected"]%string [a] [if b then sTrue else sFalse] not_fn _ es1 es1 Hc S (ex_intro _ nm S1));
      try (intros [K|[]]; discriminate K); try assumption; try reflexivity.
    + apply head_arg; auto. apply (EA_eval _ _ _ _ _ _ es1); auto; [|apply EA_nil].
      unfold holds. cbn. intros [[K|[]]|[[K|[]]|[[_ [K|[]]]|[_ [K|[]]]]]]; discriminate K.
    + repeat constructor; destruct b; apply not_headed_sym.
    + exists 0. intros m _. exists [sys "Not"; if b then sTrue else sFalse]. destruct b; reflexivity.
  - destruct b; apply value_sym, NV1.
Qed.
Print Assumptions C37_not.

(* x && (y = 1) && False && (infinite loop): the loop is not entered; the
   assignment has been made *)
Example C37_ex : match eval c0 60 es0 (fn "And" [gl "x"; fn "Equal" [fn "Set" [gl "y"; EInt 1]; EInt 1]; sFalse; fn "While" [sTrue; EInt 0]]) with
  | Ret (v, es1) => v = sFalse /\ get_sym_def (es_defs es1) "Global`y" = Some (EInt 1)
  | _ => False
  end.
Proof. vm_compute. split; reflexivity. Qed.
Example C37_ex_keep : evals_to c0 es0 (fn "Or" [gl "x"; sFalse; gl "y"; fn "Equal" [EInt 1; EInt 2]]) (fn "Or" [gl "x"; gl "y"]) es0.
Proof. exists 60. vm_compute. reflexivity. Qed.
Lemma system_and : system_fn es0 (sysname "And") junct_attrs.
Proof. eexists. split; [vm_compute; reflexivity|]. split; reflexivity. Qed.
Example C37_ex_hyp : evals_to c0 es0 (fn "And" [sTrue; sFalse; fn "While" [sTrue; EInt 0]]) sFalse es0.
Proof.
  apply (C37_short_circuit c0 es0 "And" "False" "True" _ [sTrue] sFalse [fn "While" [sTrue; EInt 0]] [sTrue] es0 es0 c0_mono J_and system_and).
  - repeat constructor; not_headed.
  - apply merge_seq_spec. vm_compute. reflexivity.
  - apply (EL_cons c0 es0 sTrue sTrue es0); [exists 1; vm_compute; reflexivity|apply EL_nil].
  - intros [K|[]]. discriminate K.
  - exists 1. vm_compute. reflexivity.
  - vm_compute. reflexivity.
  - intros d K. vm_compute in K. injection K as <-. reflexivity.
  - intro K. vm_compute in K. discriminate K.
Qed.
