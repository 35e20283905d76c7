(* Evaluator: threading, junctions, selection. *)
From Verif Require Import M_Syntax M_Float M_Hash M_Sort M_Num M_Arith M_Compare M_Match M_Defs M_Eval S_Eval P_Hash P_MatchFuel P_Eval P_Eval2 P_Eval3.
Open Scope nat_scope.

(* ---- threading ---- *)
Lemma list_lengths_in args n : In n (list_lengths args) <-> exists l, In (EExpr (sList :: l)) args /\ length l = n.
Proof.
  unfold list_lengths. rewrite in_flat_map. split.
  - intros [p [I K]]. generalize (args_of_headed p nList). destruct (args_of p nList) as [l|]; [|destruct K].
    intros ->. destruct K as [<-|[]]. exists l. auto.
  - intros [l [I <-]]. exists (EExpr (sList :: l)). split; [exact I|].
    change sList with (ESym nList). rewrite args_of_eq. left; reflexivity.
Qed.

Definition cell (i : nat) (p : ex) : ex := match args_of p nList with Some l => nth i l sNull | None => p end.
Lemma cell_column i p : (forall l, p = EExpr (sList :: l) -> i < length l) -> column i p (cell i p).
Proof.
  intro H. unfold cell, column. generalize (args_of_headed p nList). destruct (args_of p nList) as [l|].
  - intros ->. left. exists l. split; [reflexivity|]. apply nth_error_nth'. apply H. reflexivity.
  - intro N. right. auto.
Qed.
Lemma column_fun i p x y : column i p x -> column i p y -> x = y.
Proof.
  intros [[l [-> E]]|[N ->]] [[l' [E' K]]|[N' ->]]; try congruence.
  - exfalso. apply N'. exists l. reflexivity.
  - exfalso. apply N. exists l'. exact E'.
Qed.

Lemma thread_spec h args r : thread_expr h args = Some r <->
  exists n rows, r = mkList rows /\ length rows = n /\
    (exists l, In (EExpr (sList :: l)) args) /\
    (forall l, In (EExpr (sList :: l)) args -> length l = n) /\
    (forall i row, nth_error rows i = Some row -> exists xs, row = EExpr (h :: xs) /\ Forall2 (column i) args xs).
Proof.
  unfold thread_expr. destruct (list_lengths args) as [|n ls] eqn:E.
  - split; [discriminate|]. intros [n [rows [_ [_ [[l I] _]]]]].
    assert (K : In (length l) (list_lengths args)) by (apply list_lengths_in; eauto). rewrite E in K. destruct K.
  - assert (Hn : exists l, In (EExpr (sList :: l)) args /\ length l = n).
    { apply list_lengths_in. rewrite E. left; reflexivity. }
    destruct (forallb (Nat.eqb n) ls) eqn:F.
    + assert (All : forall l, In (EExpr (sList :: l)) args -> length l = n).
      { intros l I. assert (K : In (length l) (list_lengths args)) by (apply list_lengths_in; eauto).
        rewrite E in K. destruct K as [K|K]; [auto|].
        rewrite forallb_forall in F. apply F in K. apply Nat.eqb_eq in K. auto. }
      change (map (fun i => EExpr (h :: map (fun p => match args_of p nList with Some l => nth i l sNull | None => p end) args)) (seq 0 n))
        with (map (fun i => EExpr (h :: map (cell i) args)) (seq 0 n)).
      assert (Col : forall i, i < n -> Forall2 (column i) args (map (cell i) args)).
      { intros i Hi. clear - All Hi. induction args as [|p t IH]; cbn [map]; constructor.
        - apply cell_column. intros l ->. rewrite (All l); [exact Hi|left; reflexivity].
        - apply IH. intros l I. apply All. right; exact I. }
      assert (Nth : forall i, i < n -> nth_error (map (fun i => EExpr (h :: map (cell i) args)) (seq 0 n)) i = Some (EExpr (h :: map (cell i) args))).
      { intros i Hi. rewrite nth_error_map, (nth_error_nth' _ 0) by (rewrite seq_length; exact Hi).
        rewrite seq_nth by exact Hi. reflexivity. }
      split.
      * intro H. injection H as <-. exists n, (map (fun i => EExpr (h :: map (cell i) args)) (seq 0 n)).
        split; [reflexivity|]. split; [rewrite map_length, seq_length; reflexivity|].
        split; [destruct Hn as [l [I _]]; eauto|]. split; [exact All|].
        intros i row K. assert (Hi : i < n).
        { (assert (Q : nth_error (map (fun i => EExpr (h :: map (cell i) args)) (seq 0 n)) i <> None) by congruence; apply nth_error_Some in Q; rewrite map_length, seq_length in Q; exact Q). }
        rewrite Nth in K by exact Hi. injection K as <-. exists (map (cell i) args). split; [reflexivity|apply Col, Hi].
      * intros [n' [rows [-> [L [[l I] [All' R]]]]]].
        assert (n' = n) by (rewrite <- (All l I); symmetry; apply All', I). subst n'.
        f_equal. unfold mkList. f_equal. f_equal.
        apply (nth_ext _ _ sNull sNull); [rewrite map_length, seq_length; auto|].
        intros i Hi. rewrite map_length, seq_length in Hi.
        assert (K : nth_error rows i = Some (nth i rows sNull)) by (apply nth_error_nth'; lia).
        destruct (R i _ K) as [xs [-> Fx]].
        assert (Q : nth i (map (fun i => EExpr (h :: map (cell i) args)) (seq 0 n)) sNull = EExpr (h :: map (cell i) args)).
        { generalize (Nth i Hi). intro W. apply nth_error_nth with (d := sNull) in W. exact W. }
        rewrite Q. do 2 f_equal. generalize (Col i Hi). clear - Fx.
        revert xs Fx. induction args as [|p t IH]; intros xs Fx G; inversion Fx as [|? x ? xs' Hx Fx']; subst; cbn [map] in *; [reflexivity|].
        inversion G as [|? ? ? ? Hc G']; subst. f_equal; [apply (column_fun i p); assumption|apply IH; assumption].
    + split; [discriminate|]. intros [n' [rows [_ [_ [_ [All _]]]]]].
      enough (forallb (Nat.eqb n) ls = true) by congruence. apply forallb_forall. intros m I.
      assert (K : In m (list_lengths args)) by (rewrite E; right; exact I).
      apply list_lengths_in in K as [l [I1 <-]]. destruct Hn as [l0 [I0 <-]].
      apply Nat.eqb_eq. rewrite (All l I1), (All l0 I0). reflexivity.
Qed.

(* ---- And, Or ---- *)
Lemma junct_run stop sv ev : forall args es vs es1 acc dn post,
  eval_all ev es args = Ret (vs, es1) -> Forall (fun v => booleanQ v && stop v = false) vs ->
  junct_loop stop sv ev es (args ++ post) acc dn =
  junct_loop stop sv ev es1 post (rev_append (filter (fun v => negb (booleanQ v)) vs) acc) (rev_append vs dn).
Proof.
  induction args as [|a t IH]; intros es vs es1 acc dn post H F; cbn [eval_all] in H.
  - injection H as <- <-. reflexivity.
  - apply obind_ret in H as [[r es2] [Ha H]]. apply obind_ret in H as [[rs es3] [Ht H]]. injection H as <- <-.
    inversion F as [|? ? Fr Fs]; subst. cbn [app junct_loop]. rewrite Ha. cbn [obind filter].
    destruct (booleanQ r) eqn:B; cbn [negb].
    + cbn [andb] in Fr. rewrite Fr. rewrite (IH es2 rs es3) by assumption. reflexivity.
    + rewrite (IH es2 rs es3) by assumption. reflexivity.
Qed.

Lemma junct_stop head stop sv u k ev es h pre a post vs v es1 es2 :
  eval_all ev es pre = Ret (vs, es1) -> Forall (fun v => booleanQ v && stop v = false) vs ->
  ev es1 a = Ret (v, es2) -> booleanQ v = true -> stop v = true ->
  exists this, junct head stop sv u k ev es (h :: pre ++ a :: post) = Ret (sv, this, es2).
Proof.
  intros H F Ha B S. unfold junct. cbn [tl]. rewrite (junct_run stop sv ev pre es vs es1) by assumption.
  cbn [junct_loop]. rewrite Ha. cbn [obind]. rewrite B, S. cbn [obind]. eexists. reflexivity.
Qed.

Definition junct_value (head u : ex) (vs : list ex) : ex :=
  match filter (fun v => negb (booleanQ v)) vs with [] => u | [x] => x | l => EExpr (head :: l) end.
Lemma junct_all head stop sv u k ev es h args vs es1 :
  eval_all ev es args = Ret (vs, es1) -> Forall (fun v => booleanQ v && stop v = false) vs ->
  junct head stop sv u k ev es (h :: args) = Ret (junct_value head u vs, h :: vs, es1).
Proof.
  intros H F. unfold junct. cbn [tl].
  rewrite <- (app_nil_r args). rewrite (junct_run stop sv ev args es vs es1) by assumption.
  cbn [junct_loop obind]. rewrite !rev_append_rev, !rev_app_distr, !rev_involutive. cbn [rev app].
  unfold junct_value. cbn [hd].
  destruct (filter (fun v => negb (booleanQ v)) vs) as [|x [|y l]]; reflexivity.
Qed.

(* one pass over And[...]/Or[...] *)
Lemma flat_holdall_pass c es h names args args' f r es1 :
  system_fn es h names -> In "HoldAll"%string names -> In "Flat"%string names -> ~ In "Orderless"%string names ->
  ~ In "Listable"%string names -> ~ In "NumericFunction"%string names ->
  Forall ordinary_arg args -> spliced h args args' -> assoc (table c) h = Some f -> no_rules es1 h ->
  (exists n, forall m, n <= m -> exists this, f m (run c m None) es (ESym h :: args') = Ret (r, this, es1)) ->
  exists n, forall m, n <= m -> pass c m (run c m None) es (ESym h :: args) = Ret (inr (r, false), es1).
Proof.
  intros S Ha Hf No Nl Nn O Sp T NR [n H]. exists n. intros m Hm. destruct (H m Hm) as [this F].
  unfold pass. cbv zeta. rewrite (system_attrs _ _ _ S), numeric_off by exact Nn.
  rewrite (proj2 (eval_parts_ok (run c m None) names (ESym h :: args) 0 es (ESym h :: args) es))
    by (apply arg_pass_hold; intro i; apply holds_all; auto).
  cbn [obind]. rewrite splice_ordinary by (constructor; [apply ordinary_sym|exact O]). cbn [obind].
  unfold flat_sort. rewrite (proj2 (has_flat names) Hf).
  rewrite (attr_off names aOrderless "Orderless" (has_orderless names) No).
  rewrite (attr_off names aListable "Listable" (has_listable names) Nl).
  assert (M : merge_seq h (ESym h :: args) = ESym h :: args').
  { apply merge_seq_spec. apply SP_other; [apply not_headed_sym|exact Sp]. }
  rewrite M. rewrite (head_builtin c m (run c m None) es h names f (ESym h :: args') _ r this es1 S T F NR). reflexivity.
Qed.

(* one pass over a call of a system function that is not Flat etc. *)
Lemma system_pass c es h names args args' f r es1 es2 : cfg_mono c ->
  system_fn es h names -> (exists nm, system_fn es1 h nm) ->
  ~ In "NumericFunction"%string names -> ~ In "Flat"%string names -> ~ In "Orderless"%string names -> ~ In "Listable"%string names ->
  evals_args c (holds names) 0 es (ESym h :: args) (ESym h :: args') es1 -> Forall ordinary_arg args' ->
  assoc (table c) h = Some f -> no_rules es2 h ->
  (exists n, forall m, n <= m -> exists this, f m (run c m None) es1 (ESym h :: args') = Ret (r, this, es2)) ->
  exists n, forall m, n <= m -> pass c m (run c m None) es (ESym h :: args) = Ret (inr (r, false), es2).
Proof.
  intros Hc S [nm S1] N1 N2 N3 N4 E O T NR [n H].
  destruct (evals_args_large c _ _ _ _ _ _ Hc E) as [n1 K]. exists (n + n1). intros m Hm.
  rewrite (pass_symbol c m (run c m None) es h names args (ESym h :: args') es1); auto.
  - destruct (H m ltac:(lia)) as [this F].
    rewrite (head_builtin c m (run c m None) es1 h nm f (ESym h :: args') _ r this es2 S1 T F NR). reflexivity.
  - apply (system_attrs _ _ _ S).
  - apply K. lia.
  - constructor; [apply ordinary_sym|exact O].
  - discriminate.
Qed.

Lemma head_arg c es h names l r es1 : no_value es h -> es_thrown es = None ->
  evals_args c (holds names) 1 es l r es1 -> evals_args c (holds names) 0 es (ESym h :: l) (ESym h :: r) es1.
Proof.
  intros N0 T0 H. destruct (part_held (strings_to_attributes names) 0) eqn:Q.
  - apply EA_held; [apply part_held_spec, Q|exact H].
  - apply (EA_eval _ _ _ _ _ _ es); [intro K; apply part_held_spec in K; congruence|apply value_sym, N0|exact T0|exact H].
Qed.

Lemma held_rest c (held : nat -> Prop) i es l : (forall j, i <= j -> held j) -> evals_args c held i es l l es.
Proof.
  revert i. induction l as [|p t IH]; intros i H; [apply EA_nil|].
  apply EA_held; [apply H; lia|]. apply IH. intros j Hj. apply H. lia.
Qed.

Lemma evals_all_large c es l vs es1 : cfg_mono c -> evals_list c es l vs es1 ->
  exists n, forall m, n <= m -> eval_all (run c m None) es l = Ret (vs, es1).
Proof. apply evals_list_large. Qed.

Lemma trueQ_eq v : trueQ v = true <-> v = sTrue.
Proof.
  unfold trueQ. destruct v; try (split; [discriminate|intro K; discriminate K]).
  rewrite String.eqb_eq. split; [intros ->; reflexivity|intro K; injection K as ->; reflexivity].
Qed.
Lemma falseQ_eq v : falseQ v = true <-> v = sFalse.
Proof.
  unfold falseQ. destruct v; try (split; [discriminate|intro K; discriminate K]).
  rewrite String.eqb_eq. split; [intros ->; reflexivity|intro K; injection K as ->; reflexivity].
Qed.
Lemma not_stop_false vs : ~ In sFalse vs -> Forall (fun v => booleanQ v && falseQ v = false) vs.
Proof.
  intro N. apply Forall_forall. intros v I. destruct (falseQ v) eqn:F; [|apply andb_false_r].
  apply falseQ_eq in F. subst. contradiction.
Qed.
Lemma not_stop_true vs : ~ In sTrue vs -> Forall (fun v => booleanQ v && trueQ v = false) vs.
Proof.
  intro N. apply Forall_forall. intros v I. destruct (trueQ v) eqn:F; [|apply andb_false_r].
  apply trueQ_eq in F. subst. contradiction.
Qed.
