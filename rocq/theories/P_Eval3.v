(* Evaluator: big-step rules derived from the loop. *)
From Verif Require Import M_Syntax M_Float M_Hash M_Sort M_Num M_Arith M_Compare M_Match M_Defs M_Eval S_Eval P_Hash P_MatchFuel P_Eval P_Eval2.
Open Scope nat_scope.

Lemma evals_det c es e v1 es1 v2 es2 : cfg_mono c -> evals_to c es e v1 es1 -> evals_to c es e v2 es2 -> v1 = v2 /\ es1 = es2.
Proof.
  intros Hc [n1 H1] [n2 H2].
  assert (K1 := ret_mono c n1 (n1 + n2) None es e _ Hc ltac:(lia) H1).
  assert (K2 := ret_mono c n2 (n1 + n2) None es e _ Hc ltac:(lia) H2).
  rewrite K1 in K2. injection K2 as -> ->. auto.
Qed.

Lemma run_expr c k last es parts : hash (EExpr parts) <> last ->
  run c (S k) (Some (last, false)) es (EExpr parts) =
  obind (pass c k (run c k None) es parts) (fun '(o, es1) =>
    match o with inl v => Ret (v, es1) | inr (e', b) => run c k (Some (hash (EExpr parts), b)) es1 e' end).
Proof.
  intro H. cbn [run]. rewrite (proj2 (N.eqb_neq _ _) H). cbn [orb]. reflexivity.
Qed.
Lemma run_stop c k last b es e : hash e = last -> run c (S k) (Some (last, b)) es e = Ret (e, es).
Proof. intro H. cbn [run]. rewrite H, N.eqb_refl. reflexivity. Qed.

(* evaluating an expression whose first pass returns a value directly *)
Lemma evals_inl c es parts v es1 : cfg_mono c -> hash_ok (EExpr parts) ->
  (exists n, forall m, n <= m -> pass c m (run c m None) es parts = Ret (inl v, es1)) ->
  evals_to c es (EExpr parts) v es1.
Proof.
  intros Hc Hh [n H]. exists (S (S n)). unfold eval.
  change (run c (S (S n)) None es (EExpr parts)) with (run c (S n) (Some (0%N, false)) es (EExpr parts)).
  rewrite run_expr by exact Hh. rewrite (H n) by lia. reflexivity.
Qed.

Lemma run_none_atom c k es e last b : is_expr e = false -> hash e <> last ->
  run c (S k) (Some (last, b)) es e = run c k None es e.
Proof.
  intros He H. cbn [run]. rewrite (proj2 (N.eqb_neq _ _) H). destruct e; try reflexivity. discriminate He.
Qed.

Lemma cont_eval c es last e' v es2 : cfg_mono c -> hash e' <> 0%N -> hash e' <> last ->
  evals_to c es e' v es2 -> exists n, forall m, n <= m -> run c m (Some (last, false)) es e' = Ret (v, es2).
Proof.
  intros Hc Hz Hn [n H]. exists (S n). intros m Hm. unfold eval in H.
  apply (ret_mono c (S n) m _ es e' (v, es2) Hc Hm).
  destruct (is_expr e') eqn:E.
  - destruct e' as [s|s|z|p q|f|re im|l']; try discriminate E.
    apply (ret_mono c n (S (S n)) _ _ _ _ Hc ltac:(lia)) in H.
    change (run c (S (S n)) None es (EExpr l')) with (run c (S n) (Some (0%N, false)) es (EExpr l')) in H.
    rewrite run_expr in H by exact Hz. rewrite run_expr by exact Hn. exact H.
  - rewrite run_none_atom by assumption. exact H.
Qed.

Lemma evals_next c es parts e' es1 v es2 : cfg_mono c -> hash_ok (EExpr parts) -> no_clash (EExpr parts) e' ->
  (exists n, forall m, n <= m -> pass c m (run c m None) es parts = Ret (inr (e', false), es1)) ->
  evals_to c es1 e' v es2 -> evals_to c es (EExpr parts) v es2.
Proof.
  intros Hc Hh [Hz Hn] [n H] H2.
  destruct (cont_eval c es1 (hash (EExpr parts)) e' v es2 Hc Hz Hn H2) as [n2 K].
  exists (S (S (n + n2))). unfold eval.
  change (run c (S (S (n + n2))) None es (EExpr parts)) with (run c (S (n + n2)) (Some (0%N, false)) es (EExpr parts)).
  rewrite run_expr by exact Hh. rewrite (H (n + n2)) by lia. cbn [obind]. apply K. lia.
Qed.

(* atoms that are their own value, whatever the hash *)
Lemma evals_next_value c es parts e' es1 : cfg_mono c -> hash_ok (EExpr parts) -> is_expr e' = false ->
  (exists n, forall m, n <= m -> pass c m (run c m None) es parts = Ret (inr (e', false), es1)) ->
  value c es1 e' -> evals_to c es (EExpr parts) e' es1.
Proof.
  intros Hc Hh He [n H] [n2 H2].
  exists (S (S (n + S n2))). unfold eval in *.
  change (run c (S (S (n + S n2))) None es (EExpr parts)) with (run c (S (n + S n2)) (Some (0%N, false)) es (EExpr parts)).
  rewrite run_expr by exact Hh. rewrite (H (n + S n2)) by lia. cbn [obind].
  replace (n + S n2) with (S (n + n2)) by lia.
  destruct (N.eq_dec (hash e') (hash (EExpr parts))) as [E|E].
  - apply run_stop, E.
  - rewrite run_none_atom by assumption. apply (ret_mono c n2 (n + n2) _ _ _ _ Hc ltac:(lia) H2).
Qed.

(* a fixed point of the pass *)
Lemma evals_fixed c es parts b : cfg_mono c ->
  (exists n, forall m, n <= m -> pass c m (run c m None) es parts = Ret (inr (EExpr parts, b), es)) ->
  value c es (EExpr parts).
Proof.
  intros Hc [n H]. unfold value. destruct (N.eq_dec (hash (EExpr parts)) 0%N) as [Z|Z].
  - exists 2. unfold eval. change (run c 2 None es (EExpr parts)) with (run c 1 (Some (0%N, false)) es (EExpr parts)).
    apply run_stop, Z.
  - exists (S (S (S n))). unfold eval.
    change (run c (S (S (S n))) None es (EExpr parts)) with (run c (S (S n)) (Some (0%N, false)) es (EExpr parts)).
    rewrite run_expr by exact Z. rewrite (H (S n)) by lia. cbn [obind]. apply run_stop. reflexivity.
Qed.

Lemma value_sym c es s : no_value es s -> value c es (ESym s).
Proof. intro H. exists 1. unfold eval. cbn [run]. unfold no_value in H. rewrite H. reflexivity. Qed.
Lemma value_int c es z : value c es (EInt z).
Proof. exists 1. reflexivity. Qed.
Lemma value_str c es z : value c es (EStr z).
Proof. exists 1. reflexivity. Qed.

(* evaluation of lists of arguments for all large fuels *)
Lemma evals_large c es e v es1 : cfg_mono c -> evals_to c es e v es1 -> exists n, forall m, n <= m -> run c m None es e = Ret (v, es1).
Proof. intros Hc [n H]. exists n. intros m Hm. exact (ret_mono c n m None es e _ Hc Hm H). Qed.

Lemma evals_args_large c held i es l r es' : cfg_mono c -> evals_args c held i es l r es' ->
  exists n, forall m, n <= m -> arg_pass (run c m None) held i es l r es'.
Proof.
  intros Hc. induction 1 as [i es|i es p l r es' Hh _ [n IH]|i es p v es1 l r es' Hh He T _ [n IH]].
  - exists 0. intros m _. apply AP_nil.
  - exists n. intros m Hm. apply AP_held; auto.
  - destruct (evals_large c es p v es1 Hc He) as [n1 K]. exists (n + n1). intros m Hm.
    apply (AP_eval _ _ _ _ _ v es1); auto; [apply K; lia|apply IH; lia].
Qed.

Lemma evals_list_large c es l r es' : cfg_mono c -> evals_list c es l r es' ->
  exists n, forall m, n <= m -> eval_all (run c m None) es l = Ret (r, es').
Proof.
  intros Hc. induction 1 as [es|es e v es1 l vs es2 He _ [n IH]].
  - exists 0. reflexivity.
  - destruct (evals_large c es e v es1 Hc He) as [n1 K]. exists (n + n1). intros m Hm. cbn [eval_all].
    rewrite K by lia. cbn [obind]. rewrite IH by lia. reflexivity.
Qed.

(* HoldAll functions: nothing is evaluated *)
Lemma holds_all names i : In "HoldAll"%string names \/ In "HoldAllComplete"%string names -> holds names i.
Proof. unfold holds. tauto. Qed.
Lemma arg_pass_hold ev (held : nat -> Prop) : (forall i, held i) -> forall l i es, arg_pass ev held i es l l es.
Proof. intros H. induction l as [|p t IH]; intros i es; [apply AP_nil|apply AP_held; auto]. Qed.

Lemma head_builtin c k ev es h names f l l2 r this es1 :
  system_fn es h names -> assoc (table c) h = Some f ->
  f k ev es l = Ret (r, this, es1) -> no_rules es1 h ->
  apply_head c k ev es h l2 l = Ret (r, false, es1).
Proof.
  intros [d [L [B _]]] T F N. unfold apply_head. rewrite L, B. unfold builtin_of. rewrite T, F. cbn [obind].
  destruct (is_sameq r (EExpr this)); [|reflexivity].
  unfold get_def. destruct (lookup (es_defs es1) h) as [d1|] eqn:L1; [|reflexivity].
  rewrite (N d1 L1). reflexivity.
Qed.
