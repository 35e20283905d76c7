(* Lemmas about M_Callback.v: monotonicity in the bounds, and one evaluation pass
   over a call of such a builtin. *)
From Verif Require Import M_Syntax M_Float M_Hash M_Sort M_Num M_Arith M_Compare M_Match M_Defs M_Eval M_Callback S_Eval P_Hash P_MatchFuel P_Eval P_Eval2 P_Eval3 P_Eval4.
Open Scope nat_scope.

Lemma select_mono : mono select_fn.
Proof.
  intros k1 k2 e1 e2 es l _ He. unfold select_fn. cbv zeta.
  assert (L : forall f n l es a, ole (select_loop e1 f n es l a) (select_loop e2 f n es l a)).
  { intros f n. induction l0 as [|p t IH]; intros es0 a; cbn [select_loop]; [apply ole_refl|].
    destruct (n <=? a)%Z; [apply ole_refl|]. apply ole_bind; [apply He|]. intros [r es1]. destruct (trueQ r); [|apply IH].
    apply ole_bind; [apply IH|]. intros [k es2]. apply ole_refl. }
  assert (G : forall e f n, ole (match e with EExpr (h :: l0) => obind (select_loop e1 f n es l0 0) (fun '(k, es1) => Ret (EExpr (h :: k), l, es1)) | _ => unchanged_this l es end)
                               (match e with EExpr (h :: l0) => obind (select_loop e2 f n es l0 0) (fun '(k, es1) => Ret (EExpr (h :: k), l, es1)) | _ => unchanged_this l es end)).
  { intros e f n. destruct e as [| | | | | |[|h t]]; try apply ole_refl. apply ole_bind; [apply L|]. intros [k es1]. apply ole_refl. }
  destruct l as [|x0 [|x1 [|x2 [|[| | | | | |] [|]]]]]; try apply ole_refl; [apply G|]. destruct (wrap64 _ <? 0)%Z; [apply ole_refl|apply G].
Qed.
Lemma scan_mono : mono scan_fn.
Proof.
  intros k1 k2 e1 e2 es l _ He. unfold scan_fn. destruct l as [|x0 [|f [|[| | | | | |[|h t]] [|]]]]; try apply ole_refl.
  apply ole_bind; [|intros [r es1]; apply ole_refl].
  revert es. induction t as [|p t IH]; intro es; cbn [scan_loop]; [apply ole_refl|]. apply ole_bind; [apply He|]. intros [r es1].
  destruct (es_thrown es1); [apply ole_refl|]. destruct (return_value r); [apply ole_refl|apply IH].
Qed.
Lemma fixed_point_mono : mono fixed_point_fn.
Proof.
  intros k1 k2 e1 e2 es l Hk He. unfold fixed_point_fn. destruct l as [|x0 [|f [|e [|]]]]; try apply ole_refl.
  apply ole_bind; [|intros [r es1]; apply ole_refl].
  revert k2 Hk es e. induction k1 as [|k1 IH]; intros k2 Hk es e; [apply ole_more|]. destruct k2 as [|k2]; [lia|]. cbn [fixed_point_loop].
  apply ole_bind; [apply He|]. intros [r es1]. destruct (is_sameq e r); [apply ole_refl|]. apply IH; lia.
Qed.
Lemma replace_repeated_mono : mono replace_repeated_fn.
Proof.
  intros k1 k2 e1 e2 es l Hk He. unfold replace_repeated_fn. destruct l as [|x0 [|e [|rs [|]]]]; try apply ole_refl.
  apply ole_bind; [|intros [r es1]; apply ole_refl].
  revert k2 Hk es e. induction k1 as [|k1 IH]; intros k2 Hk es e; [apply ole_more|]. destruct k2 as [|k2]; [lia|]. cbn [replace_repeated_loop].
  apply ole_bind; [apply He|]. intros [r es1]. destruct (is_sameq e r); [apply ole_refl|]. apply IH; lia.
Qed.
Lemma nest_while_loop_mono fmt f test m limit e1 e2 : ev_le e1 e2 -> forall k1 k2 i es e vs, k1 <= k2 ->
  ole (nest_while_loop fmt k1 e1 f test m limit i es e vs) (nest_while_loop fmt k2 e2 f test m limit i es e vs).
Proof.
  intro He. induction k1 as [|k1 IH]; intros k2 i es e vs Hk; [apply ole_more|]. destruct k2 as [|k2]; [lia|]. cbn [nest_while_loop]. cbv zeta.
  apply ole_bind; [apply He|]. intros [v es1]. apply ole_bind.
  - destruct (m <=? i)%Z; [|apply ole_refl]. apply ole_bind; [apply He|]. intros [r es2]. apply ole_refl.
  - intros [b es2]. destruct (b && _); [|apply ole_refl]. apply ole_bind; [apply IH; lia|]. intros [[l x] es3]. apply ole_refl.
Qed.
Lemma nest_while_mono fmt : mono (nest_while_fn fmt).
Proof.
  intros k1 k2 e1 e2 es l Hk He. unfold nest_while_fn. cbv zeta.
  assert (G : forall f e test m limit n,
    ole (obind (e1 es e) (fun '(v, es1) => obind (nest_while_loop fmt k1 e1 f test m limit 2 es1 e [v]) (fun '(l0, last, es2) => Ret (mkList (e :: l0 ++ bonus f last n), l, es2))))
        (obind (e2 es e) (fun '(v, es1) => obind (nest_while_loop fmt k2 e2 f test m limit 2 es1 e [v]) (fun '(l0, last, es2) => Ret (mkList (e :: l0 ++ bonus f last n), l, es2))))).
  { intros f e test m limit n. apply ole_bind; [apply He|]. intros [v es1]. apply ole_bind; [apply nest_while_loop_mono; assumption|]. intros [[l0 x] es2]. apply ole_refl. }
  destruct l as [|x0 [|f [|e [|test [|m [|mx [|n [|]]]]]]]]; try apply ole_refl; [apply G| | |].
  - destruct (bound_arg "All" m); [apply G|apply ole_refl].
  - destruct (bound_arg "All" m); [|apply ole_refl]. destruct (bound_arg "Infinity" mx); [apply G|apply ole_refl].
  - destruct (bound_arg "All" m); [|apply ole_refl]. destruct (bound_arg "Infinity" mx); [apply G|apply ole_refl].
Qed.
Lemma callbacks_mono fmt n b : callbacks fmt n = Some b -> mono b.
Proof.
  unfold callbacks. repeat match goal with |- context [if ?x then _ else _] => destruct x; [intro K; injection K as <-|] end;
    [apply select_mono|apply scan_mono|apply fixed_point_mono|apply nest_while_mono|apply replace_repeated_mono|discriminate].
Qed.

(* one pass over a call of a builtin, wherever it is found *)
Lemma builtin_pass c es h names args args' f r es1 es2 : cfg_mono c ->
  system_fn es h names -> (exists nm, system_fn es1 h nm) ->
  ~ In "NumericFunction"%string names -> ~ In "Flat"%string names -> ~ In "Orderless"%string names -> ~ In "Listable"%string names ->
  evals_args c (holds names) 0 es (ESym h :: args) (ESym h :: args') es1 -> Forall ordinary_arg args' ->
  builtin_of c h = Some f -> no_rules es2 h ->
  (exists n, forall m, n <= m -> exists this, f m (run c m None) es1 (ESym h :: args') = Ret (r, this, es2)) ->
  exists n, forall m, n <= m -> pass c m (run c m None) es (ESym h :: args) = Ret (inr (r, false), es2).
Proof.
  intros Hc S0 [nm S1] N1 N2 N3 N4 E O T NR [n H].
  destruct (evals_args_large c _ _ _ _ _ _ Hc E) as [n1 K]. exists (n + n1). intros m Hm.
  rewrite (pass_symbol c m (run c m None) es h names args (ESym h :: args') es1); auto.
  - destruct (H m ltac:(lia)) as [this F]. destruct S1 as [d [L [B _]]]. unfold apply_head. rewrite L, B, T, F. cbn [obind].
    destruct (is_sameq r (EExpr this)); [|reflexivity].
    unfold get_def. destruct (lookup (es_defs es2) h) as [d1|] eqn:L1; [|reflexivity].
    rewrite (NR d1 L1). reflexivity.
  - apply (system_attrs _ _ _ S0).
  - apply K. lia.
  - constructor; [apply ordinary_sym|exact O].
  - discriminate.
Qed.
