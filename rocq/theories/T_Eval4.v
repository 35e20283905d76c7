(* Property theorems: exceptions (C47). *)
From Verif Require Import M_Syntax M_Float M_Hash M_Sort M_Num M_Arith M_Compare M_Match M_Defs M_Eval S_Eval P_Hash P_MatchFuel P_Eval P_Eval2 P_Eval3 P_Eval4 T_Eval T_Eval2 T_Eval3.
Open Scope nat_scope.

Lemma raised_state c es e v es' : raises c es e v es' -> es_thrown es' = Some (fn "Throw" [v]).
Proof. induction 1; auto. Qed.

Lemma not_in_one a b : a <> b -> ~ In a [b : string].
Proof. intros N [K|[]]. congruence. Qed.
Ltac nin := apply not_in_one; discriminate.

Lemma prot_free i : ~ holds ["Protected"%string] i.
Proof. intros [K|[K|[[_ K]|[_ K]]]]; revert K; nin. Qed.

(* an expression Throw[v] met while an exception is pending is left at once *)
Lemma pending_throw c es args last : throw_ok es -> es_thrown es = Some (fn "Throw" args) ->
  exists n, forall m, n <= m -> run c m (Some (last, false)) es (fn "Throw" args) = Ret (fn "Throw" args, es).
Proof.
  intros [S [NR NV]] T. exists 3. intros m Hm.
  destruct m as [|[|[|m]]]; try lia. destruct (N.eq_dec (hash (fn "Throw" args)) last) as [E|E].
  - apply run_stop, E.
  - unfold fn at 1. rewrite run_expr by exact E.
    unfold pass, sys. cbv zeta. rewrite (system_attrs _ _ _ S), numeric_off by nin.
    cbn [eval_parts].
    replace (part_held _ 0) with false.
    2:{ symmetry. destruct (part_held (strings_to_attributes ["Protected"%string]) 0) eqn:Q; [|reflexivity].
        apply part_held_spec in Q. exfalso. apply (prot_free _ Q). }
    unfold no_value in NV. cbn [run]. rewrite NV. cbn [obind]. rewrite T. reflexivity.
Qed.

Lemma has_head_headed e h : has_head e h = true -> headed e h.
Proof.
  unfold has_head, head_assertion. destruct e as [| | | | | |[|[hh| | | | | |] t]]; try discriminate.
  destruct (String.eqb_spec hh h) as [->|]; [|discriminate]. exists t. reflexivity.
Qed.
Lemma compound_raise c es pre es1 a post r th es2 : cfg_mono c -> runs c es pre es1 ->
  (exists n, forall m, n <= m -> run c m None es1 a = Ret (r, es2)) -> es_thrown es2 = Some th ->
  exists n, forall m, n <= m -> forall last, compound_loop (run c m None) es (pre ++ a :: post) last = Ret (Some th, es2).
Proof.
  intros Hc R [n1 E] T. induction R as [es|es b s es0 l es3 Eb Tb Nr _ IH].
  - exists n1. intros m Hm last. cbn [app compound_loop]. rewrite (E m Hm). cbn [obind]. rewrite T. reflexivity.
  - destruct (IH E) as [n2 K]. destruct (evals_large c _ _ _ _ Hc Eb) as [n3 K3]. exists (n2 + n3). intros m Hm last.
    cbn [app compound_loop]. rewrite K3 by lia. cbn [obind]. rewrite Tb.
    replace (has_head s (sysname "Return")) with false; [apply K; lia|].
    symmetry. destruct (has_head s (sysname "Return")) eqn:Q; [|reflexivity]. exfalso. apply Nr.
    apply has_head_headed, Q.
Qed.

Lemma prot_not a : a <> "Protected"%string -> ~ In a ["Protected"%string].
Proof. apply not_in_one. Qed.
Lemma ce_not a : In a ["NumericFunction"; "Flat"; "Orderless"; "Listable"]%string -> ~ In a ["HoldAll"; "ReadProtected"; "Protected"]%string.
Proof.
  intros I K. cbn in I, K. destruct K as [<-|[<-|[<-|[]]]]; repeat (destruct I as [I|I]; [discriminate I|]); exact I.
Qed.

(* After a Throw nothing more is evaluated: the result is Throw[v], the pending
   exception is Throw[v], and the state is the one at the moment of the throw --
   whatever the later arguments and statements are. *)
Theorem C47_unwinds : forall c es e v es', cfg_mono c -> raises c es e v es' ->
  evals_to c es e (fn "Throw" [v]) es' /\ es_thrown es' = Some (fn "Throw" [v]).
Proof.
  intros c es e v es' Hc H. assert (T' := raised_state c es e v es' H). split; [|exact T'].
  induction H as [es a v es1 O O1 T E T1 Ov Hz|es h names pre pre' es1 a post v es2 A Nn NV T Ea Nh Hz H IH
                 |es pre es1 a post v es2 Sy NR O2 R Or Hz H IH].
  - assert (O2 : throw_ok (with_thrown es1 (Some (fn "Throw" [v])))) by exact O1.
    destruct O as [Sy [NR NV]], O1 as [S1 [NR1 NV1]].
    assert (P : exists n, forall m, n <= m -> pass c m (run c m None) es [sys "Throw"; a] = Ret (inr (fn "Throw" [v], false), with_thrown es1 (Some (fn "Throw" [v])))).
    { apply (system_pass c es (sysname "Throw") ["Protected"%string] [a] [v] throw_fn (fn "Throw" [v]) es1 _ Hc Sy (ex_intro _ _ S1)); try nin; auto.
      - apply head_arg; auto. apply (EA_eval _ _ _ _ _ _ es1); auto; [apply prot_free|apply EA_nil].
      - exists 0. intros m _. exists [sys "Throw"; v]. reflexivity. }
    destruct P as [n P]. destruct (pending_throw c (with_thrown es1 (Some (fn "Throw" [v]))) [v] (hash (EExpr [sys "Throw"; a])) O2 eq_refl) as [n2 K].
    exists (S (S (n + n2))). unfold eval.
    change (run c (S (S (n + n2))) None es (EExpr [sys "Throw"; a])) with (run c (S (n + n2)) (Some (0%N, false)) es (EExpr [sys "Throw"; a])).
    rewrite run_expr by exact Hz. rewrite P by lia. cbn [obind]. apply K. lia.
  - specialize (IH T'). apply (evals_inl c es (ESym h :: pre ++ a :: post) _ _ Hc Hz).
    destruct (evals_large c _ _ _ _ Hc IH) as [n1 K1].
    assert (Q : exists n, forall m, n <= m -> arg_throws (run c m None) (holds names) 0 es (ESym h :: pre ++ a :: post) (fn "Throw" [v]) es2).
    { assert (G : forall i es pre pre' es1, evals_args c (holds names) i es pre pre' es1 -> ~ holds names (i + length pre) ->
        (exists n, forall m, n <= m -> run c m None es1 a = Ret (fn "Throw" [v], es2)) ->
        exists n, forall m, n <= m -> arg_throws (run c m None) (holds names) i es (pre ++ a :: post) (fn "Throw" [v]) es2).
      { clear - Hc T'. induction 1 as [i es|i es p l r es' Hh _ IH|i es p w es1 l r es' Hh He T _ IH]; intros Nh Ex.
        - destruct Ex as [n K]. exists n. intros m Hm. apply (AT_here _ _ _ _ _ (fn "Throw" [v])); auto. rewrite Nat.add_0_r in Nh. exact Nh.
        - destruct IH as [n K]; [cbn [length] in Nh; rewrite Nat.add_succ_r in Nh; exact Nh|exact Ex|].
          exists n. intros m Hm. apply AT_held; auto.
        - destruct IH as [n K]; [cbn [length] in Nh; rewrite Nat.add_succ_r in Nh; exact Nh|exact Ex|].
          destruct (evals_large c _ _ _ _ Hc He) as [n2 K2].
          exists (n + n2). intros m Hm. apply (AT_eval _ _ _ _ _ w es1); auto; [apply K2; lia|apply K; lia]. }
      destruct (G 1 es pre pre' es1 Ea Nh (ex_intro _ n1 K1)) as [n2 K2]. exists (S n2). intros m Hm.
      destruct (part_held (strings_to_attributes names) 0) eqn:Qh.
      - apply AT_held; [apply part_held_spec, Qh|apply K2; lia].
      - apply (AT_eval _ _ _ _ _ (ESym h) es); [intro B; apply part_held_spec in B; congruence| |exact T|apply K2; lia].
        destruct m; [lia|]. cbn [run]. unfold no_value in NV. rewrite NV. reflexivity. }
    destruct Q as [n Q]. exists n. intros m Hm. unfold pass. cbv zeta. rewrite A, numeric_off by exact Nn.
    rewrite (proj2 (eval_parts_throw (run c m None) names (ESym h :: pre ++ a :: post) 0 es (fn "Throw" [v]) es2) (Q m Hm)). reflexivity.
  - specialize (IH T'). destruct (compound_raise c es pre es1 a post _ _ es2 Hc R (evals_large c _ _ _ _ Hc IH) T') as [n1 K1].
    assert (P : exists n, forall m, n <= m -> pass c m (run c m None) es (sys "CompoundExpression" :: pre ++ a :: post) = Ret (inr (fn "Throw" [v], false), es2)).
    { apply (system_pass c es (sysname "CompoundExpression") ["HoldAll"; "ReadProtected"; "Protected"]%string (pre ++ a :: post) (pre ++ a :: post) compound_fn (fn "Throw" [v]) es es2 Hc Sy (ex_intro _ _ Sy));
        try (apply ce_not; cbn; tauto); auto.
      - apply held_rest. intros j _. left. cbn; tauto.
      - exists n1. intros m Hm. exists (sys "CompoundExpression" :: pre ++ a :: post). unfold compound_fn. cbn [tl]. rewrite (K1 m Hm). reflexivity. }
    destruct P as [n P]. destruct (pending_throw c es2 [v] (hash (EExpr (sys "CompoundExpression" :: pre ++ a :: post))) O2 T') as [n2 K].
    exists (S (S (n + n2))). unfold eval.
    change (run c (S (S (n + n2))) None es (EExpr (sys "CompoundExpression" :: pre ++ a :: post))) with (run c (S (n + n2)) (Some (0%N, false)) es (EExpr (sys "CompoundExpression" :: pre ++ a :: post))).
    rewrite run_expr by exact Hz. rewrite P by lia. cbn [obind]. apply K. lia.
Qed.
Print Assumptions C47_unwinds.

Definition catch_attrs : list string := ["HoldFirst"; "Protected"]%string.
Lemma catch_not a : In a ["NumericFunction"; "Flat"; "Orderless"; "Listable"; "HoldRest"; "HoldAll"; "HoldAllComplete"]%string -> ~ In a catch_attrs.
Proof.
  unfold catch_attrs. intros I K. cbn in I, K. destruct K as [<-|[<-|[]]]; repeat (destruct I as [I|I]; [discriminate I|]); exact I.
Qed.
Lemma catch_pass c es e r es1 w es2 : cfg_mono c -> ready es "Catch" catch_attrs -> ordinary_arg e ->
  evals_to c es e r es1 -> no_rules es2 (sysname "Catch") ->
  match es_thrown es1 with
  | Some (EExpr (_ :: v :: _)) => (v, with_thrown es1 None) = (w, es2)
  | Some _ => False
  | None => (r, es1) = (w, es2)
  end ->
  exists n, forall m, n <= m -> pass c m (run c m None) es [sys "Catch"; e] = Ret (inr (w, false), es2).
Proof.
  intros Hc [Sy [NR [NV T]]] O E NR2 H.
  apply (system_pass c es (sysname "Catch") catch_attrs [e] [e] catch_fn w es es2 Hc Sy (ex_intro _ _ Sy)); try (apply catch_not; cbn; tauto); auto.
  - apply head_arg; auto. apply EA_held; [|apply EA_nil]. right; right; left. split; [reflexivity|]. unfold catch_attrs; cbn; tauto.
  - destruct (evals_large c _ _ _ _ Hc E) as [n K]. exists n. intros m Hm. exists [sys "Catch"; e].
    unfold catch_fn. rewrite (K m Hm). cbn [obind]. destruct (es_thrown es1) as [th|].
    + destruct th as [s|s|z|p q|f|re im|[|h0 [|v0 t0]]]; try contradiction. injection H as -> ->. reflexivity.
    + injection H as -> ->. reflexivity.
Qed.

(* Catch[e] when e throws v: the result is v (evaluated once more, in the state
   at the throw), and no exception is pending. *)
Theorem C47_catch_thrown : forall c es e v es1 w es2, cfg_mono c ->
  ready es "Catch" catch_attrs -> no_rules es1 (sysname "Catch") -> ordinary_arg e ->
  raises c es e v es1 -> hash_ok (fn "Catch" [e]) -> no_clash (fn "Catch" [e]) v ->
  evals_to c (with_thrown es1 None) v w es2 ->
  evals_to c es (fn "Catch" [e]) w es2.
Proof.
  intros c es e v es1 w es2 Hc R NR O H Hz Nc E.
  destruct (C47_unwinds c es e v es1 Hc H) as [Ev T].
  apply (evals_next c es [sys "Catch"; e] v (with_thrown es1 None) w es2 Hc Hz Nc); [|exact E].
  apply (catch_pass c es e (fn "Throw" [v]) es1 v (with_thrown es1 None) Hc R O Ev); [exact NR|].
  rewrite T. reflexivity.
Qed.
Print Assumptions C47_catch_thrown.
(* in particular: a value comes back unchanged and the only difference to the
   state at the throw is that the exception is gone *)
Theorem C47_catch_value_thrown : forall c es e v es1, cfg_mono c ->
  ready es "Catch" catch_attrs -> no_rules es1 (sysname "Catch") -> ordinary_arg e ->
  raises c es e v es1 -> hash_ok (fn "Catch" [e]) -> no_clash (fn "Catch" [e]) v ->
  value c (with_thrown es1 None) v ->
  evals_to c es (fn "Catch" [e]) v (with_thrown es1 None) /\ es_thrown (with_thrown es1 None) = None.
Proof.
  intros c es e v es1 Hc R NR O H Hz Nc V. split; [|reflexivity].
  exact (C47_catch_thrown c es e v es1 v (with_thrown es1 None) Hc R NR O H Hz Nc V).
Qed.
Print Assumptions C47_catch_value_thrown.
(* Catch[e] when e does not throw *)
Theorem C47_catch_nothing : forall c es e v es1 w es2, cfg_mono c ->
  ready es "Catch" catch_attrs -> no_rules es1 (sysname "Catch") -> ordinary_arg e ->
  evals_to c es e v es1 -> es_thrown es1 = None -> hash_ok (fn "Catch" [e]) -> no_clash (fn "Catch" [e]) v ->
  evals_to c es1 v w es2 ->
  evals_to c es (fn "Catch" [e]) w es2.
Proof.
  intros c es e v es1 w es2 Hc R NR O Ev T Hz Nc E.
  apply (evals_next c es [sys "Catch"; e] v es1 w es2 Hc Hz Nc); [|exact E].
  apply (catch_pass c es e v es1 v es1 Hc R O Ev); [exact NR|].
  rewrite T. reflexivity.
Qed.
Print Assumptions C47_catch_nothing.

Lemma throw_ok0 : throw_ok es0.
Proof.
  split; [eexists; split; [vm_compute; reflexivity|split; reflexivity]|].
  split; [intros d K; vm_compute in K; injection K as <-; reflexivity|vm_compute; reflexivity].
Qed.
Lemma ready_catch : ready es0 "Catch" catch_attrs.
Proof.
  split; [eexists; split; [vm_compute; reflexivity|split; reflexivity]|].
  split; [intros d K; vm_compute in K; injection K as <-; reflexivity|split; vm_compute; reflexivity].
Qed.
Ltac hok := let K := fresh in intro K; vm_compute in K; discriminate K.
(* Catch[f[1, (y; g[Throw[3]]; While[True, 0]), While[True, 0]]] is 3, although
   neither loop would end *)
Example C47_ex : evals_to c0 es0
  (fn "Catch" [uf "f" [EInt 1; fn "CompoundExpression" [gl "y"; uf "g" [fn "Throw" [EInt 3]]; fn "While" [sTrue; EInt 0]]; fn "While" [sTrue; EInt 0]]])
  (EInt 3) es0.
Proof.
  refine (proj1 (C47_catch_value_thrown c0 es0 _ (EInt 3) (with_thrown es0 (Some (fn "Throw" [EInt 3]))) c0_mono ready_catch _ _ _ _ _ (value_int _ _ _))).
  - intros d K; vm_compute in K; injection K as <-; reflexivity.
  - repeat split; not_headed.
  - refine (R_arg c0 es0 "Global`f" [] [EInt 1] [EInt 1] es0 _ [fn "While" [sTrue; EInt 0]] (EInt 3) _ _ _ _ _ _ _ _ _).
    + vm_compute; reflexivity.
    + intros [].
    + vm_compute; reflexivity.
    + reflexivity.
    + apply (EA_eval _ _ _ _ _ _ es0); [intros [K|[K|[[_ K]|[_ K]]]]; inversion K|apply value_int|reflexivity|apply EA_nil].
    + intros [K|[K|[[_ K]|[_ K]]]]; inversion K.
    + hok.
    + refine (R_seq c0 es0 [gl "y"] es0 _ [fn "While" [sTrue; EInt 0]] (EInt 3) _ _ _ _ _ _ _ _).
      * eexists; split; [vm_compute; reflexivity|split; reflexivity].
      * intros d K; vm_compute in K; injection K as <-; reflexivity.
      * exact throw_ok0.
      * apply (RN_cons _ _ _ (gl "y") es0); [exists 1; vm_compute; reflexivity|reflexivity|not_headed|apply RN_nil].
      * repeat constructor; not_headed.
      * hok.
      * refine (R_arg c0 es0 "Global`g" [] [] [] es0 _ [] (EInt 3) _ _ _ _ _ _ _ _ _).
        -- vm_compute; reflexivity.
        -- intros [].
        -- vm_compute; reflexivity.
        -- reflexivity.
        -- apply EA_nil.
        -- intros [K|[K|[[_ K]|[_ K]]]]; inversion K.
        -- hok.
        -- apply (R_throw c0 es0 (EInt 3) (EInt 3) es0); [exact throw_ok0|exact throw_ok0|reflexivity|apply value_int|reflexivity| |hok].
           repeat split; not_headed.
  - hok.
  - split; hok.
Qed.

(* Functions that evaluate their arguments themselves do not stop at a throw:
   And and Or go on with the next argument, so that in Catch[Throw[1] && (x := 2)]
   x is assigned although the Throw came first ... *)
Theorem C47_and_continues_refuted : exists es1,
  evals_to c0 es0 (fn "Catch" [fn "And" [fn "Throw" [EInt 1]; fn "SetDelayed" [gl "x"; EInt 2]]]) (EInt 1) es1 /\
  get_sym_def (es_defs es0) "Global`x" = None /\ get_sym_def (es_defs es1) "Global`x" = Some (EInt 2).
Proof.
  eexists. split; [exists 40; vm_compute; reflexivity|]. split; vm_compute; reflexivity.
Qed.
Print Assumptions C47_and_continues_refuted.

(* ... and a loop whose body throws never ends, so that Catch never returns:
   Catch[While[True, Throw[1]]] *)
Lemma diverges_large c es e n : cfg_mono c -> (forall m, n <= m -> eval c m es e = More) -> diverges c es e.
Proof.
  intros Hc H m. destruct (run_mono c m (n + m) Hc ltac:(lia) None es e) as [E|E]; [exact E|].
  unfold eval in *. rewrite E. apply H. lia.
Qed.
Lemma system_diverges c es h names args args' f es1 : cfg_mono c -> hash_ok (EExpr (ESym h :: args)) ->
  system_fn es h names -> (exists nm, system_fn es1 h nm) ->
  ~ In "NumericFunction"%string names -> ~ In "Flat"%string names -> ~ In "Orderless"%string names -> ~ In "Listable"%string names ->
  evals_args c (holds names) 0 es (ESym h :: args) (ESym h :: args') es1 -> Forall ordinary_arg args' ->
  assoc (table c) h = Some f ->
  (forall m, f m (run c m None) es1 (ESym h :: args') = More) ->
  diverges c es (EExpr (ESym h :: args)).
Proof.
  intros Hc Hz S0 [nm S1] N1 N2 N3 N4 E O T H.
  destruct (evals_args_large c _ _ _ _ _ _ Hc E) as [n1 K]. apply (diverges_large c es _ (S (S n1)) Hc). intros m Hm.
  destruct m as [|[|m]]; try lia. unfold eval.
  change (run c (S (S m)) None es (EExpr (ESym h :: args))) with (run c (S m) (Some (0%N, false)) es (EExpr (ESym h :: args))).
  rewrite run_expr by exact Hz.
  rewrite (pass_symbol c m (run c m None) es h names args (ESym h :: args') es1); auto.
  - unfold apply_head. destruct S1 as [d [L [B _]]]. rewrite L, B. unfold builtin_of. rewrite T, H. reflexivity.
  - apply (system_attrs _ _ _ S0).
  - apply K. lia.
  - constructor; [apply ordinary_sym|exact O].
  - discriminate.
Qed.
Lemma eval_or_more c es e v es1 m : cfg_mono c -> evals_to c es e v es1 -> run c m None es e = More \/ run c m None es e = Ret (v, es1).
Proof.
  intros Hc [n H]. destruct (run_mono c m (n + m) Hc ltac:(lia) None es e) as [E|E]; [left; exact E|right].
  rewrite E. apply (ret_mono c n (n + m) None es e _ Hc ltac:(lia) H).
Qed.
Definition es_t : estate := with_thrown es0 (Some (fn "Throw" [EInt 1])).
Lemma while_throw m k : while_loop k (run c0 m None) es0 sTrue (fn "Throw" [EInt 1]) = More.
Proof.
  assert (E1 : evals_to c0 es0 sTrue sTrue es0) by (exists 1; vm_compute; reflexivity).
  assert (E2 : evals_to c0 es_t sTrue sTrue es_t) by (exists 1; vm_compute; reflexivity).
  assert (E3 : evals_to c0 es0 (fn "Throw" [EInt 1]) (fn "Throw" [EInt 1]) es_t) by (exists 9; vm_compute; reflexivity).
  assert (E4 : evals_to c0 es_t (fn "Throw" [EInt 1]) (fn "Throw" [EInt 1]) es_t) by (exists 9; vm_compute; reflexivity).
  assert (L : forall k, while_loop k (run c0 m None) es_t sTrue (fn "Throw" [EInt 1]) = More).
  { clear k. induction k as [|k IH]; [reflexivity|]. cbn [while_loop].
    destruct (eval_or_more c0 _ _ _ _ m c0_mono E2) as [Q|Q]; rewrite Q; [reflexivity|]. cbn [obind].
    replace (is_sameq sTrue sTrue) with true by (vm_compute; reflexivity).
    destruct (eval_or_more c0 _ _ _ _ m c0_mono E4) as [P|P]; rewrite P; [reflexivity|]. cbn [obind]. exact IH. }
  destruct k as [|k]; [reflexivity|]. cbn [while_loop].
  destruct (eval_or_more c0 _ _ _ _ m c0_mono E1) as [Q|Q]; rewrite Q; [reflexivity|]. cbn [obind].
  replace (is_sameq sTrue sTrue) with true by (vm_compute; reflexivity).
  destruct (eval_or_more c0 _ _ _ _ m c0_mono E3) as [P|P]; rewrite P; [reflexivity|]. cbn [obind].
  apply L.
Qed.
Theorem C47_loop_refuted : diverges c0 es0 (fn "Catch" [fn "While" [sTrue; fn "Throw" [EInt 1]]]).
Proof.
  assert (W : diverges c0 es0 (fn "While" [sTrue; fn "Throw" [EInt 1]])).
  { apply (system_diverges c0 es0 (sysname "While") ["HoldAll"; "Protected"]%string _ [sTrue; fn "Throw" [EInt 1]] while_fn es0 c0_mono);
      try (intros [K|[K|[]]]; discriminate K); auto.
    - hok.
    - eexists; split; [vm_compute; reflexivity|split; reflexivity].
    - exists ["HoldAll"; "Protected"]%string; eexists; split; [vm_compute; reflexivity|split; reflexivity].
    - apply held_rest. intros j _. left. cbn; tauto.
    - repeat constructor; not_headed.
    - intro m. unfold while_fn. rewrite while_throw. reflexivity. }
  apply (system_diverges c0 es0 (sysname "Catch") catch_attrs _ [fn "While" [sTrue; fn "Throw" [EInt 1]]] catch_fn es0 c0_mono);
      try (apply catch_not; cbn; tauto); auto.
  - hok.
  - eexists; split; [vm_compute; reflexivity|split; reflexivity].
  - exists catch_attrs; eexists; split; [vm_compute; reflexivity|split; reflexivity].
  - apply head_arg; [vm_compute; reflexivity|reflexivity|]. apply EA_held; [|apply EA_nil]. right; right; left. split; [reflexivity|]. unfold catch_attrs; cbn; tauto.
  - repeat constructor; not_headed.
  - intro m. unfold catch_fn. unfold diverges, eval in W. rewrite W. reflexivity.
Qed.
Print Assumptions C47_loop_refuted.
