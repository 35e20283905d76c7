(* Property theorems: Sow and Reap (C114). *)
From Verif Require Import M_Syntax M_Float M_Hash M_Order M_Sort M_Num M_Arith M_Compare M_Match M_Defs S_Defs P_Defs P_Defs4 M_Eval M_List S_Match S_Eval S_Iter S_Call M_LibAssign M_Callback
  P_Hash P_MatchFuel P_Eval P_Eval2 P_Eval3 P_Eval4 P_Callback P_Iter P_Call T_Match T_Eval T_Eval2 T_Eval3 T_Eval4 T_Eval5 T_Iter T_Callback T_Call T_Assign T_AppendTo.
Open Scope nat_scope.

Definition reap_attrs : list string := ["HoldFirst"; "Protected"]%string.
(* Sow[e] gives the value of e.  Where a Reap is going on, the value is added at
   the end of the collected values; otherwise nothing else happens. *)
Lemma sow_call c es e v es1 o : cfg_mono c -> ready es "Sow" prot -> ready es1 "Sow" prot ->
  evals_to c es e v es1 -> ordinary_arg v -> value c es1 v ->
  o = match es_sown es1 with Some l => Some (l ++ [v]) | None => None end -> value c (with_sown es1 o) v ->
  hash_ok (fn "Sow" [e]) -> no_clash (fn "Sow" [e]) v -> evals_to c es (fn "Sow" [e]) v (with_sown es1 o).
Proof.
  intros Hc (Sy & NR & NV & T) (Sy1 & NR1 & NV1 & T1) E O V Ho V2 Hz Nc.
  apply (evals_next c es (sys "Sow" :: [e]) v (with_sown es1 o) v (with_sown es1 o) Hc Hz Nc); [|exact V2].
  apply (system_pass c es (sysname "Sow") prot [e] [v] sow_fn v es1 (with_sown es1 o) Hc Sy (ex_intro _ _ Sy1)); try (apply not_prot; cbn; tauto).
  - apply head_arg; [exact NV|exact T|]. apply EA_eval with es1; [apply prot_free|exact E|exact T1|apply EA_nil].
  - constructor; [exact O|constructor].
  - reflexivity.
  - exact NR1.
  - destruct (evals_large c _ _ _ _ Hc V) as [n K]. exists n. intros m Hm. eexists. unfold sow_fn. rewrite K by exact Hm. cbn [obind]. subst o.
    destruct es1 as [d t [l|]]; reflexivity.
Qed.
Theorem C114_sow : forall c es e v es1 l, cfg_mono c -> ready es "Sow" prot -> ready es1 "Sow" prot ->
  evals_to c es e v es1 -> es_sown es1 = Some l -> ordinary_arg v -> value c es1 v -> value c (with_sown es1 (Some (l ++ [v]))) v ->
  hash_ok (fn "Sow" [e]) -> no_clash (fn "Sow" [e]) v ->
  evals_to c es (fn "Sow" [e]) v (with_sown es1 (Some (l ++ [v]))).
Proof. intros c es e v es1 l Hc R R1 E S O V V2 Hz Nc. apply sow_call; auto. rewrite S. reflexivity. Qed.
Print Assumptions C114_sow.
Theorem C114_sow_outside : forall c es e v es1, cfg_mono c -> ready es "Sow" prot -> ready es1 "Sow" prot ->
  evals_to c es e v es1 -> es_sown es1 = None -> ordinary_arg v -> value c es1 v ->
  hash_ok (fn "Sow" [e]) -> no_clash (fn "Sow" [e]) v -> evals_to c es (fn "Sow" [e]) v es1.
Proof.
  intros c es e v es1 Hc R R1 E S O V Hz Nc. assert (Q : with_sown es1 None = es1) by (destruct es1 as [d t o]; cbn in S; subst o; reflexivity).
  rewrite <- Q. apply sow_call; auto; [rewrite S; reflexivity|rewrite Q; exact V].
Qed.
Print Assumptions C114_sow_outside.

(* Reap[body]: body is evaluated with nothing collected; when it has given r and
   the values l have been sown, the result is {r, {l}} and nothing is collected. *)
Theorem C114_reap : forall c es body r es1 l, cfg_mono c -> ready es "Reap" reap_attrs -> no_rules es1 (sysname "Reap") -> ordinary_arg body ->
  evals_to c (with_sown es (Some [])) body r es1 -> es_sown es1 = Some l ->
  let after := with_sown es1 (Some []) in
  list_head after -> elements c after [r] -> elements c after l ->
  hash_ok (fn "Reap" [body]) -> no_clash (fn "Reap" [body]) (mkList [r; mkList [mkList l]]) ->
  evals_to c es (fn "Reap" [body]) (mkList [r; mkList [mkList l]]) after.
Proof.
  intros c es body r es1 l Hc (Sy & NR & NV & T) NR1 O E S after LH [Vr Or] El Hz Nc. apply Forall_inv in Vr. apply Forall_inv in Or.
  apply (evals_next c es (sys "Reap" :: [body]) (mkList [r; mkList [mkList l]]) after (mkList [r; mkList [mkList l]]) after Hc Hz Nc).
  - apply (system_pass c es (sysname "Reap") reap_attrs [body] [body] reap_fn (mkList [r; mkList [mkList l]]) es after Hc Sy (ex_intro _ _ Sy));
      try (intros [K|[K|[]]]; discriminate K).
    + apply head_arg; [exact NV|exact T|]. apply held_first. left; reflexivity.
    + constructor; [exact O|constructor].
    + reflexivity.
    + exact NR1.
    + destruct (evals_large c _ _ _ _ Hc E) as [n K]. exists n. intros m Hm. eexists. unfold reap_fn. rewrite K by exact Hm. cbn [obind]. rewrite S. reflexivity.
  - assert (V1 : value c after (mkList l)) by (apply C113_list_value; assumption).
    assert (V2 : value c after (mkList [mkList l])).
    { apply C113_list_value; auto. split; (constructor; [|constructor]); [exact V1|apply ordinary_list]. }
    apply C113_list_value; auto. split; (constructor; [|constructor; [|constructor]]); auto using ordinary_list.
Qed.
Print Assumptions C114_reap.

(* the order: Reap[Sow[a1]; ...; Sow[ak]; Sow[b]] gives {b, {{a1, ..., ak, b}}} *)
Definition sow_ready (es : estate) : Prop :=
  es_thrown es = None /\ ready es "Sow" prot /\ ready es "Reap" reap_attrs /\ ready es "CompoundExpression" ce_attrs /\ list_head es.
Lemma sown_ready es o h names : ready es h names -> ready (with_sown es o) h names. Proof. intro H. exact H. Qed.
Lemma sown_list_head es o : list_head es -> list_head (with_sown es o). Proof. intro H. exact H. Qed.
Lemma sown_twice es o o' : with_sown (with_sown es o) o' = with_sown es o'. Proof. reflexivity. Qed.
Lemma sow_literal c es l a : cfg_mono c -> ready es "Sow" prot -> literal a -> hash_ok (fn "Sow" [a]) -> no_clash (fn "Sow" [a]) a ->
  evals_to c (with_sown es (Some l)) (fn "Sow" [a]) a (with_sown es (Some (l ++ [a]))).
Proof.
  intros Hc R L Hz Nc. destruct (literal_value c (with_sown es (Some l)) a L) as [V O]. rewrite <- (sown_twice es (Some l)).
  apply (C114_sow c (with_sown es (Some l)) a a (with_sown es (Some l)) l); auto; try exact R. apply literal_value, L.
Qed.
Lemma sows_run c es : cfg_mono c -> ready es "Sow" prot -> forall vs l, Forall literal vs ->
  (forall a, In a vs -> hash_ok (fn "Sow" [a]) /\ no_clash (fn "Sow" [a]) a) ->
  runs c (with_sown es (Some l)) (map (fun a => fn "Sow" [a]) vs) (with_sown es (Some (l ++ vs))).
Proof.
  intros Hc R. induction vs as [|a vs IH]; intros l Li H; [rewrite app_nil_r; apply RN_nil|].
  destruct (H a (or_introl eq_refl)) as [Hz Nc]. pose proof (Forall_inv Li) as La.
  apply (RN_cons c _ _ a (with_sown es (Some (l ++ [a])))).
  - apply sow_literal; auto.
  - apply (proj2 (proj2 (proj2 R))).
  - intros [t ->]. contradiction La.
  - replace (l ++ a :: vs) with ((l ++ [a]) ++ vs) by (rewrite <- app_assoc; reflexivity). apply IH; [exact (Forall_inv_tail Li)|].
    intros b Hb. apply H. right; exact Hb.
Qed.
Theorem C114_order : forall c es vs b, cfg_mono c -> sow_ready es -> Forall literal (vs ++ [b]) ->
  let body := EExpr (sys "CompoundExpression" :: map (fun a => fn "Sow" [a]) (vs ++ [b])) in
  (forall a, In a (vs ++ [b]) -> hash_ok (fn "Sow" [a]) /\ no_clash (fn "Sow" [a]) a) -> hash_ok body ->
  hash_ok (fn "Reap" [body]) -> no_clash (fn "Reap" [body]) (mkList [b; mkList [mkList (vs ++ [b])]]) ->
  evals_to c es (fn "Reap" [body]) (mkList [b; mkList [mkList (vs ++ [b])]]) (with_sown es (Some [])).
Proof.
  intros c es vs b Hc (T & RS & RR & RC & LH) Li body H Hb Hz Nc. rewrite <- (sown_twice es (Some (vs ++ [b]))).
  pose proof (proj1 (Forall_app _ _ _) Li) as [Lv Lb]. apply Forall_inv in Lb.
  apply (C114_reap c es body b (with_sown es (Some (vs ++ [b]))) (vs ++ [b]) Hc RR); auto.
  - apply RR.
  - repeat split; nh.
  - unfold body in *. rewrite map_app in *. cbn [map] in *.
    apply (evals_next_value c (with_sown es (Some [])) (sys "CompoundExpression" :: map (fun a => fn "Sow" [a]) vs ++ [fn "Sow" [b]]) b (with_sown es (Some (vs ++ [b]))) Hc Hb).
    + destruct b; try contradiction Lb; reflexivity.
    + apply (compound_pass c (with_sown es (Some [])) (map (fun a => fn "Sow" [a]) vs) (with_sown es (Some vs)) (fn "Sow" [b]) b (with_sown es (Some (vs ++ [b]))) Hc).
      * exact RC.
      * apply RC.
      * apply Forall_app. split; [apply Forall_map, Forall_forall; intros; repeat split; nh|constructor; [repeat split; nh|constructor]].
      * apply (sows_run c es Hc RS vs [] Lv). intros a Ha. apply H, in_app_iff. left; exact Ha.
      * destruct (H b) as [Hb1 Hb2]; [apply in_app_iff; right; left; reflexivity|]. apply sow_literal; auto.
      * exact T.
    + apply literal_value, Lb.
  - apply literal_elements. constructor; [exact Lb|constructor].
  - apply literal_elements, Li.
Qed.
Print Assumptions C114_order.

(* ---- cases ---- *)
Definition es_sw : estate := with_entries es0 [ entry "Sow" prot true; entry "Reap" reap_attrs true; entry "List" ["Locked"; "Protected"]%string false ].
Lemma sw_ready : sow_ready es_sw.
Proof.
  split; [reflexivity|]. split; [ready_tac|]. split; [ready_tac|]. split; [ready_tac|].
  exists ["Locked"; "Protected"]%string. split; [left; eexists; split; [vm_compute; reflexivity|repeat split]|]. split; [vm_compute; reflexivity|]. split; [reflexivity|].
  intros a I K. cbn in I, K. destruct K as [<-|[<-|[]]]; repeat (destruct I as [I|I]; [discriminate I|]); exact I.
Qed.
(* Reap[Sow[5]; Sow[3]; Sow["a"]] gives {"a", {{5, 3, "a"}}} *)
Example C114_ex : evals_to c0 es_sw (fn "Reap" [fn "CompoundExpression" [fn "Sow" [EInt 5]; fn "Sow" [EInt 3]; fn "Sow" [EStr "a"]]])
  (mkList [EStr "a"; mkList [mkList [EInt 5; EInt 3; EStr "a"]]]) (with_sown es_sw (Some [])).
Proof.
  apply (C114_order c0 es_sw [EInt 5; EInt 3] (EStr "a") c0_mono sw_ready).
  - repeat constructor.
  - intros a [<-|[<-|[<-|[]]]]; (split; [hok|split; hok]).
  - hok.
  - hok.
  - split; hok.
Qed.
(* Sow[2 + 3] outside of Reap *)
Example C114_ex_outside : evals_to c0 es_sw (fn "Sow" [fn "Plus" [EInt 2; EInt 3]]) (EInt 5) es_sw.
Proof.
  destruct sw_ready as (T & RS & _). apply (C114_sow_outside c0 es_sw _ (EInt 5) es_sw c0_mono RS RS); [exists 20; vm_compute; reflexivity|reflexivity|apply ord_int|apply value_int|hok|split; hok].
Qed.
(* What an outer Reap has collected is lost in an inner one:
   Reap[Sow[1]; Reap[Sow[2]]; Sow[3]] gives {3, {{3}}} *)
Theorem C114_nested_refuted : exists es', evals_to c0 es_sw
    (fn "Reap" [fn "CompoundExpression" [fn "Sow" [EInt 1]; fn "Reap" [fn "Sow" [EInt 2]]; fn "Sow" [EInt 3]]])
    (mkList [EInt 3; mkList [mkList [EInt 3]]]) es'.
Proof. eexists. exists 40. vm_compute. reflexivity. Qed.
Print Assumptions C114_nested_refuted.
(* After a Reap has ended, Sow goes on collecting, and what it collects is never returned *)
Theorem C114_left_over_refuted : exists es' es'', evals_to c0 es_sw (fn "Reap" [fn "Sow" [EInt 1]]) (mkList [EInt 1; mkList [mkList [EInt 1]]]) es' /\
  evals_to c0 es' (fn "Sow" [EInt 2]) (EInt 2) es'' /\ es_sown es'' = Some [EInt 2].
Proof. eexists. eexists. split; [exists 40; vm_compute; reflexivity|]. split; [exists 40; vm_compute; reflexivity|]. reflexivity. Qed.
Print Assumptions C114_left_over_refuted.
