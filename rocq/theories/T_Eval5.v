(* Property theorems: sequences of statements (C80). *)
From Verif Require Import M_Syntax M_Float M_Hash M_Sort M_Num M_Arith M_Compare M_Match M_Defs M_Eval S_Eval P_Hash P_MatchFuel P_Eval P_Eval2 P_Eval3 P_Eval4 T_Eval T_Eval2 T_Eval3 T_Eval4.
Open Scope nat_scope.

Definition ce_attrs : list string := ["HoldAll"; "ReadProtected"; "Protected"]%string.
Definition ends_here (r : ex) (post : list ex) : Prop := post = [] \/ headed r (sysname "Return").

Lemma compound_value c es pre es1 a post r es2 : cfg_mono c -> runs c es pre es1 ->
  evals_to c es1 a r es2 -> es_thrown es2 = None -> ends_here r post ->
  exists n, forall m, n <= m -> forall last, compound_loop (run c m None) es (pre ++ a :: post) last = Ret (Some r, es2).
Proof.
  intros Hc R Ea T Q. destruct (evals_large c _ _ _ _ Hc Ea) as [n1 E].
  induction R as [es|es b s es0 l es3 Eb Tb Nr _ IH].
  - exists n1. intros m Hm last. cbn [app compound_loop]. rewrite (E m Hm). cbn [obind]. rewrite T.
    destruct (has_head r (sysname "Return")) eqn:K; [reflexivity|].
    destruct Q as [->|[t ->]]; [reflexivity|]. unfold has_head, head_assertion in K. rewrite String.eqb_refl in K. discriminate K.
  - destruct (IH Ea E) as [n2 K]. destruct (evals_large c _ _ _ _ Hc Eb) as [n3 K3]. exists (n2 + n3). intros m Hm last.
    cbn [app compound_loop]. rewrite K3 by lia. cbn [obind]. rewrite Tb.
    replace (has_head s (sysname "Return")) with false; [apply K; lia|].
    symmetry. destruct (has_head s (sysname "Return")) eqn:Q2; [|reflexivity]. exfalso. apply Nr.
    apply has_head_headed, Q2.
Qed.

(* a; b; ...; z: the statements are evaluated from left to right, each once and
   in the state the one before left; the result is what the last one gives.  A
   statement that gives Return[...] ends the sequence there: the ones after it
   ([post], arbitrary) have no effect. *)
Theorem C80_compound : forall c es pre es1 a post r es2 v es3, cfg_mono c ->
  ready es "CompoundExpression" ce_attrs -> no_rules es2 (sysname "CompoundExpression") ->
  Forall ordinary_arg (pre ++ a :: post) ->
  runs c es pre es1 -> evals_to c es1 a r es2 -> es_thrown es2 = None ->
  (post = [] \/ headed r (sysname "Return")) ->
  hash_ok (fn "CompoundExpression" (pre ++ a :: post)) -> no_clash (fn "CompoundExpression" (pre ++ a :: post)) r ->
  evals_to c es2 r v es3 ->
  evals_to c es (fn "CompoundExpression" (pre ++ a :: post)) v es3.
Proof.
  intros c es pre es1 a post r es2 v es3 Hc [Sy [NR [NV T]]] NR2 O R Ea T2 Q Hz Nc Ev.
  destruct (compound_value c es pre es1 a post r es2 Hc R Ea T2 Q) as [n1 K1].
  apply (evals_next c es (sys "CompoundExpression" :: pre ++ a :: post) r es2 v es3 Hc Hz Nc); [|exact Ev].
  apply (system_pass c es (sysname "CompoundExpression") ce_attrs (pre ++ a :: post) (pre ++ a :: post) compound_fn r es es2 Hc Sy (ex_intro _ _ Sy));
    try (apply ce_not; cbn; tauto); auto.
  - apply held_rest. intros j _. left. cbn; tauto.
  - exists n1. intros m Hm. exists (sys "CompoundExpression" :: pre ++ a :: post). unfold compound_fn. cbn [tl]. rewrite (K1 m Hm). reflexivity.
Qed.
Print Assumptions C80_compound.

(* x := 1; {x, y; x := 2; x, 5 after Return}: the value of the last statement *)
Lemma ready_ce : ready es0 "CompoundExpression" ce_attrs.
Proof.
  split; [eexists; split; [vm_compute; reflexivity|split; reflexivity]|].
  split; [intros d K; vm_compute in K; injection K as <-; reflexivity|split; vm_compute; reflexivity].
Qed.
Example C80_ex : exists es1 es2, runs c0 es0 [fn "SetDelayed" [gl "x"; EInt 2]] es1 /\
  evals_to c0 es1 (uf "f" [gl "x"]) (uf "f" [EInt 2]) es2 /\ es_thrown es2 = None /\
  evals_to c0 es0 (fn "CompoundExpression" [fn "SetDelayed" [gl "x"; EInt 2]; uf "f" [gl "x"]]) (uf "f" [EInt 2]) es2.
Proof.
  eexists. eexists. split; [|split; [|split]].
  - eapply RN_cons; [exists 20; vm_compute; reflexivity|reflexivity|not_headed|apply RN_nil].
  - exists 20. vm_compute. reflexivity.
  - reflexivity.
  - exists 30. vm_compute. reflexivity.
Qed.

(* ---- While ---- *)
(* the rounds of While[cond, body]: it ends when the condition is not True, or
   when the body gives Return[v] or Break[...] *)
Inductive while_ends (c : cfg) (cond body : ex) : estate -> ex -> estate -> Prop :=
| WE_stop es r es1 : evals_to c es cond r es1 -> is_sameq r sTrue = false -> while_ends c cond body es sNull es1
| WE_return es es1 b v es2 : evals_to c es cond sTrue es1 -> evals_to c es1 body b es2 ->
    (b = fn "Return" [] /\ v = sNull \/ exists t, b = fn "Return" (v :: t)) -> while_ends c cond body es v es2
| WE_break es es1 b es2 : evals_to c es cond sTrue es1 -> evals_to c es1 body b es2 -> headed b (sysname "Break") ->
    while_ends c cond body es sNull es2
| WE_next es es1 b es2 v es3 : evals_to c es cond sTrue es1 -> evals_to c es1 body b es2 ->
    ~ headed b (sysname "Return") -> ~ headed b (sysname "Break") ->
    while_ends c cond body es2 v es3 -> while_ends c cond body es v es3.
Definition while_attrs : list string := ["HoldAll"; "Protected"]%string.
Lemma while_not a : In a ["NumericFunction"; "Flat"; "Orderless"; "Listable"]%string -> ~ In a while_attrs.
Proof.
  intros I K. cbn in I, K. destruct K as [<-|[<-|[]]]; repeat (destruct I as [I|I]; [discriminate I|]); exact I.
Qed.
Lemma true_same : is_sameq sTrue sTrue = true. Proof. apply N.eqb_refl. Qed.
Lemma not_return b : ~ headed b (sysname "Return") -> return_value b = None.
Proof.
  intro N. unfold return_value, args_of. destruct (head_assertion b (sysname "Return")) as [[|x l]|] eqn:E; try reflexivity.
  exfalso. apply N, has_head_headed. unfold has_head. rewrite E. reflexivity.
Qed.
Lemma headed_has b h : headed b h -> has_head b h = true.
Proof. intros [t ->]. unfold has_head, head_assertion. rewrite String.eqb_refl. reflexivity. Qed.
Lemma while_large c cond body es v es' : cfg_mono c -> while_ends c cond body es v es' ->
  exists n, forall m k, n <= m -> n <= k -> while_loop k (run c m None) es cond body = Ret (v, es').
Proof.
  intro Hc. induction 1 as [es r es1 E N|es es1 b v es2 E Eb R|es es1 b es2 E Eb B|es es1 b es2 v es3 E Eb NR NB _ [n0 IH]];
    destruct (evals_large c _ _ _ _ Hc E) as [n1 K1]; try (destruct (evals_large c _ _ _ _ Hc Eb) as [n2 K2]).
  - exists (S n1). intros m [|k] Hm Hk; [lia|]. cbn [while_loop]. rewrite K1 by lia. cbn [obind]. rewrite N. reflexivity.
  - exists (S (n1 + n2)). intros m [|k] Hm Hk; [lia|]. cbn [while_loop]. rewrite K1 by lia. cbn [obind]. rewrite true_same, K2 by lia. cbn [obind].
    destruct R as [[-> ->]|[t ->]]; reflexivity.
  - exists (S (n1 + n2)). intros m [|k] Hm Hk; [lia|]. cbn [while_loop]. rewrite K1 by lia. cbn [obind]. rewrite true_same, K2 by lia. cbn [obind].
    rewrite not_return, (headed_has _ _ B); [reflexivity|]. destruct B as [t ->]. intros [t' K]. discriminate K.
  - exists (S (n0 + n1 + n2)). intros m [|k] Hm Hk; [lia|]. cbn [while_loop]. rewrite K1 by lia. cbn [obind]. rewrite true_same, K2 by lia. cbn [obind].
    rewrite not_return by exact NR. destruct (has_head b (sysname "Break")) eqn:Q; [exfalso; apply NB, has_head_headed, Q|]. apply IH; lia.
Qed.
Theorem C80_while : forall c es cond body r es1 v es2, cfg_mono c -> ready es "While" while_attrs -> no_rules es1 (sysname "While") ->
  ordinary_arg cond -> ordinary_arg body -> while_ends c cond body es r es1 ->
  hash_ok (fn "While" [cond; body]) -> no_clash (fn "While" [cond; body]) r ->
  evals_to c es1 r v es2 -> evals_to c es (fn "While" [cond; body]) v es2.
Proof.
  intros c es cond body r es1 v es2 Hc [Sy [NR [NV T]]] NR1 O1 O2 W Hz Nc E.
  apply (evals_next c es [sys "While"; cond; body] r es1 v es2 Hc Hz Nc); [|exact E].
  apply (system_pass c es (sysname "While") while_attrs [cond; body] [cond; body] while_fn r es es1 Hc Sy (ex_intro _ _ Sy)); try (apply while_not; cbn; tauto); auto.
  - apply held_rest. intros j _. left. cbn; tauto.
  - destruct (while_large c cond body es r es1 Hc W) as [n K]. exists n. intros m Hm. exists [sys "While"; cond; body].
    unfold while_fn. rewrite (K m m Hm Hm). reflexivity.
Qed.
Print Assumptions C80_while.

(* b := True; While[b, b := False] *)
Definition bTrue : estate := match eval c0 20 es0 (fn "SetDelayed" [gl "b"; sTrue]) with Ret (_, es) => es | _ => es0 end.
Definition bFalse : estate := match eval c0 20 bTrue (fn "SetDelayed" [gl "b"; sFalse]) with Ret (_, es) => es | _ => es0 end.
Example C80_ex_while : while_ends c0 (gl "b") (fn "SetDelayed" [gl "b"; sFalse]) bTrue sNull bFalse /\ bTrue <> bFalse.
Proof.
  split.
  - eapply WE_next; [exists 20; vm_compute; reflexivity|exists 20; vm_compute; reflexivity|not_headed|not_headed|].
    eapply WE_stop; [exists 20; vm_compute; reflexivity|vm_compute; reflexivity].
  - intro K. apply (f_equal (fun es => get_sym_def (es_defs es) "Global`b")) in K. vm_compute in K. discriminate K.
Qed.

(* Break[] among other statements does not leave the loop, nor does it keep the
   statements after it from running: b := True; While[b, Break[]; b := False]
   ends with b = False, and While[True, Break[]; 1] never ends.  The increment of
   For is such a statement: For[beg, cond, incr, expr] is
   beg; While[cond, expr; incr] (flowcontrol.m 111). *)
Theorem C80_break_in_sequence_refuted :
  evals_to c0 bTrue (fn "While" [gl "b"; fn "CompoundExpression" [fn "Break" []; fn "SetDelayed" [gl "b"; sFalse]]]) sNull bFalse /\
  diverges c0 es0 (fn "While" [sTrue; fn "CompoundExpression" [fn "Break" []; EInt 1]]).
Proof.
  split; [exists 40; vm_compute; reflexivity|].
  assert (E1 : evals_to c0 es0 sTrue sTrue es0) by (exists 1; vm_compute; reflexivity).
  assert (E2 : evals_to c0 es0 (fn "CompoundExpression" [fn "Break" []; EInt 1]) (EInt 1) es0) by (exists 20; vm_compute; reflexivity).
  assert (L : forall m k, while_loop k (run c0 m None) es0 sTrue (fn "CompoundExpression" [fn "Break" []; EInt 1]) = More).
  { intro m. induction k as [|k IH]; [reflexivity|]. cbn [while_loop].
    destruct (eval_or_more c0 _ _ _ _ m c0_mono E1) as [Q|Q]; rewrite Q; [reflexivity|]. cbn [obind].
    rewrite true_same. destruct (eval_or_more c0 _ _ _ _ m c0_mono E2) as [P|P]; rewrite P; [reflexivity|]. cbn [obind].
    change (return_value (EInt 1)) with (@None ex). change (has_head (EInt 1) (sysname "Break")) with false. exact IH. }
  assert (Rd : ready es0 "While" while_attrs).
  { split; [eexists; split; [vm_compute; reflexivity|split; reflexivity]|].
    split; [intros d K; vm_compute in K; injection K as <-; reflexivity|split; vm_compute; reflexivity]. }
  destruct Rd as [Sy [NR [NV T]]].
  apply (system_diverges c0 es0 (sysname "While") while_attrs [sTrue; fn "CompoundExpression" [fn "Break" []; EInt 1]] [sTrue; fn "CompoundExpression" [fn "Break" []; EInt 1]] while_fn es0 c0_mono); auto.
  - hok.
  - exists while_attrs. exact Sy.
  - apply while_not; cbn; tauto.
  - apply while_not; cbn; tauto.
  - apply while_not; cbn; tauto.
  - apply while_not; cbn; tauto.
  - apply held_rest. intros j _. left. cbn; tauto.
  - repeat constructor; not_headed.
  - intro m. unfold while_fn. rewrite L. reflexivity.
Qed.
Print Assumptions C80_break_in_sequence_refuted.
