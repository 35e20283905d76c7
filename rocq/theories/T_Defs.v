(* C28-C33, C52: the definition store. *)
From Verif Require Import M_Syntax M_Float M_Hash M_Match M_Defs M_Conc S_Defs P_Hash P_Defs P_Defs2 P_Defs3 P_Defs4 P_Defs5.
From Coq Require Import Sorted Permutation.
Open Scope nat_scope.

(* A concrete InputForm-length function used in the examples. *)
Definition fl0 (e : ex) : Z := Z.of_nat (ex_size e).
Definition xs := ESym "Global`x".
Definition fx (e : ex) : ex := EExpr [ESym "Global`f"; e].
Definition gst : state :=
  State [("Global`f", Def [DVal (held (fx (EInt 1))) (EInt 10) 0; DVal (held (fx xs)) (EInt 20) 0] no_attrs None false)]%string false.

(* ------------------------------------------------------------------ C28 *)
(* In every reachable state, after lhs = rhs (or the storing step of lhs := rhs)
   exactly one stored rule has that left-hand side and condition, its right-hand
   side is rhs, and all the other rules are exactly those of before, in the same
   order. *)
Theorem C28_latest_definition_wins fl st lhs rhs s st' :
  reachable fl st -> st_frozen st = false -> rule_lhs lhs s -> define fl st lhs rhs = Some st' ->
  (exists d, filter (fun d => keyb (dv_lhs d) (dv_rhs d) (held lhs) rhs) (rules_of st' s) = [d] /\
     dv_rhs d = rhs /\ is_sameq (dv_lhs d) (held lhs) = true) /\
  filter (fun d => negb (keyb (dv_lhs d) (dv_rhs d) (held lhs) rhs)) (rules_of st' s) =
  filter (fun d => negb (keyb (dv_lhs d) (dv_rhs d) (held lhs) rhs)) (rules_of st s).
Proof.
  intros R F L D. rewrite (define_rule_lhs fl st lhs rhs s F L) in D. injection D as <-.
  rewrite rules_set_same, new_def_rules.
  apply (define_rule_effect fl s (held lhs) rhs (rules_of st s)); [exact I|].
  apply (reachable_good fl st R s).
Qed.
Print Assumptions C28_latest_definition_wins.

(* In particular no stale rule for the identical left-hand side and condition is
   left, and lhs is found. *)
Theorem C28_no_stale_rule fl st lhs rhs s st' d :
  reachable fl st -> st_frozen st = false -> rule_lhs lhs s -> define fl st lhs rhs = Some st' ->
  In d (rules_of st' s) -> dv_lhs d = held lhs -> mask_non_conditional (dv_rhs d) = mask_non_conditional rhs ->
  dv_rhs d = rhs.
Proof.
  intros R F L D I1 E M. destruct (C28_latest_definition_wins fl st lhs rhs s st' R F L D) as ((d0 & Q & V & _) & _).
  assert (In d (filter (fun d => keyb (dv_lhs d) (dv_rhs d) (held lhs) rhs) (rules_of st' s))) as J.
  { apply filter_In. split; [exact I1|]. unfold keyb. rewrite E, M, !sameq_refl. reflexivity. }
  rewrite Q in J. destruct J as [<-|[]]. exact V.
Qed.
Print Assumptions C28_no_stale_rule.

(* Defining twice (SetDelayed stores its rule twice) is the same as once. *)
Theorem C28_definition_idempotent fl st lhs rhs s st' :
  st_frozen st = false -> rule_lhs lhs s -> define fl st lhs rhs = Some st' ->
  exists st'', define fl st' lhs rhs = Some st'' /\ forall m, rules_of st'' m = rules_of st' m.
Proof.
  intros F L D. rewrite (define_rule_lhs fl st lhs rhs s F L) in D. injection D as <-.
  eexists. split; [apply define_rule_lhs; [exact F|exact L]|].
  intro m. destruct (String.eqb_spec m s) as [->|N].
  - rewrite !rules_set_same, !new_def_rules, rules_set_same, new_def_rules. apply define_rule_twice. exact I.
  - now rewrite !rules_set_other by exact N.
Qed.
Print Assumptions C28_definition_idempotent.

(* x = v for a variable: reading x afterwards gives v, provided x has no
   conditional value rule and no hash collision confuses two left-hand sides. *)
Theorem C28_variable_reads_back_partial fl st x v st' :
  reachable fl st -> st_frozen st = false -> x <> ""%string ->
  (forall d, In d (rules_of st x) -> is_sym_rule d = true ->
     dv_lhs d = held (ESym x) /\ mask_non_conditional (dv_rhs d) = mask_non_conditional v) ->
  (forall d, In d (rules_of st x) -> is_sameq (dv_lhs d) (held (ESym x)) = true -> dv_lhs d = held (ESym x)) ->
  define fl st (ESym x) v = Some st' -> get_sym_def st' x = Some v.
Proof.
  intros R F N H NC D. pose proof (C28_latest_definition_wins fl st (ESym x) v x st' R F (rule_lhs_sym x N) D) as ((d & Q & V & S) & O).
  rewrite (define_rule_lhs fl st _ v x F (rule_lhs_sym x N)) in D. injection D as <-.
  set (st' := set_def st x (new_def fl x (ESym x) v (lookup st x))) in *.
  assert (ALL : forall e, In e (rules_of st' x) -> is_sym_rule e = true -> dv_rhs e = v).
  { intros e I1 Se. destruct (keyb (dv_lhs e) (dv_rhs e) (held (ESym x)) v) eqn:K.
    - assert (In e (filter (fun d => keyb (dv_lhs d) (dv_rhs d) (held (ESym x)) v) (rules_of st' x))) as J by (apply filter_In; auto).
      rewrite Q in J. destruct J as [<-|[]]. exact V.
    - exfalso. assert (In e (filter (fun d => negb (keyb (dv_lhs d) (dv_rhs d) (held (ESym x)) v)) (rules_of st' x))) as J
        by (apply filter_In; rewrite K; auto).
      rewrite O in J. apply filter_In in J. destruct J as [J _]. destruct (H e J Se) as [E M].
      unfold keyb in K. rewrite E, M, !sameq_refl in K. discriminate K. }
  assert (EX : exists e, In e (rules_of st' x) /\ is_sym_rule e = true).
  { destruct (define_rule_effect fl x (held (ESym x)) v (rules_of st x) I (proj1 (reachable_good fl st R x))) as ((e & Q2 & _ & S2) & _).
    assert (In e (rules_of st' x) /\ True) as [J _].
    { split; [|exact I]. unfold st'. rewrite rules_set_same, new_def_rules.
      assert (In e [e]) as K by now left. rewrite <- Q2 in K. apply filter_In in K. apply K. }
    exists e. split; [exact J|]. unfold st' in J. rewrite rules_set_same, new_def_rules in J.
    unfold define_rule in J, Q2. destruct (overwrite (held (ESym x)) v (rules_of st x)) as [l'|] eqn:OV.
    - apply overwrite_some in OV. destruct OV as (a & d1 & b & EQ & -> & S1 & A).
      assert (dv_lhs d1 = held (ESym x)) as L1.
      { apply NC; [rewrite EQ; apply in_elt|]. unfold same_rule in S1. apply andb_true_iff in S1. apply S1. }
      assert (In (DVal (dv_lhs d1) v (dv_spec d1)) (filter (same_rule (held (ESym x)) v) (a ++ DVal (dv_lhs d1) v (dv_spec d1) :: b))) as K.
      { apply filter_In. split; [apply in_elt|]. rewrite L1. now apply same_rule_var. }
      rewrite Q2 in K. destruct K as [K|[]]. rewrite K. unfold is_sym_rule. cbn [dv_lhs]. rewrite L1. reflexivity.
    - destruct (insert_shape fl x (held (ESym x)) v (rules_of st x)) as (a & b & sp & EQ & IQ & _).
      rewrite IQ in Q2. assert (In (DVal (held (ESym x)) v sp) (filter (same_rule (held (ESym x)) v) (a ++ DVal (held (ESym x)) v sp :: b))) as K.
      { apply filter_In. split; [apply in_elt|now apply same_rule_var]. }
      rewrite Q2 in K. destruct K as [K|[]]. rewrite K. reflexivity. }
  unfold get_sym_def. unfold rules_of in ALL, EX. destruct (lookup st' x) as [d0|]; [|destruct EX as (e & [] & _)].
  destruct (find is_sym_rule (d_dvs d0)) as [e|] eqn:FI.
  - apply find_some in FI. destruct FI as [I1 Se]. now rewrite (ALL e I1 Se).
  - destruct EX as (e & I1 & Se). exfalso. pose proof (find_none _ _ FI e I1). congruence.
Qed.
Print Assumptions C28_variable_reads_back_partial.

(* x := 5 /; False; x = 3: reading x finds the conditional rule, not 3.  Both
   rules are stored, the conditional one first, and a plain symbol lookup does
   not test conditions. *)
Theorem C28_conditional_value_shadows_refuted :
  exists st st' cond, reachable fl0 st /\ st_frozen st = false /\
    define fl0 st xs (EInt 3) = Some st' /\ cond = EExpr [sys "Condition"; EInt 5; sFalse] /\
    get_sym_def st' "Global`x" = Some cond.
Proof.
  set (cond := EExpr [sys "Condition"; EInt 5; sFalse]).
  set (st := set_def empty_state "Global`x" (Def [DVal (held xs) cond 0] no_attrs None false)).
  exists st, (set_def st "Global`x" (new_def fl0 "Global`x" xs (EInt 3) (lookup st "Global`x"))), cond.
  split.
  { apply R_step with empty_state; [apply R_init; reflexivity|]. apply St_define with xs cond; [discriminate|reflexivity]. }
  split; [reflexivity|]. split; [reflexivity|]. split; [reflexivity|]. vm_compute. reflexivity.
Qed.
Print Assumptions C28_conditional_value_shadows_refuted.

(* f[1][2] = 3, "abc" = 3, 5 = 6 end the whole process (log.Fatalf). *)
Theorem C28_invalid_lhs_aborts_refuted :
  exists fl st lhs rhs, reachable fl st /\ define fl st lhs rhs = None.
Proof. exists fl0, empty_state, (EExpr [fx (EInt 1); EInt 2]), (EInt 3). split; [apply R_init; reflexivity|reflexivity]. Qed.
Print Assumptions C28_invalid_lhs_aborts_refuted.

(* non-vacuity: redefining f[1] in a state with two rules for f *)
Example gst_reachable : reachable fl0 gst.
Proof.
  apply R_step with (State [("Global`f", Def [DVal (held (fx (EInt 1))) (EInt 10) 0] no_attrs None false)]%string false).
  - apply R_step with empty_state; [apply R_init; reflexivity|]. apply St_define with (fx (EInt 1)) (EInt 10); [discriminate|reflexivity].
  - apply St_define with (fx xs) (EInt 20); [discriminate|]. vm_compute. reflexivity.
Qed.
Example C28_nonvacuous : exists st', define fl0 gst (fx (EInt 1)) (EInt 99) = Some st' /\
  rules_of st' "Global`f" = [DVal (held (fx (EInt 1))) (EInt 99) 0; DVal (held (fx xs)) (EInt 20) 0] /\
  rule_lhs (fx (EInt 1)) "Global`f".
Proof.
  eexists. split; [vm_compute; reflexivity|]. split; [reflexivity|].
  split; [apply T_fun; discriminate|]. split; intros t X; discriminate X.
Qed.

(* ------------------------------------------------------------------ C29 *)
Lemma specificity_unique fl n lhs rhs z : specificity fl n lhs rhs z <-> z = rule_specificity fl (held lhs) rhs n.
Proof.
  unfold specificity, rule_specificity. destruct (String.eqb n "Rubi`Int"); [tauto|].
  assert (C : is_cond rhs <-> has_head rhs (sysname "Condition") = true).
  { unfold is_cond, has_head, head_assertion. split.
    - intros [a ->]. unfold sys. now rewrite String.eqb_refl.
    - destruct rhs as [| | | | | |[|[h| | | | | | ] a]]; try discriminate.
      destruct (String.eqb_spec h (sysname "Condition")) as [->|N]; [eauto|discriminate]. }
  assert (G : ((is_cond rhs -> z = 100%Z) /\ (~ is_cond rhs -> z = fl (held lhs))) <->
     z = (if has_head rhs (sysname "Condition") then 100%Z else fl (held lhs))).
  { rewrite C. destruct (has_head rhs (sysname "Condition")); intuition congruence. }
  destruct lhs as [| | | | | |l]; try exact G.
  destruct l as [|a l]; [exact G|]. destruct l as [|b l]; [exact G|].
  destruct b as [| |z0| | | | ]; try exact G. destruct l as [|c l]; [cbn; tauto|exact G].
Qed.

(* the invariant behind C29 *)
Lemma run_inv fl n h st st' :
  st_frozen st = false -> rules_of st n = [] ->
  Forall (fun p => rule_lhs (fst p) n) h ->
  (forall r1 r2, In r1 (map snd h) -> In r2 (map snd h) ->
     is_sameq (mask_non_conditional r1) (mask_non_conditional r2) = true -> (is_cond r1 <-> is_cond r2)) ->
  run fl st h = Some st' -> inv fl n (rules_of st' n) (replay h).
Proof.
  intros F0 R0 FL CC RUN.
  assert (G : forall h2 h1 st1, st_frozen st1 = false -> inv fl n (rules_of st1 n) (replay h1) ->
     Forall (fun p => rule_lhs (fst p) n) h2 ->
     (forall p, In p (replay h1) -> In (snd p) (map snd (h1 ++ h2))) ->
     (forall r1 r2, In r1 (map snd (h1 ++ h2)) -> In r2 (map snd (h1 ++ h2)) ->
     is_sameq (mask_non_conditional r1) (mask_non_conditional r2) = true -> condq r1 = condq r2) ->
     run fl st1 h2 = Some st' -> inv fl n (rules_of st' n) (replay (h1 ++ h2))).
  { induction h2 as [|[l r] t IH]; intros h1 st1 F I FA IN C H; cbn [run] in H.
    - injection H as <-. now rewrite app_nil_r.
    - inversion FA as [|? ? L FA']; subst. cbn [fst] in L.
      rewrite (define_rule_lhs fl st1 l r n F L) in H.
      assert (RE : replay (h1 ++ [(l, r)]) = remember (replay h1) l r).
      { unfold replay. rewrite fold_left_app. reflexivity. }
      replace (h1 ++ (l, r) :: t) with ((h1 ++ [(l, r)]) ++ t) by (rewrite <- app_assoc; reflexivity).
      assert (EQ : (h1 ++ [(l, r)]) ++ t = h1 ++ (l, r) :: t) by (rewrite <- app_assoc; reflexivity).
      eapply IH; [| | |rewrite EQ|rewrite EQ; exact C|exact H].
      + exact F.
      + rewrite RE, rules_set_same, new_def_rules. apply inv_define; [exact I|].
        intros p J. apply C; [apply IN; exact J|]. rewrite map_app. apply in_or_app. right. now left.
      + exact FA'.
      + intros p J. rewrite RE in J.
        destruct (remember_spec (replay h1) l r) as [(a & l0 & r0 & b & E1 & E2 & _)|(E2 & _)]; rewrite E2 in J.
        * apply in_app_or in J. destruct J as [J|[<-|J]].
          -- apply IN. rewrite E1. apply in_or_app. now left.
          -- rewrite map_app. apply in_or_app. right. now left.
          -- apply IN. rewrite E1. apply in_or_app. right. now right.
        * apply in_app_or in J. destruct J as [J|[<-|[]]]; [now apply IN|].
          rewrite map_app. apply in_or_app. right. now left. }
  assert (CQ : forall r, is_cond r <-> condq r = true).
  { intro r. unfold is_cond, condq, has_head, head_assertion. split.
    - intros [a ->]. unfold sys. now rewrite String.eqb_refl.
    - destruct r as [| | | | | |[|[hh| | | | | | ] a]]; try discriminate.
      destruct (String.eqb_spec hh (sysname "Condition")) as [->|N]; [eauto|discriminate]. }
  assert (I : inv fl n (rules_of st' n) (replay h)).
  { apply (G h [] st); auto.
    - rewrite R0. unfold inv. cbn. repeat split; constructor.
    - intros p [].
    - intros r1 r2 I1 I2 S. specialize (CC r1 r2 I1 I2 S). rewrite !CQ in CC.
      destruct (condq r1), (condq r2); intuition congruence. }
  exact I.
Qed.

(* Run any sequence h of definitions for one symbol, starting without rules.
   The stored rules are then the remembered definitions (order of first
   definition, latest right-hand side): the specificities never increase along
   the list, and for every value z the rules of specificity z appear in exactly
   the remembered order.  Together these determine the list.
   Hypothesis: no hash collision makes a conditional and an unconditional
   right-hand side look alike. *)
Theorem C29_rules_sorted_by_specificity_partial fl n h st st' :
  st_frozen st = false -> rules_of st n = [] ->
  Forall (fun p => rule_lhs (fst p) n) h ->
  (forall r1 r2, In r1 (map snd h) -> In r2 (map snd h) ->
     is_sameq (mask_non_conditional r1) (mask_non_conditional r2) = true -> (is_cond r1 <-> is_cond r2)) ->
  run fl st h = Some st' ->
  exists specs,
    Forall2 (fun d z => exists lhs, dv_lhs d = held lhs /\ specificity fl n lhs (dv_rhs d) z) (rules_of st' n) specs /\
    StronglySorted (fun a b => (b <= a)%Z) specs /\
    forall z, map (fun d => (dv_lhs d, dv_rhs d)) (map fst (filter (fun p => Z.eqb (snd p) z) (combine (rules_of st' n) specs)))
      = map (fun p => (held (fst p), snd p)) (filter (fun p => Z.eqb (rule_specificity fl (held (fst p)) (snd p) n) z) (replay h)).
Proof.
  intros F0 R0 FL CC RUN.
  pose proof (run_inv fl n h st st' F0 R0 FL CC RUN) as I.
  clear RUN. destruct I as (IE & IH & IF & IS & _ & _).
  exists (map (fun d => pspec fl n (dpair d)) (rules_of st' n)). split; [|split].
  - clear IF IS. revert IH. generalize (rules_of st' n). induction l as [|d t IHl]; intro A; cbn [map]; constructor.
    + inversion A as [|? ? (x & E) _]; subst. exists x. split; [exact E|]. apply specificity_unique.
      unfold pspec, dpair. cbn [fst snd]. now rewrite E.
    + apply IHl. now inversion A.
  - clear IF IE IH. revert IS. generalize (rules_of st' n). induction l as [|d t IHl]; intro A; cbn [map]; constructor.
    + apply IHl. now inversion A.
    + inversion A as [|? ? _ FA]; subst. rewrite Forall_map in FA. rewrite Forall_map.
      eapply Forall_impl; [|exact FA]. intros e He. exact He.
  - intro z. change (fun d => (dv_lhs d, dv_rhs d)) with dpair. change (fun p : ex * ex => (held (fst p), snd p)) with hpair.
    transitivity (filter (fun p => Z.eqb (pspec fl n p) z) (map dpair (rules_of st' n))).
    + clear. induction (rules_of st' n) as [|d t IHl]; cbn [map combine filter fst snd]; [reflexivity|].
      destruct (Z.eqb (pspec fl n (dpair d)) z); cbn [map fst]; now rewrite IHl.
    + rewrite IF. clear. induction (replay h) as [|p t IHl]; cbn [map filter]; [reflexivity|].
      change (pspec fl n (hpair p)) with (rule_specificity fl (held (fst p)) (snd p) n).
      destruct (Z.eqb _ z); cbn [map]; now rewrite IHl.
Qed.
Print Assumptions C29_rules_sorted_by_specificity_partial.

(* the first rule that applies is a most specific one: lookup goes in stored order *)
Theorem C29_lookup_in_stored_order apply st n r :
  get_expr_def apply st n = Some r <->
  exists a d b, rules_of st n = a ++ d :: b /\ apply d = Some r /\ Forall (fun e => apply e = None) a.
Proof.
  assert (G : forall l, first_rule apply l = Some r <-> exists a d b, l = a ++ d :: b /\ apply d = Some r /\ Forall (fun e => apply e = None) a).
  { induction l as [|d t IH]; cbn [first_rule].
    - split; [discriminate|]. intros (a & d & b & E & _). destruct a; discriminate E.
    - destruct (apply d) as [r'|] eqn:A.
      + split.
        * intro H. injection H as <-. exists [], d, t. repeat split; auto.
        * intros (a & d' & b & E & A' & F). destruct a as [|e a].
          -- injection E as <- <-. congruence.
          -- injection E as <- E2. inversion F; congruence.
      + rewrite IH. split.
        * intros (a & d' & b & -> & A' & F). exists (d :: a), d', b. repeat split; auto.
        * intros (a & d' & b & E & A' & F). destruct a as [|e a].
          -- injection E as <- <-. congruence.
          -- injection E as <- ->. exists a, d', b. repeat split; auto. now inversion F. }
  unfold get_expr_def, rules_of. destruct (lookup st n) as [d|]; [apply G|].
  split; [discriminate|]. intros (a & d & b & E & _). destruct a; discriminate E.
Qed.
Print Assumptions C29_lookup_in_stored_order.

(* Rubi-style exception: an integer-argument rule always ranks 110, so a longer
   (more specific) pattern printed with more than 110 characters is tried
   first although it is more general. *)
Example C29_nonvacuous : exists st', run fl0 empty_state [(fx xs, EInt 20); (fx (EInt 1), EInt 10); (fx xs, EInt 30)] = Some st' /\
  rules_of st' "Global`f" = [DVal (held (fx (EInt 1))) (EInt 10) 110; DVal (held (fx xs)) (EInt 30) 0].
Proof. eexists. split; [vm_compute; reflexivity|reflexivity]. Qed.

(* Assigning DownValues[f] installs the given order, whatever the specificity. *)
Theorem C29_downvalues_assignment_unsorted_refuted : exists st st',
  define fl0 st (EExpr [sys "DownValues"; ESym "Global`f"])
    (mkList [EExpr [sys "RuleDelayed"; held (fx xs); EInt 20]; EExpr [sys "RuleDelayed"; held (fx (EInt 1)); EInt 10]]) = Some st' /\
  map (fun d => rule_specificity fl0 (dv_lhs d) (dv_rhs d) "Global`f") (rules_of st' "Global`f") = [5%Z; 110%Z].
Proof. exists empty_state. eexists. split; [vm_compute; reflexivity|vm_compute; reflexivity]. Qed.
Print Assumptions C29_downvalues_assignment_unsorted_refuted.

(* ------------------------------------------------------------------ C30 *)
Theorem C30_define_changes_only_target fl st lhs rhs st' m :
  define fl st lhs rhs = Some st' -> ~ target lhs m -> lookup st' m = lookup st m.
Proof. apply define_frame. Qed.
Print Assumptions C30_define_changes_only_target.

Theorem C30_target_unique lhs a b : target lhs a -> target lhs b -> a = b.
Proof.
  intros Ha Hb. destruct Ha; inversion Hb; subst; unfold sys in *; try congruence; auto.
Qed.
Print Assumptions C30_target_unique.

Theorem C30_clear_changes_only_target st s m : m <> s -> lookup (clear st s) m = lookup st m.
Proof.
  intro N. unfold clear. destruct (lookup st s); [now apply lookup_set_other|reflexivity].
Qed.
Print Assumptions C30_clear_changes_only_target.

Theorem C30_frozen_define_is_noop fl st lhs rhs : st_frozen st = true -> define fl st lhs rhs = Some st.
Proof. apply define_frozen. Qed.
Print Assumptions C30_frozen_define_is_noop.

(* after Clear[..., s, ...] the symbol s evaluates to itself *)
Theorem C30_cleared_symbol_evaluates_to_itself st args s :
  In (ESym s) args -> eval_symbol_step (clear_eval st args) s = ESym s /\ rules_of (clear_eval st args) s = [].
Proof.
  intro I. assert (G : rules_of (clear_eval st args) s = []).
  { unfold clear_eval. revert st. 
    assert (K : forall args st, rules_of st s = [] -> rules_of (fold_left (fun st a => match a with ESym s => clear st s | _ => st end) args st) s = []).
    { induction args0 as [|a t IH]; intros st H; cbn [fold_left]; [exact H|]. apply IH.
      destruct a as [u| | | | | | ]; try exact H. unfold clear. destruct (lookup st u) eqn:L; [|exact H].
      destruct (String.eqb_spec s u) as [->|N]; [now rewrite rules_set_same|now rewrite rules_set_other]. }
    induction args as [|a t IH]; intro st; [destruct I|]. cbn [fold_left]. destruct I as [->|I].
    - apply K. unfold clear, rules_of. destruct (lookup st s) eqn:L; [now rewrite lookup_set_same|now rewrite L].
    - apply (IH I). }
  split; [|exact G]. unfold eval_symbol_step, get_sym_def. unfold rules_of in G.
  destruct (lookup (clear_eval st args) s) as [d|]; [|reflexivity]. rewrite G. reflexivity.
Qed.
Print Assumptions C30_cleared_symbol_evaluates_to_itself.

Theorem C30_clear_unknown_is_noop st s : lookup st s = None -> clear st s = st.
Proof. intro H. unfold clear. now rewrite H. Qed.
Print Assumptions C30_clear_unknown_is_noop.

(* Clear does not respect the frozen flag *)
Theorem C30_frozen_clear_changes_refuted : exists st s, st_frozen st = true /\ clear st s <> st.
Proof. exists (State [("x"%string, Def [DVal (held (ESym "x")) (EInt 1) 0] no_attrs None false)] true), "x"%string. split; [reflexivity|]. intro H. discriminate H. Qed.
Print Assumptions C30_frozen_clear_changes_refuted.

(* Clear also erases attributes, the default value and the builtin function *)
Theorem C30_clear_erases_attributes_refuted : exists st s d,
  lookup st s = Some d /\ d_attrs d = strings_to_attributes ["Flat"%string] /\ d_builtin d = true /\
  exists d', lookup (clear st s) s = Some d' /\ d_attrs d' = no_attrs /\ d_builtin d' = false.
Proof.
  exists (State [("Plus"%string, Def [] (strings_to_attributes ["Flat"%string]) None true)] false), "Plus"%string.
  eexists. split; [reflexivity|]. split; [reflexivity|]. split; [reflexivity|]. eexists. split; [reflexivity|]. split; reflexivity.
Qed.
Print Assumptions C30_clear_erases_attributes_refuted.

(* The attribute Protected is not enforced *)
Theorem C30_protected_not_enforced_refuted : exists st st',
  attributes_eval st (sysname "Pi") = mkList [sys "Protected"] /\
  define fl0 st (sys "Pi") (EInt 3) = Some st' /\ get_sym_def st' (sysname "Pi") = Some (EInt 3).
Proof.
  exists (State [(sysname "Pi", Def [] (strings_to_attributes ["Protected"%string]) None false)] false).
  eexists. split; [vm_compute; reflexivity|]. split; [vm_compute; reflexivity|vm_compute; reflexivity].
Qed.
Print Assumptions C30_protected_not_enforced_refuted.

(* A snapshot of the definitions (CopyDefs) loses all attributes *)
Theorem C30_snapshot_drops_attributes_refuted : exists l d d',
  assoc l "f"%string = Some d /\ assoc (copy_defs l) "f"%string = Some d' /\ d_attrs d <> d_attrs d'.
Proof.
  exists [("f"%string, Def [] (strings_to_attributes ["Flat"%string]) None false)]. do 2 eexists.
  split; [reflexivity|]. split; [reflexivity|]. intro H. discriminate H.
Qed.
Print Assumptions C30_snapshot_drops_attributes_refuted.
Theorem C30_snapshot_keeps_rules l n : option_map d_dvs (assoc (copy_defs l) n) = option_map d_dvs (assoc l n).
Proof.
  induction l as [|[k d] t IH]; cbn [copy_defs map assoc]; [reflexivity|].
  destruct (String.eqb k n); [reflexivity|exact IH].
Qed.
Print Assumptions C30_snapshot_keeps_rules.

(* ------------------------------------------------------------------ C31 *)
(* Attributes[s] = {a1, ..., an}; Attributes[s] returns the strictly sorted list
   of exactly the known attributes among the ai. *)
Theorem C31_attributes_round_trip fl st s names st' :
  st_frozen st = false ->
  define fl st (EExpr [sys "Attributes"; ESym s]) (mkList (map sys names)) = Some st' ->
  exists L, attributes_eval st' s = mkList (map sys L) /\ StronglySorted str_lt L /\
    forall a, In a L <-> In a names /\ In a known_attributes.
Proof.
  intros F D. unfold define in D. rewrite F in D.
  change (String.eqb (sysname "Attributes") (sysname "Attributes")) with true in D. cbn [sys] in D.
  injection D as <-. unfold define_attrs.
  assert (head_assertion (mkList (map sys names)) nList = Some (sList :: map sys names)) as -> by reflexivity.
  assert (attr_strings (map sys names) = Some names) as ->.
  { induction names as [|a t IH]; [reflexivity|]. change (map sys (a :: t)) with (ESym (sysname a) :: map sys t). cbn [attr_strings]. rewrite IH, drop_sys_sys. reflexivity. }
  cbv zeta. exists (attrs_to_strings (strings_to_attributes names)).
  unfold attributes_eval. rewrite lookup_set_same. cbn [d_attrs]. split; [reflexivity|].
  split; [apply attrs_to_strings_sorted|].
  intro a. rewrite attrs_to_strings_in. split.
  - intros (i & I & N). apply strings_to_attributes_nth in N. destruct N as (a' & I1 & I2).
    apply tables_agree in I.
    assert (a' = a) as <-.
    { apply tables_agree in I, I2. clear - I I2.
      assert (ND : NoDup (map fst field_to_str)) by (change (NoDup (seq 0 19)); apply seq_NoDup).
      revert I I2. generalize dependent field_to_str. intro tbl. induction tbl as [|[j n] t IH]; intros ND I I2; [destruct I|].
      cbn [map fst] in ND. inversion ND as [|? ? NI ND']; subst. destruct I as [E|I], I2 as [E2|I2].
      - congruence.
      - injection E as -> ->. exfalso. apply NI. apply in_map_iff. exists (i, a'). auto.
      - injection E2 as -> ->. exfalso. apply NI. apply in_map_iff. exists (i, a). auto.
      - auto. }
    split; [exact I1|]. apply names_known. eauto.
  - intros (I1 & K). apply names_known in K. destruct K as (i & I2). exists i. split; [now apply tables_agree|].
    apply strings_to_attributes_nth. eauto.
Qed.
Print Assumptions C31_attributes_round_trip.
Example C31_nonvacuous : attributes_eval
  match define fl0 empty_state (EExpr [sys "Attributes"; ESym "f"]) (mkList (map sys ["Orderless"; "Nonsense"; "Flat"; "Flat"]%string)) with Some s => s | None => empty_state end "f"
  = mkList [sys "Flat"; sys "Orderless"].
Proof. vm_compute. reflexivity. Qed.

(* setting attributes keeps the rules *)
Theorem C31_setting_attributes_keeps_rules fl st s rhs st' m :
  define fl st (EExpr [sys "Attributes"; ESym s]) rhs = Some st' -> rules_of st' m = rules_of st m.
Proof.
  intro D. destruct (st_frozen st) eqn:F.
  { rewrite define_frozen in D by exact F. now injection D as <-. }
  apply define_cases in D; [|exact F].
  destruct D as [(u & R & ->)|[(u & E & ->)|[(u & E & ->)|(-> & _)]]].
  - exfalso. destruct R as (_ & R & _). now apply (R s).
  - destruct (define_attrs_shape st u rhs) as [->|(ss & ->)]; [reflexivity|].
    destruct (String.eqb_spec m u) as [->|N].
    + rewrite rules_set_same. cbn [d_dvs]. unfold rules_of. destruct (lookup st u); reflexivity.
    + now rewrite rules_set_other.
  - discriminate E.
  - reflexivity.
Qed.
Print Assumptions C31_setting_attributes_keeps_rules.

(* ------------------------------------------------------------------ C32 *)
(* whenever Module returns, none of its new names was defined before *)
Theorem C32_module_names_not_defined_before fl ev fuel st ls body us e st' :
  module_eval fl ev fuel st ls body = Some (Some (us, e, st')) ->
  length us = length ls /\ Forall (fun u => is_def st u = false) us.
Proof.
  unfold module_eval. destruct (snag_all fl fuel st ls) as [[[us1 st1]|]|] eqn:E; try discriminate.
  intro H. injection H as <- _ _. apply snag_all_some in E. tauto.
Qed.
Print Assumptions C32_module_names_not_defined_before.

(* in an ordinary state ($ModuleNumber has its one integer rule, not frozen, no
   int64 overflow) Module always finds names; they are pairwise distinct, and
   $ModuleNumber has increased by at least the number of locals when the
   initialisers start *)
Theorem C32_module_names_distinct_partial fl st ls z :
  st_frozen st = false -> (exists sp, rules_of st nModuleNumber = [DVal (held (ESym nModuleNumber)) (EInt z) sp]) ->
  (- 2 ^ 63 <= z)%Z -> (z + Z.of_nat (length ls) * Z.of_nat (S (length (st_defs st))) < 2 ^ 63)%Z ->
  exists fuel us st1 z', snag_all fl fuel st ls = Some (Some (us, st1)) /\ NoDup us /\
    Forall (fun u => is_def st u = false) us /\
    get_sym_def st1 nModuleNumber = Some (EInt z') /\ (z + Z.of_nat (length ls) <= z')%Z.
Proof.
  intros F R LB UB. assert (M : mn_state st z) by (split; assumption).
  destruct ls as [|l t].
  { exists 1, [], st, z. cbn [snag_all length]. split; [reflexivity|]. split; [constructor|]. split; [constructor|].
    split; [now apply mn_get|lia]. }
  destruct (snag_all_mn fl (S (length (st_defs st))) (l :: t) st z M) as (us & st1 & z' & E & M1 & LE & _ & ND & _).
  - unfold in64. cbn [length] in UB. nia.
  - lia.
  - exact UB.
  - exists (S (length (st_defs st))), us, st1, z'. split; [exact E|]. split; [exact ND|].
    split; [apply snag_all_some in E; tauto|]. split; [now apply mn_get|exact LE].
Qed.
Print Assumptions C32_module_names_distinct_partial.

(* two evaluations of Module, the second starting anywhere after the first has
   returned, never share a name: names are defined from then on *)
Theorem C32_two_modules_never_share fl ev1 ev2 fuel1 fuel2 st ls1 b1 us1 e1 st1 st2 ls2 b2 us2 e2 st3 :
  (forall st e m, is_def st m = true -> is_def (snd (ev1 st e)) m = true) ->
  module_eval fl ev1 fuel1 st ls1 b1 = Some (Some (us1, e1, st1)) ->
  (forall m, is_def st1 m = true -> is_def st2 m = true) ->
  module_eval fl ev2 fuel2 st2 ls2 b2 = Some (Some (us2, e2, st3)) ->
  forall u, In u us1 -> ~ In u us2.
Proof.
  intros EV M1 G M2 u I1 I2. apply C32_module_names_not_defined_before in M2. destruct M2 as [_ F2].
  rewrite Forall_forall in F2. specialize (F2 u I2).
  assert (is_def st1 u = true) as D; [|apply G in D; congruence].
  unfold module_eval in M1. destruct (snag_all fl fuel1 st ls1) as [[[us st']|]|] eqn:E; try discriminate.
  injection M1 as -> _ <-. apply snag_all_some in E. destruct E as (L & _ & _).
  destruct (init_locals_grows ev1 EV (combine ls1 us1) st') as [_ A]. rewrite Forall_forall in A.
  assert (exists l, In (l, u) (combine ls1 us1)) as [l J].
  { clear - I1 L. revert ls1 L. induction us1 as [|v t IH]; intros [|l ls] L; cbn in *; try lia; try tauto.
    destruct I1 as [->|I1]; [exists l; now left|]. destruct (IH I1 ls) as [l' J]; [lia|]. exists l'. now right. }
  apply (A (l, u) J).
Qed.
Print Assumptions C32_two_modules_never_share.

(* and no operation of the definition store ever makes a defined name undefined *)
Theorem C32_definedness_is_permanent fl st st' m : step fl st st' -> is_def st m = true -> is_def st' m = true.
Proof. intros S. apply (step_grows fl st st' S). Qed.
Print Assumptions C32_definedness_is_permanent.

Definition mst (frozen : bool) : state :=
  State [(nModuleNumber, Def [DVal (held (ESym nModuleNumber)) (EInt 1) 0] no_attrs None false)] frozen.
Example C32_nonvacuous : exists st1,
  snag_all fl0 5 (mst false) [LPlain "x"; LPlain "x"; LPlain "y"] = Some (Some (["x$1"; "x$2"; "y$3"]%string, st1)) /\
  get_sym_def st1 nModuleNumber = Some (EInt 4).
Proof. eexists. split; vm_compute; reflexivity. Qed.

(* While the state is frozen (during orderless pattern matching) the number does
   not advance and both locals get the same name. *)
Theorem C32_frozen_module_shares_names_refuted : exists st ls us st1,
  st_frozen st = true /\ snag_all fl0 5 st ls = Some (Some (us, st1)) /\ ~ NoDup us.
Proof.
  exists (mst true), [LPlain "x"; LPlain "x"]. do 2 eexists. split; [reflexivity|].
  split; [vm_compute; reflexivity|]. intro N. inversion N as [|? ? A _]; subst. apply A. now left.
Qed.
Print Assumptions C32_frozen_module_shares_names_refuted.

(* Module[{x = ($ModuleNumber = 1; Module[{x}, ...])}, ...]: the outer name is
   not registered while its initialiser runs, so the inner Module can take it. *)
Theorem C32_reset_in_initialiser_shares_names_refuted : exists st u st1 st2 st3,
  snag_all fl0 5 st [LSet "x" sNull] = Some (Some ([u], st1)) /\
  define fl0 st1 (ESym nModuleNumber) (EInt 1) = Some st2 /\
  snag_all fl0 5 st2 [LPlain "x"] = Some (Some ([u], st3)).
Proof.
  set (s1 := match snag_all fl0 5 (mst false) [LSet "x" sNull] with Some (Some (_, s)) => s | _ => mst false end).
  set (s2 := match define fl0 s1 (ESym nModuleNumber) (EInt 1) with Some s => s | None => s1 end).
  set (s3 := match snag_all fl0 5 s2 [LPlain "x"] with Some (Some (_, s)) => s | _ => s2 end).
  exists (mst false), "x$1"%string, s1, s2, s3.
  split; [vm_compute; reflexivity|]. split; vm_compute; reflexivity.
Qed.
Print Assumptions C32_reset_in_initialiser_shares_names_refuted.

(* ------------------------------------------------------------------ C33 *)
(* one step of the first / second of two threads *)
Lemma cs_first fl st t p t2 p2 st' p' c : tstep fl st t p = (st', p') -> p <> PDone ->
  csteps fl (st', [(t, p'); (t2, p2)]) c -> csteps fl (st, [(t, p); (t2, p2)]) c.
Proof. intros H N S. eapply Cs_step; [|exact S]. exact (CStep fl st [] t p [(t2, p2)] st' p' H N). Qed.
Lemma cs_second fl st t p t2 p2 st' p' c : tstep fl st t p = (st', p') -> p <> PDone ->
  csteps fl (st', [(t2, p2); (t, p')]) c -> csteps fl (st, [(t2, p2); (t, p)]) c.
Proof. intros H N S. eapply Cs_step; [|exact S]. exact (CStep fl st [(t2, p2)] t p [] st' p' H N). Qed.
Ltac cs0 := unfold start; cbn [map]; eapply cs_first; [vm_compute; reflexivity|discriminate|].
Ltac cs1 := unfold start; cbn [map]; eapply cs_second; [vm_compute; reflexivity|discriminate|].
(* Goroutines that define different symbols: in every interleaving, when all are
   done, each symbol has exactly the entry that its own Define alone would have
   produced, and all other symbols are unchanged. *)
Theorem C33_distinct_symbols_safe_partial fl st ts c :
  NoDup (map tk_name ts) -> csteps fl (start st ts) c -> finished c ->
  (forall t, In t ts -> st_frozen st = false -> rule_lhs (tk_lhs t) (tk_name t) ->
     exists alone, define fl st (tk_lhs t) (tk_rhs t) = Some alone /\ lookup (fst c) (tk_name t) = lookup alone (tk_name t)) /\
  (forall m, ~ In m (map tk_name ts) -> lookup (fst c) m = lookup st m).
Proof.
  intros ND S FIN.
  assert (E0 : map (fun tp : task * pc => tk_name (fst tp)) (snd (start st ts)) = map tk_name ts).
  { unfold start. cbn [snd]. rewrite map_map. reflexivity. }
  destruct (csteps_inv fl st _ _ S) as (F & M & L).
  - rewrite E0. exact ND.
  - unfold start. cbn [fst snd]. apply Forall_map, Forall_forall. intros t _. reflexivity.
  - split.
    + intros t I FZ RL. rewrite (define_rule_lhs fl st _ (tk_rhs t) _ FZ RL). eexists. split; [reflexivity|].
      rewrite lookup_set_same.
      assert (In t (map (fun tp => fst tp) (snd c))) as J.
      { rewrite M. unfold start. cbn [snd]. rewrite map_map. cbn [fst]. rewrite map_id. exact I. }
      apply in_map_iff in J. destruct J as ([t' p] & E & J). cbn [fst] in E. subst t'.
      unfold finished in FIN. rewrite Forall_forall in FIN, F. specialize (F _ J). specialize (FIN _ J).
      cbn [snd] in FIN. subst p. exact F.
    + intros m H. rewrite L by (rewrite E0; exact H). reflexivity.
Qed.
Print Assumptions C33_distinct_symbols_safe_partial.
Example C33_nonvacuous : exists st', csteps fl0 (start empty_state [Task "f" (EExpr [ESym "f"; EInt 1]) (EInt 1); Task "g" (EExpr [ESym "g"; EInt 1]) (EInt 2)])
   (st', [(Task "f" (EExpr [ESym "f"; EInt 1]) (EInt 1), PDone); (Task "g" (EExpr [ESym "g"; EInt 1]) (EInt 2), PDone)]) /\
   is_def st' "f" = true /\ is_def st' "g" = true.
Proof.
  eexists. split.
  - cs0.
    cs1.
    cs1.
    cs0.
    apply Cs_refl.
  - split; reflexivity.
Qed.

(* Two goroutines that define different rules for the same symbol can lose one
   of them: both read the old entry, both write. *)
Theorem C33_lost_update_refuted : exists st t1 t2 c,
  rule_lhs (tk_lhs t1) "f" /\ rule_lhs (tk_lhs t2) "f" /\ tk_lhs t1 <> tk_lhs t2 /\
  csteps fl0 (start st [t1; t2]) c /\ finished c /\
  forall d, In d (rules_of (fst c) "f") -> dv_lhs d <> held (tk_lhs t1).
Proof.
  exists empty_state, (Task "f" (EExpr [ESym "f"; EInt 1]) (EInt 1)), (Task "f" (EExpr [ESym "f"; EInt 2]) (EInt 2)).
  eexists. split; [|split; [|split; [|split; [|split]]]].
  - split; [apply T_fun; discriminate|]. split; intros t X; discriminate X.
  - split; [apply T_fun; discriminate|]. split; intros t X; discriminate X.
  - discriminate.
  - cs0.
    cs1.
    cs0.
    cs1.
    apply Cs_refl.
  - repeat constructor.
  - intros d [<-|[]]. discriminate.
Qed.
Print Assumptions C33_lost_update_refuted.

(* The same happens when the symbol already has rules (snapshot, then write). *)
Theorem C33_lost_update_existing_refuted : exists st t1 t2 c,
  is_def st "f" = true /\ csteps fl0 (start st [t1; t2]) c /\ finished c /\
  rule_lhs (tk_lhs t1) "f" /\ forall d, In d (rules_of (fst c) "f") -> dv_lhs d <> held (tk_lhs t1).
Proof.
  exists (State [("f"%string, def0)] false), (Task "f" (EExpr [ESym "f"; EInt 1]) (EInt 1)), (Task "f" (EExpr [ESym "f"; EInt 2]) (EInt 2)).
  eexists. split; [reflexivity|]. split; [|split; [|split]].
  - cs0.
    cs1.
    cs0.
    cs1.
    cs0.
    cs1.
    apply Cs_refl.
  - repeat constructor.
  - split; [apply T_fun; discriminate|]. split; intros t X; discriminate X.
  - intros d [<-|[]]. discriminate.
Qed.
Print Assumptions C33_lost_update_existing_refuted.

(* ------------------------------------------------------------------ C52 *)
(* After a session of n inputs $Line is n+1 and In[k], Out[k] give the k-th
   input and output for every k <= n.  Hypothesis: the keys of different lines
   do not collide in the 64-bit hash. *)
Theorem C52_history_partial fl st h st' :
  session_start st -> session fl st h st' ->
  (forall s i j, In s ["In"; "Out"]%string -> (1 <= i <= Z.of_nat (length h))%Z -> (1 <= j <= Z.of_nat (length h))%Z ->
     hash (held (EExpr [sys s; EInt i])) = hash (held (EExpr [sys s; EInt j])) -> i = j) ->
  get_sym_def st' (sysname "$Line") = Some (EInt (1 + Z.of_nat (length h))) /\
  forall k inp out, nth_error h k = Some (inp, out) ->
    let line := (1 + Z.of_nat k)%Z in
    get_expr_def (literal (EExpr [sys "In"; EInt line])) st' (sysname "In") = Some inp /\
    get_expr_def (literal (EExpr [sys "Out"; EInt line])) st' (sysname "Out") = Some out.
Proof.
  intros ST S NC.
  assert (NI : nocoll "In" 1 (length h)) by (intros i j Hi Hj; apply NC; [now left|lia|lia]).
  assert (NO : nocoll "Out" 1 (length h)) by (intros i j Hi Hj; apply NC; [right; now left|lia|lia]).
  pose proof (session_inv fl st h st' S ST NI NO) as (F & (sp & L) & RI & RO). split.
  - unfold get_sym_def, rules_of, nLine in *. destruct (lookup st' (sysname "$Line")) as [d|]; [|discriminate L].
    rewrite L. reflexivity.
  - intros k inp out E. cbv zeta. pose proof (nth_error_Some h k) as B. rewrite E in B.
    assert (k < length h) as KL by (apply B; discriminate).
    assert (G : forall s l, rules_of st' (sysname s) = hrules s 1 l -> length l = length h -> nocoll s 1 (length h) ->
      get_expr_def (literal (hist_lhs s (1 + Z.of_nat k))) st' (sysname s) = nth_error l k).
    { intros s l R LL N. unfold get_expr_def, rules_of in *. rewrite <- LL in N.
      assert (first_rule (literal (hist_lhs s (1 + Z.of_nat k))) (hrules s 1 l) = nth_error l k) as X by (apply first_literal; [exact N|lia]).
      destruct (lookup st' (sysname s)) as [d|]; [now rewrite R|]. rewrite <- R in X. exact X. }
    split.
    + etransitivity; [exact (G "In"%string (map fst h) RI (map_length _ _) NI)|]. rewrite nth_error_map, E. reflexivity.
    + etransitivity; [exact (G "Out"%string (map snd h) RO (map_length _ _) NO)|]. rewrite nth_error_map, E. reflexivity.
Qed.
Print Assumptions C52_history_partial.
Definition hst : state := State [(sysname "$Line", Def [DVal (held (ESym (sysname "$Line"))) (EInt 1) 0] no_attrs None false)] false.
Example C52_nonvacuous : session_start hst /\ exists st', session fl0 hst [(xs, xs); (EExpr [sys "Plus"; EInt 1; EInt 1], EInt 2)] st' /\
  get_expr_def (literal (EExpr [sys "Out"; EInt 2])) st' (sysname "Out") = Some (EInt 2) /\
  forallb (fun s => forallb (fun i => forallb (fun j => Z.eqb i j || negb (N.eqb (hash (held (EExpr [sys s; EInt i]))) (hash (held (EExpr [sys s; EInt j])))))
     [1; 2]%Z) [1; 2]%Z) ["In"; "Out"]%string = true.
Proof.
  split; [split; [reflexivity|]; split; [reflexivity|]; split; [reflexivity|]; exists 0%Z; reflexivity|].
  set (s1 := match process_top_level fl0 hst xs xs with Some s => s | None => hst end).
  set (s2 := match process_top_level fl0 s1 (EExpr [sys "Plus"; EInt 1; EInt 1]) (EInt 2) with Some s => s | None => hst end).
  exists s2. split; [|split].
  - apply (Se_snoc fl0 hst [(xs, xs)] s1 s1).
    + apply (Se_snoc fl0 hst [] hst hst xs xs s1 (Se_nil fl0 hst)); [repeat split|vm_compute; reflexivity].
    + repeat split.
    + vm_compute. reflexivity.
  - vm_compute. reflexivity.
  - vm_compute. reflexivity.
Qed.
