(* Property theorems: For loops (C97). *)
From Coq Require Import QArith.
From Verif Require Import M_Syntax M_Float M_Hash M_Order M_Sort M_Num M_Arith M_Compare M_Match M_Defs S_Defs P_Defs P_Defs4 M_Eval S_Compare S_Match S_Eval S_Iter S_Call M_LibAssign
  P_Hash P_MatchFuel P_Eval P_Eval2 P_Eval3 P_Eval4 P_Iter P_Call T_Match T_Eval T_Eval2 T_Eval3 T_Eval4 T_Eval5 T_Iter T_Call T_Assign T_Compare.
Open Scope nat_scope.

(* The rounds of For[.., cond, incr, expr], in states in which ok holds: cond is
   evaluated; as long as it gives True, expr and then incr are evaluated.
   The loop gives Null, or v as soon as expr gives Return[v].
   (The value of the pair expr; incr is looked at once more by the evaluator:
   it must be a value.) *)
Inductive for_rounds (c : cfg) (ok : estate -> Prop) (cond incr expr : ex) : estate -> ex -> estate -> Prop :=
| FO_stop es r es1 : evals_to c es cond r es1 -> is_sameq r sTrue = false -> for_rounds c ok cond incr expr es sNull es1
| FO_return es es1 r es2 v : evals_to c es cond sTrue es1 -> ok es1 -> evals_to c es1 expr r es2 -> ok es2 ->
    (r = fn "Return" [] /\ v = sNull \/ exists t, r = fn "Return" (v :: t)) -> value c es2 r ->
    no_clash (fn "CompoundExpression" [expr; incr]) r -> for_rounds c ok cond incr expr es v es2
| FO_next es es1 a es2 b es3 v es4 : evals_to c es cond sTrue es1 -> ok es1 ->
    evals_to c es1 expr a es2 -> ok es2 -> ~ headed a (sysname "Return") ->
    evals_to c es2 incr b es3 -> ok es3 -> ~ headed b (sysname "Return") -> ~ headed b (sysname "Break") -> value c es3 b ->
    (is_expr b = false \/ no_clash (fn "CompoundExpression" [expr; incr]) b) ->
    for_rounds c ok cond incr expr es3 v es4 -> for_rounds c ok cond incr expr es v es4.
Definition sequences (es : estate) : Prop := ready es "CompoundExpression" ce_attrs.

Lemma seq_atom c es a s es1 b es2 : cfg_mono c -> sequences es -> sequences es1 -> sequences es2 -> ordinary_arg a -> ordinary_arg b ->
  forall r, evals_to c es a s es1 -> ~ headed s (sysname "Return") -> evals_to c es1 b r es2 -> value c es2 r ->
  (is_expr r = false \/ no_clash (fn "CompoundExpression" [a; b]) r) -> hash_ok (fn "CompoundExpression" [a; b]) ->
  evals_to c es (fn "CompoundExpression" [a; b]) r es2.
Proof.
  intros Hc R0 R1 R2 Oa Ob r Ea Ns Eb V Q Hz.
  assert (P : exists n, forall m, n <= m -> pass c m (run c m None) es (sys "CompoundExpression" :: [a] ++ [b]) = Ret (inr (r, false), es2)).
  { apply (compound_pass c es [a] es1 b r es2 Hc R0); [apply R2|constructor; [exact Oa|constructor; [exact Ob|constructor]]| |exact Eb|apply R2].
    apply (RN_cons c es a s es1); [exact Ea|apply R1|exact Ns|apply RN_nil]. }
  destruct Q as [A|Nc].
  - apply (evals_next_value c es [sys "CompoundExpression"; a; b] r es2 Hc Hz A P V).
  - apply (evals_next c es [sys "CompoundExpression"; a; b] r es2 r es2 Hc Hz Nc P V).
Qed.
Lemma seq_return c es a r es1 b : cfg_mono c -> sequences es -> sequences es1 -> ordinary_arg a -> ordinary_arg b ->
  evals_to c es a r es1 -> headed r (sysname "Return") -> value c es1 r -> hash_ok (fn "CompoundExpression" [a; b]) ->
  no_clash (fn "CompoundExpression" [a; b]) r -> evals_to c es (fn "CompoundExpression" [a; b]) r es1.
Proof.
  intros Hc R0 R1 Oa Ob Ea Hr V Hz Nc.
  apply (C80_compound c es [] es a [b] r es1 r es1 Hc R0); auto; [apply R1|repeat constructor; first [apply Oa|apply Ob]|apply RN_nil|apply R1].
Qed.
Lemma rounds_while c cond incr expr es v es' : cfg_mono c -> ordinary_arg expr -> ordinary_arg incr -> hash_ok (fn "CompoundExpression" [expr; incr]) ->
  for_rounds c sequences cond incr expr es v es' -> while_ends c cond (fn "CompoundExpression" [expr; incr]) es v es'.
Proof.
  intros Hc Oe Oi Hz. induction 1 as [es r es1 E N|es es1 r es2 v E K1 Er K2 R V Nc|es es1 a es2 b es3 v es4 E K1 Ea K2 Na Eb K3 Nb Nk V Q _ IH].
  - eapply WE_stop; eassumption.
  - eapply WE_return; [exact E| |exact R]. apply (seq_return c es1 expr r es2 incr); auto.
    destruct R as [[-> _]|[t ->]]; eexists; reflexivity.
  - eapply WE_next; [exact E| |exact Nb|exact Nk|exact IH]. apply (seq_atom c es1 expr a es2 incr es3); auto.
Qed.

(* For[beg, cond, incr, expr]: beg once, then the rounds; the value is that of
   the loop *)
Theorem C97_for : forall c es beg cond incr expr b es1 v es2, cfg_mono c -> library es "For" for_attrs for_rules ->
  ordinary_arg beg -> ordinary_arg cond -> ordinary_arg incr -> ordinary_arg expr ->
  sequences es -> evals_to c es beg b es1 -> ~ headed b (sysname "Return") -> ready es1 "While" while_attrs ->
  for_rounds c sequences cond incr expr es1 v es2 -> no_rules es2 (sysname "While") -> sequences es2 ->
  is_expr v = false -> value c es2 v ->
  hashes_ok (fn "For" [beg; cond; incr; expr]) (for_rhs beg cond incr expr) [fn "While" [cond; fn "CompoundExpression" [expr; incr]]; fn "CompoundExpression" [expr; incr]] ->
  evals_to c es (fn "For" [beg; cond; incr; expr]) v es2.
Proof.
  intros c es beg cond incr expr b es1 v es2 Hc [U D] O1 O2 O3 O4 R Eb Nb RW Rd NW R2 A V (Hz & Nc & Hp).
  apply Forall_inv in Hp as Hw. apply Forall_inv_tail in Hp. apply Forall_inv in Hp as Hb. clear Hp.
  eapply (library_call c es (sysname "For") for_attrs for_vars [beg; cond; incr; expr] [beg; cond; incr; expr] es _ _ v es2 Hc U);
    [apply held_rest; intros j _; left; left; reflexivity| |exact D|exact U|discriminate| |not_special|reflexivity
    |apply (proj1 (C26_replace_is_substitution _ _ _)); reflexivity|nh|nh|nh|nh| |exact A|exact V|exact Hz|exact Nc].
  - repeat (constructor; [assumption|]). constructor.
  - repeat constructor; intro K; cbn in K; repeat (destruct K as [K|K]; [discriminate K|]); exact K.
  - apply (compound_pass c es [beg] es1 (fn "While" [cond; fn "CompoundExpression" [expr; incr]]) v es2 Hc R); [apply R2| | | |apply R2].
    + constructor; [exact O1|constructor; [|constructor]]. repeat split; nh.
    + apply (RN_cons c es beg b es1); [exact Eb|apply RW|exact Nb|apply RN_nil].
    + pose proof (rounds_while c cond incr expr es1 v es2 Hc O4 O3 Hb Rd) as W.
      apply (evals_next_value c es1 [sys "While"; cond; fn "CompoundExpression" [expr; incr]] v es2 Hc Hw A); [|exact V].
      destruct RW as [Sy [NR [NV T]]].
      apply (system_pass c es1 (sysname "While") while_attrs [cond; fn "CompoundExpression" [expr; incr]] [cond; fn "CompoundExpression" [expr; incr]] while_fn v es1 es2 Hc Sy (ex_intro _ _ Sy)); try (apply while_not; cbn; tauto); auto.
      * apply head_arg; [exact NV|exact T|]. apply held_rest. intros j _. left. cbn; tauto.
      * constructor; [exact O2|constructor; [|constructor]]. repeat split; nh.
      * destruct (while_large c cond _ es1 v es2 Hc W) as [n K]. exists n. intros m Hm. eexists.
        unfold while_fn. rewrite (K m m Hm Hm). reflexivity.
Qed.
Print Assumptions C97_for.

(* ---- a program: For[i = 0, i < n, i++, s += i] adds 0, 1, ..., n - 1 to s ---- *)
(* partial: n <= 2^53, because < rounds integers to machine numbers (C12_integers_refuted) *)
Lemma less_ints p q : (Z.abs p <= 2 ^ 53)%Z -> (Z.abs q <= 2 ^ 53)%Z -> comparison_eval RLess [EInt p; EInt q] = if (p <? q)%Z then ATrue else AFalse.
Proof.
  intros Hp Hq. destruct (C12_small_integers_partial RLess [p; q]) as [K1 K2]; [intros z [<-|[<-|[]]]; assumption|]. cbn [map] in K1, K2.
  destruct (Z.ltb_spec p q) as [L|L].
  - apply K1. split; [|exact Logic.I]. exists (inject_Z p), (inject_Z q). repeat split. rewrite <- Zlt_Qlt. exact L.
  - apply K2. intros [[a [b [Ca [Cb K]]]] _]. injection Ca as <-. injection Cb as <-. rewrite <- Zlt_Qlt in K. lia.
Qed.
Lemma less_evals c es a b p q : cfg_mono c -> ready es "Less" ["Protected"%string] -> no_value es (sysname "True") -> no_value es (sysname "False") ->
  evals_to c es a (EInt p) es -> evals_to c es b (EInt q) es -> (Z.abs p <= 2 ^ 53)%Z -> (Z.abs q <= 2 ^ 53)%Z -> hash_ok (fn "Less" [a; b]) ->
  evals_to c es (fn "Less" [a; b]) (if (p <? q)%Z then sTrue else sFalse) es.
Proof.
  intros Hc (Sy & NR & NV & T) N1 N2 Ea Eb Hp Hq Hz.
  apply (evals_next_value c es [sys "Less"; a; b] (if (p <? q)%Z then sTrue else sFalse) es Hc Hz); [destruct (p <? q)%Z; reflexivity| |destruct (p <? q)%Z; apply value_sym; assumption].
  apply (system_pass c es (sysname "Less") ["Protected"%string] [a; b] [EInt p; EInt q] (answer_fn (comparison_eval RLess)) _ es es Hc Sy (ex_intro _ _ Sy));
    try (apply prot_not; discriminate); auto.
  - apply head_arg; [exact NV|exact T|]. apply EA_eval with es; [apply prot_free|exact Ea|exact T|].
    apply EA_eval with es; [apply prot_free|exact Eb|exact T|apply EA_nil].
  - constructor; [apply ord_int|constructor; [apply ord_int|constructor]].
  - exists 0. intros m _. eexists. unfold answer_fn. cbn [tl]. rewrite less_ints by assumption. destruct (p <? q)%Z; reflexivity.
Qed.

(* the functions the program uses are as the library defines them *)
Definition program_ready (es : estate) : Prop :=
  statements es /\ library es "Increment" incr_attrs increment_rules /\ library es "AddTo" addto_attrs add_to_rules /\
  ready es "Less" ["Protected"%string] /\ ready es "While" while_attrs /\ no_value es (sysname "True") /\ no_value es (sysname "False") /\ no_value es (sysname "Null").
Lemma set_program es x w : user_name x -> program_ready es -> program_ready (set_var es x w).
Proof.
  intros N (S1 & L1 & L2 & R1 & R2 & N1 & N2 & N3). pose proof (proj2 N) as Ns.
  split; [apply set_statements; assumption|]. split; [apply set_library; assumption|]. split; [apply set_library; assumption|].
  split; [apply set_ready; auto|]. split; [apply set_ready; auto|]. repeat split; apply set_no_value; auto.
Qed.
Definition vi : string := "Global`i". Definition vs : string := "Global`s".
Definition below_n (n : nat) : ex := fn "Less" [ESym vi; EInt (Z.of_nat n)].
Definition step_i : ex := fn "Increment" [ESym vi].
Definition add_i : ex := fn "AddTo" [ESym vs; ESym vi].
Definition sum_program (n : nat) : ex := fn "For" [fn "Set" [ESym vi; EInt 0]; below_n n; step_i; add_i].
(* no accident of the 64 bit hashes: n rounds, s = t before the round k *)
Definition sum_calm (n : nat) : Prop :=
  hash_ok (sum_program n) /\ hash_ok (below_n n) /\ hash_ok (fn "While" [below_n n; fn "CompoundExpression" [add_i; step_i]]) /\
  no_clash (sum_program n) (for_rhs (fn "Set" [ESym vi; EInt 0]) (below_n n) step_i add_i) /\
  forall (k : nat) t, k < n -> (2 * t = Z.of_nat k * (Z.of_nat k - 1))%Z -> let z := Z.of_nat k in
    calm "Plus" z 1 (z + 1) /\ calm "Plus" (z + 1) (-1) z /\ calm "Plus" t z (t + z) /\
    no_clash add_i (add_to_rhs (ESym vs) (EInt z)) /\ hash_ok (fn "Plus" [ESym vs; EInt z]).

Lemma ni : user_name vi. Proof. apply (global_name "i"). Qed.
Lemma ns : user_name vs. Proof. apply (global_name "s"). Qed.
Lemma sum_rounds c n : (Z.of_nat n <= 2 ^ 53)%Z -> cfg_mono c -> sum_calm n -> forall d k es t, n = k + d -> program_ready es ->
  variable es vi (EInt (Z.of_nat k)) -> variable es vs (EInt t) -> (2 * t = Z.of_nat k * (Z.of_nat k - 1))%Z ->
  exists t' es', for_rounds c sequences (below_n n) step_i add_i es sNull es' /\ program_ready es' /\
    variable es' vi (EInt (Z.of_nat n)) /\ variable es' vs (EInt t') /\ (2 * t' = Z.of_nat n * (Z.of_nat n - 1))%Z /\
    (forall y, y <> vi -> y <> vs -> lookup (es_defs es') y = lookup (es_defs es) y).
Proof.
  intros B Hc (_ & Hl & _ & _ & Q). induction d as [|d IH]; intros k es t E P Vi Vs T; pose proof P as (St & L1 & L2 & R1 & R2 & N1 & N2 & N3).
  - rewrite Nat.add_0_r in E. subst k. exists t, es. split; [|split; [exact P|split; [exact Vi|split; [exact Vs|split; [exact T|reflexivity]]]]].
    pose proof (less_evals c es (ESym vi) (EInt (Z.of_nat n)) (Z.of_nat n) (Z.of_nat n) Hc R1 N1 N2 (variable_int c es vi _ Vi) (value_int c es _) ltac:(lia) ltac:(lia) Hl) as K.
    rewrite Z.ltb_irrefl in K. apply (FO_stop c _ _ _ _ es sFalse es K). vm_compute. reflexivity.
  - assert (Lt : k < n) by lia. destruct (Q k t Lt T) as (Q1 & Q2 & Q3 & Q4 & Q5).
    pose proof (less_evals c es (ESym vi) (EInt (Z.of_nat n)) (Z.of_nat k) (Z.of_nat n) Hc R1 N1 N2 (variable_int c es vi _ Vi) (value_int c es _) ltac:(lia) ltac:(lia) Hl) as K.
    rewrite (proj2 (Z.ltb_lt _ _)) in K by lia.
    set (es1 := set_var es vs (EInt (t + Z.of_nat k))). set (es2 := set_var es1 vi (EInt (Z.of_nat k + 1))).
    assert (P1 : program_ready es1) by (apply set_program; [apply ns|exact P]).
    assert (P2 : program_ready es2) by (apply set_program; [apply ni|exact P1]).
    assert (Vi1 : variable es1 vi (EInt (Z.of_nat k))) by (apply set_variable; [discriminate|exact Vi]).
    assert (E1 : evals_to c es add_i (EInt (t + Z.of_nat k)) es1).
    { apply (C96_add_to c es vs (ESym vi) t (Z.of_nat k) es Hc L2 (variable_int c es vi _ Vi) St L2); [split; [apply ns|exact Vs]|exact Q3|hok|exact Q4|exact Q5]. }
    assert (E2 : evals_to c es1 step_i (EInt (Z.of_nat k)) es2).
    { apply (C96_increment c es1 vi (Z.of_nat k) Hc (proj1 P1) (proj1 (proj2 P1))); [split; [apply ni|exact Vi1]|exact Q1|exact Q2|hashes_tac]. }
    destruct (IH (S k) es2 (t + Z.of_nat k)%Z) as (t' & es' & F & P' & Vi' & Vs' & T' & O'); [lia|exact P2| | |lia|].
    + replace (Z.of_nat (S k)) with (Z.of_nat k + 1)%Z by lia. apply C96_set_var.
    + apply set_variable; [discriminate|]. apply C96_set_var.
    + exists t', es'. split; [|split; [exact P'|split; [exact Vi'|split; [exact Vs'|split; [exact T'|]]]]].
      * eapply (FO_next c _ _ _ _ es es _ es1 _ es2); [exact K|apply St|exact E1|apply P1|nh|exact E2|apply P2|nh|nh|apply value_int|left; reflexivity|exact F].
      * intros y Y1 Y2. rewrite O' by assumption. unfold es2, es1. rewrite !set_lookup by assumption. reflexivity.
Qed.
Theorem C97_sum_partial : forall c es n, cfg_mono c -> (Z.of_nat n <= 2 ^ 53)%Z -> program_ready es -> library es "For" for_attrs for_rules ->
  can_set es vi -> variable es vs (EInt 0) -> sum_calm n ->
  exists total es', evals_to c es (sum_program n) sNull es' /\
    variable es' vi (EInt (Z.of_nat n)) /\ variable es' vs (EInt total) /\ (2 * total = Z.of_nat n * (Z.of_nat n - 1))%Z /\
    (forall y, y <> vi -> y <> vs -> lookup (es_defs es') y = lookup (es_defs es) y).
Proof.
  intros c es n Hc B P L Ci Vs Q. pose proof P as (St & _).
  set (es1 := set_var es vi (EInt 0)). assert (P1 : program_ready es1) by (apply set_program; [apply ni|exact P]).
  destruct (sum_rounds c n B Hc Q n 0 es1 0%Z) as (t & es' & F & P' & Vi' & Vs' & T' & O'); [lia|exact P1|apply C96_set_var| |reflexivity|].
  { apply set_variable; [discriminate|exact Vs]. }
  exists t, es'. split; [|split; [exact Vi'|split; [exact Vs'|split; [exact T'|]]]].
  - destruct Q as (H1 & H2 & H3 & H4 & _).
    apply (C97_for c es (fn "Set" [ESym vi; EInt 0]) (below_n n) step_i add_i (EInt 0) es1 sNull es' Hc L); try (repeat split; nh).
    + apply St.
    + apply set_int; auto; [apply ni|apply value_int|hok].
    + apply P1.
    + exact F.
    + apply P'.
    + apply P'.
    + apply value_sym, P'.
    + split; [exact H1|]. split; [exact H4|]. constructor; [exact H3|]. constructor; [hok|constructor].
  - intros y Y1 Y2. rewrite O' by assumption. apply set_lookup, Y1.
Qed.
Print Assumptions C97_sum_partial.

(* the hypotheses are met: with s = 0, For[i = 0, i < 4, i++, s += i] leaves s = 6 *)
Definition es_sum : estate := set_var (ES (State (st_defs (es_defs es_as) ++ [entry "Less" ["Protected"%string] true]) false) None None) vs (EInt 0).
Lemma lib_ok es h names rules : sym_attrs es (sysname h) = strings_to_attributes names -> no_value es (sysname h) -> es_thrown es = None ->
  defined_by es (sysname h) rules -> forallb (fun a => negb (existsb (String.eqb a) names)) ["NumericFunction"; "Flat"; "Orderless"; "Listable"]%string = true ->
  library es h names rules.
Proof.
  intros A N T D F. split; [|exact D]. split; [exact A|]. split; [exact N|]. split; [exact T|].
  intros a I K. rewrite forallb_forall in F. specialize (F a I). apply negb_true_iff in F.
  rewrite (proj2 (existsb_eqb a names) K) in F. discriminate F.
Qed.
Ltac lib_ok_tac := apply lib_ok; [vm_compute; reflexivity|vm_compute; reflexivity|vm_compute; reflexivity|vm_compute; split; reflexivity|vm_compute; reflexivity].
Lemma sum_ready : program_ready es_sum.
Proof.
  split; [|split; [lib_ok_tac|split; [lib_ok_tac|split; [ready_tac|split; [ready_tac|repeat split; vm_compute; reflexivity]]]]].
  split; [reflexivity|]. split; [ready_tac|]. split; [ready_tac|].
  split; (split; [eexists; split; [vm_compute; reflexivity|split; reflexivity]|split; vm_compute; reflexivity]).
Qed.
Example C97_ex : exists es', evals_to c0 es_sum (sum_program 4) sNull es' /\ variable es' vs (EInt 6) /\ variable es' vi (EInt 4).
Proof.
  destruct (C97_sum_partial c0 es_sum 4 c0_mono ltac:(discriminate) sum_ready) as (t & es' & E & Vi & Vs & T & _).
  - lib_ok_tac.
  - split; [reflexivity|]. split; [discriminate|]. left. vm_compute. exact Logic.I.
  - apply C96_set_var.
  - split; [hok|]. split; [hok|]. split; [hok|]. split; [split; hok|].
    intros [|[|[|[|k]]]] t Hk T; [| | | |lia].
    + assert (t = 0)%Z as -> by lia. cbv zeta. repeat split; hok.
    + assert (t = 0)%Z as -> by lia. cbv zeta. repeat split; hok.
    + assert (t = 1)%Z as -> by lia. cbv zeta. repeat split; hok.
    + assert (t = 3)%Z as -> by lia. cbv zeta. repeat split; hok.
  - assert (t = 6)%Z as -> by lia. exists es'. split; [exact E|split; assumption].
Qed.
