(* Evaluator: rules for the passes of the loop. *)
From Verif Require Import M_Syntax M_Float M_Hash M_Sort M_Num M_Arith M_Compare M_Match M_Defs M_Eval S_Eval P_Hash P_MatchFuel P_Eval.
Open Scope nat_scope.

Lemma ret_mono c n1 n2 m es e r : cfg_mono c -> n1 <= n2 -> run c n1 m es e = Ret r -> run c n2 m es e = Ret r.
Proof. intros Hc Hn H. destruct (run_mono c n1 n2 Hc Hn m es e) as [K|K]; congruence. Qed.

(* attributes given by name *)
Lemma set_nth_nth l i j : i < length l -> nth j (set_nth l i) false = (Nat.eqb i j || nth j l false)%bool.
Proof.
  revert i j. induction l as [|b t IH]; intros i j H; [cbn in H; lia|].
  destruct i as [|i]; destruct j as [|j]; cbn [set_nth nth Nat.eqb]; try reflexivity.
  cbn in H. rewrite IH by lia. reflexivity.
Qed.
Lemma set_nth_len l i : length (set_nth l i) = length l.
Proof. revert i. induction l as [|b t IH]; intros [|i]; cbn; auto. Qed.

Lemma fields_fold tbl a s : (forall n i, In (n, i) tbl -> i < length a) ->
  length (fold_left (fun a '(n, i) => if String.eqb s n then set_nth a i else a) tbl a) = length a /\
  forall j, nth j (fold_left (fun a '(n, i) => if String.eqb s n then set_nth a i else a) tbl a) false = true <->
            nth j a false = true \/ In (s, j) tbl.
Proof.
  revert a. induction tbl as [|[n i] t IH]; intros a H; [split; [reflexivity|]; intro j; cbn; tauto|].
  cbn [fold_left].
  assert (Hi : i < length a) by (apply (H n); left; reflexivity).
  destruct (IH (if String.eqb s n then set_nth a i else a)) as [L N].
  { intros n' i' I. destruct (String.eqb s n); [rewrite set_nth_len|]; apply (H n'); right; exact I. }
  split; [rewrite L; destruct (String.eqb s n); [apply set_nth_len|reflexivity]|].
  intro j. rewrite N. cbn [In]. destruct (String.eqb_spec s n) as [->|D].
  - rewrite set_nth_nth, orb_true_iff, Nat.eqb_eq by exact Hi.
    split; [intros [[->|K]|K]; auto|intros [K|[K|K]]; auto]. injection K as ->. auto.
  - split; [tauto|]. intros [K|[K|K]]; auto. injection K as -> ->. congruence.
Qed.

Lemma attrs_by_name names j : has_attr (strings_to_attributes names) j = true <->
  exists s, In s names /\ In (s, j) str_to_field.
Proof.
  unfold strings_to_attributes, has_attr.
  enough (K : forall a, length a = 19 ->
     (nth j (fold_left (fun a s => fold_left (fun a '(n, i) => if String.eqb s n then set_nth a i else a) str_to_field a) names a) false = true
      <-> nth j a false = true \/ exists s, In s names /\ In (s, j) str_to_field)).
  { rewrite (K no_attrs eq_refl).
    assert (E : nth j no_attrs false = false) by (unfold no_attrs; apply nth_repeat).
    rewrite E. split; [intros [D|D]; [discriminate D|exact D]|auto]. }
  induction names as [|s t IH]; intros a L; cbn [fold_left].
  - split; [auto|]. intros [D|[x [[] _]]]. exact D.
  - destruct (fields_fold str_to_field a s) as [L1 N1].
    { intros n i I. rewrite L. cbn in I.
      repeat (destruct I as [I|I]; [injection I as <- <-; lia|]). destruct I. }
    rewrite IH by (rewrite L1; exact L). rewrite N1. split.
    + intros [[K|K]|[x [I K]]]; [auto|right; exists s; split; [left; reflexivity|exact K]|right; exists x; split; [right; exact I|exact K]].
    + intros [K|[x [[->|I] K]]]; auto. right; exists x; auto.
Qed.

Lemma attr_has names s j : In (s, j) str_to_field -> (forall s', In (s', j) str_to_field -> s' = s) ->
  (has_attr (strings_to_attributes names) j = true <-> In s names).
Proof.
  intros I U. rewrite attrs_by_name. split.
  - intros [s' [K Q]]. rewrite <- (U s' Q). exact K.
  - intro K. exists s. split; assumption.
Qed.
Ltac field_tac := let s := fresh in let Q := fresh "Q" in intros s Q; unfold str_to_field in Q; cbn [In] in Q;
  repeat (destruct Q as [Q|Q]; [first [discriminate (f_equal snd Q)|exact (eq_sym (f_equal fst Q))]|]); destruct Q.
Lemma has_hold_first names : has_attr (strings_to_attributes names) aHoldFirst = true <-> In "HoldFirst"%string names.
Proof. apply attr_has; [cbn; tauto|field_tac]. Qed.
Lemma has_hold_rest names : has_attr (strings_to_attributes names) aHoldRest = true <-> In "HoldRest"%string names.
Proof. apply attr_has; [cbn; tauto|field_tac]. Qed.
Lemma has_hold_all names : has_attr (strings_to_attributes names) aHoldAll = true <-> In "HoldAll"%string names.
Proof. apply attr_has; [cbn; tauto|field_tac]. Qed.
Lemma has_hac names : has_attr (strings_to_attributes names) aHoldAllComplete = true <-> In "HoldAllComplete"%string names.
Proof. apply attr_has; [cbn; tauto|field_tac]. Qed.
Lemma has_seqhold names : has_attr (strings_to_attributes names) aSequenceHold = true <-> In "SequenceHold"%string names.
Proof. apply attr_has; [cbn; tauto|field_tac]. Qed.
Lemma has_listable names : has_attr (strings_to_attributes names) aListable = true <-> In "Listable"%string names.
Proof. apply attr_has; [cbn; tauto|field_tac]. Qed.
Lemma has_flat names : has_attr (strings_to_attributes names) aFlat = true <-> In "Flat"%string names.
Proof. apply attr_has; [cbn; tauto|field_tac]. Qed.
Lemma has_orderless names : has_attr (strings_to_attributes names) aOrderless = true <-> In "Orderless"%string names.
Proof. apply attr_has; [cbn; tauto|field_tac]. Qed.
Lemma has_numeric names : has_attr (strings_to_attributes names) aNumericFunction = true <-> In "NumericFunction"%string names.
Proof. apply attr_has; [cbn; tauto|field_tac]. Qed.

Lemma part_held_spec names i : part_held (strings_to_attributes names) i = true <-> holds names i.
Proof.
  unfold part_held, holds. rewrite !orb_true_iff, !andb_true_iff, Nat.eqb_eq, Nat.ltb_lt,
    has_hold_first, has_hold_rest, has_hold_all, has_hac. intuition lia.
Qed.

(* ---- the pass over the parts ---- *)
Lemma obind_ret {A B} (o : outcome A) (f : A -> outcome B) b : obind o f = Ret b <-> exists a, o = Ret a /\ f a = Ret b.
Proof.
  destruct o as [a| |]; cbn; split; try discriminate; try (intros [a' [D _]]; discriminate D).
  - intro H; exists a; auto.
  - intros [a' [E H]]. injection E as ->. exact H.
Qed.

Lemma eval_parts_ok ev names : forall l i es r es',
  eval_parts ev (strings_to_attributes names) i es l = Ret (inr r, es') <-> arg_pass ev (holds names) i es l r es'.
Proof.
  induction l as [|p t IH]; intros i es r es'; cbn [eval_parts].
  - split; [intro H; injection H as <- <-; constructor|intro H; inversion H; reflexivity].
  - cbv zeta. destruct (part_held (strings_to_attributes names) i) eqn:E.
    + assert (Hh := proj1 (part_held_spec names i) E). rewrite obind_ret. split.
      * intros [[o es2] [H K]]. destruct o as [th|r']; [discriminate K|]. injection K as <- <-. apply AP_held; [exact Hh|]. apply IH, H.
      * intro H. inversion H as [|? ? ? ? r0 ? _ H1|? ? ? ? ? ? ? ? N _ _ _]; subst; [|contradiction].
        exists (inr r0, es'). split; [apply IH; exact H1|reflexivity].
    + assert (Hh : ~ holds names i) by (intro K; apply part_held_spec in K; congruence). rewrite obind_ret. split.
      * intros [[v es1] [H K]]. destruct (es_thrown es1) as [th|] eqn:T; [discriminate K|].
        apply obind_ret in K as [[o es2] [H2 K]]. destruct o as [th|r']; [discriminate K|]. injection K as <- <-. apply (AP_eval _ _ _ _ _ v es1); auto. apply IH, H2.
      * intro H. inversion H as [|? ? ? ? r0 ? Hc _|? ? ? v es1 ? r0 ? _ Hv T H1]; subst; [contradiction|].
        exists (v, es1). split; [exact Hv|]. rewrite T. rewrite obind_ret. exists (inr r0, es').
        split; [apply IH; exact H1|reflexivity].
Qed.

Lemma eval_parts_throw ev names : forall l i es th es',
  eval_parts ev (strings_to_attributes names) i es l = Ret (inl th, es') <-> arg_throws ev (holds names) i es l th es'.
Proof.
  induction l as [|p t IH]; intros i es th es'; cbn [eval_parts].
  - split; [intro H; discriminate H|intro H; inversion H].
  - cbv zeta. destruct (part_held (strings_to_attributes names) i) eqn:E.
    + assert (Hh := proj1 (part_held_spec names i) E). rewrite obind_ret. split.
      * intros [[o es2] [H K]]. destruct o as [th'|r']; [|discriminate K]. injection K as <- <-. apply AT_held; [exact Hh|]. apply IH, H.
      * intro H. inversion H as [? ? ? ? ? ? ? N|? ? ? ? ? ? _ H1|? ? ? ? ? ? ? ? N]; subst; try contradiction.
        exists (inl th, es'). split; [apply IH; exact H1|reflexivity].
    + assert (Hh : ~ holds names i) by (intro K; apply part_held_spec in K; congruence). rewrite obind_ret. split.
      * intros [[v es1] [H K]]. destruct (es_thrown es1) as [th'|] eqn:T.
        -- injection K as <- <-. apply (AT_here _ _ _ _ _ v); assumption.
        -- apply obind_ret in K as [[o es2] [H2 K]]. destruct o as [th'|r']; [|discriminate K]. injection K as <- <-. apply (AT_eval _ _ _ _ _ v es1); auto. apply IH, H2.
      * intro H. inversion H as [? ? ? v es1 ? ? _ Hv T|? ? ? ? ? ? N|? ? ? v es1 ? ? ? _ Hv T H1]; subst; [|contradiction|].
        -- exists (v, es'). split; [exact Hv|]. rewrite T. reflexivity.
        -- exists (v, es1). split; [exact Hv|]. rewrite T. rewrite obind_ret. exists (inl th, es').
           split; [apply IH; exact H1|reflexivity].
Qed.

(* ---- splicing ---- *)
Lemma args_of_headed e h : match args_of e h with Some l => e = EExpr (ESym h :: l) | None => ~ headed e h end.
Proof.
  destruct (args_of e h) as [l|] eqn:E; [apply args_of_some, E|].
  intros [l ->]. rewrite args_of_eq in E. discriminate E.
Qed.
Lemma args_of_not e h : ~ headed e h -> args_of e h = None.
Proof. intro N. generalize (args_of_headed e h). destruct (args_of e h) as [l|]; [|reflexivity]. intros ->. exfalso; apply N; exists l; reflexivity. Qed.
Lemma merge_seq_spec h l r : merge_seq h l = r <-> spliced h l r.
Proof.
  split.
  - intros <-. induction l as [|e t IH]; cbn [merge_seq flat_map]; [constructor|].
    generalize (args_of_headed e h). destruct (args_of e h) as [s|].
    + intros ->. apply SP_seq, IH.
    + intro N. apply SP_other; assumption.
  - induction 1 as [|s l r _ IH|e l r N _ IH]; cbn [merge_seq flat_map]; [reflexivity| |].
    + rewrite args_of_eq. fold (merge_seq h l). rewrite IH. reflexivity.
    + rewrite args_of_not by exact N. fold (merge_seq h l). rewrite IH. reflexivity.
Qed.
Lemma merge_seq_none h l : Forall (fun e => ~ headed e h) l -> merge_seq h l = l.
Proof.
  intro H. apply merge_seq_spec. induction H as [|e t N _ IH]; [constructor|apply SP_other; assumption].
Qed.
Lemma merge_eval_none ev es h l : Forall (fun e => ~ headed e h) l -> merge_eval ev es h l = Ret (l, es).
Proof.
  induction 1 as [|e t N _ IH]; cbn [merge_eval]; [reflexivity|].
  rewrite args_of_not by exact N. cbn [obind]. rewrite IH. reflexivity.
Qed.
Lemma splice_ordinary a b ev es l : Forall ordinary_arg l -> splice a b ev es l = Ret (l, es).
Proof.
  intro H. unfold splice. cbv zeta.
  rewrite (merge_seq_none (sysname "Sequence") l) by (eapply Forall_impl; [|exact H]; intros e K; apply K).
  replace (if (b && _)%bool then l else l) with l by (destruct (b && _)%bool; reflexivity).
  rewrite merge_eval_none by (eapply Forall_impl; [|exact H]; intros e K; apply K).
  replace (if has_attr a aHoldAllComplete then _ else _) with (@Ret (list ex * estate) (l, es))
    by (destruct (has_attr a aHoldAllComplete); reflexivity).
  cbn [obind]. rewrite merge_seq_none by (eapply Forall_impl; [|exact H]; intros e K; apply K). reflexivity.
Qed.

(* ---- plain functions ---- *)
Lemma plain_attrs es h names : plain_fn es h names -> sym_attrs es h = strings_to_attributes names.
Proof.
  unfold sym_attrs. intros [[d [L [_ [_ A]]]]|[L ->]]; rewrite L; [exact A|reflexivity].
Qed.
Lemma plain_apply c k ev es h names x y : plain_fn es h names -> apply_head c k ev es h x y = Ret (EExpr x, false, es).
Proof.
  unfold apply_head, get_def. intros [[d [L [B [D _]]]]|[L _]]; rewrite L.
  - rewrite B. cbn [obind]. rewrite L, D. reflexivity.
  - cbn [obind]. rewrite L. reflexivity.
Qed.
Lemma system_attrs es h names : system_fn es h names -> sym_attrs es h = strings_to_attributes names.
Proof. unfold sym_attrs. intros [d [L [_ A]]]; rewrite L; exact A. Qed.

(* ---- one pass for a symbol head, when nothing is rewritten ---- *)
Lemma numeric_off names l : ~ In "NumericFunction"%string names ->
  (if has_attr (strings_to_attributes names) aNumericFunction then propagate_conditionals l else None) = None.
Proof.
  intro N. destruct (has_attr (strings_to_attributes names) aNumericFunction) eqn:E; [|reflexivity].
  exfalso. apply N, has_numeric, E.
Qed.
Lemma attr_off names j s : (has_attr (strings_to_attributes names) j = true <-> In s names) -> ~ In s names ->
  has_attr (strings_to_attributes names) j = false.
Proof. intros H N. destruct (has_attr (strings_to_attributes names) j); [|reflexivity]. exfalso; apply N, H; reflexivity. Qed.

Lemma not_headed_sym s h : ~ headed (ESym s) h.
Proof. intros [l E]. discriminate E. Qed.
Lemma ordinary_sym s : ordinary_arg (ESym s).
Proof. repeat split; apply not_headed_sym. Qed.

Lemma pass_symbol c k ev es h names args l es1 :
  sym_attrs es h = strings_to_attributes names ->
  ~ In "NumericFunction"%string names -> ~ In "Flat"%string names -> ~ In "Orderless"%string names -> ~ In "Listable"%string names ->
  arg_pass ev (holds names) 0 es (ESym h :: args) l es1 -> Forall ordinary_arg l -> l <> [] ->
  pass c k ev es (ESym h :: args) = obind (apply_head c k ev es1 h l l) (fun '(r, b, es3) => Ret (inr (r, b), es3)).
Proof.
  intros A N1 N2 N3 N4 P O Ne. unfold pass. cbv zeta. rewrite A, numeric_off by exact N1.
  apply eval_parts_ok in P. rewrite P. cbn [obind]. rewrite splice_ordinary by exact O. cbn [obind].
  destruct l as [|h2 args2]; [congruence|].
  unfold flat_sort. rewrite (attr_off names aFlat "Flat" (has_flat names) N2).
  rewrite (attr_off names aOrderless "Orderless" (has_orderless names) N3). cbn [andb].
  rewrite (attr_off names aListable "Listable" (has_listable names) N4). reflexivity.
Qed.
