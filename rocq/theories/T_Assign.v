(* Property theorems: variables and counters (C96). *)
From Verif Require Import M_Syntax M_Float M_Hash M_Order M_Sort M_Num M_Arith M_Compare M_Match M_Defs S_Defs P_Defs P_Defs4 M_Eval S_Match S_Eval S_Iter S_Call M_LibAssign
  P_Hash P_MatchFuel P_Eval P_Eval2 P_Eval3 P_Eval4 P_Iter P_Call T_Match T_Eval T_Eval2 T_Eval3 T_Eval4 T_Eval5 T_Iter T_Call.
Open Scope nat_scope.

(* ---- variables ---- *)
(* x has been given the value v: its only rule is x = v *)
Definition variable (es : estate) (x : string) (v : ex) : Prop :=
  exists d z, lookup (es_defs es) x = Some d /\ d_dvs d = [DVal (held (ESym x)) v z].
(* no value and no rule *)
Definition unset (es : estate) (x : string) : Prop := match lookup (es_defs es) x with Some d => d_dvs d = [] | None => True end.
(* not of the form rhs /; cond, With[.., rhs /; cond], Module[.., rhs /; cond] *)
Definition unconditional (v : ex) : Prop := ~ headed v nCondition /\ ~ headed v (sysname "With") /\ ~ headed v (sysname "Module").
Definition can_set (es : estate) (x : string) : Prop :=
  st_frozen (es_defs es) = false /\ x <> ""%string /\ (unset es x \/ exists v, variable es x v /\ unconditional v).

Definition var_def (o : option def) (x : string) (w : ex) : def :=
  match o with
  | Some d => Def [DVal (held (ESym x)) w (match d_dvs d with r :: _ => dv_spec r | [] => 0%Z end)] (d_attrs d) (d_default d) (d_builtin d)
  | None => Def [DVal (held (ESym x)) w 0] no_attrs None false
  end.
(* the state in which x has the value w and everything else is as in es *)
Definition set_var (es : estate) (x : string) (w : ex) : estate :=
  with_defs es (set_def (es_defs es) x (var_def (lookup (es_defs es) x) x w)).

Lemma mask_plain v : unconditional v -> mask_non_conditional v = sys "ExpreduceNonConditional".
Proof.
  intros (N1 & N2 & N3). destruct v as [| | | | | |[|[h| | | | | |] l]]; try reflexivity. cbn [mask_non_conditional].
  destruct (String.eqb_spec h (sysname "Condition")) as [->|_]; [exfalso; apply N1; exists l; reflexivity|].
  destruct (String.eqb_spec h (sysname "With")) as [->|_]; [exfalso; apply N2; exists l; reflexivity|].
  destruct (String.eqb_spec h (sysname "Module")) as [->|_]; [exfalso; apply N3; exists l; reflexivity|]. reflexivity.
Qed.
Lemma define_var fl es x w : can_set es x -> unconditional w ->
  define fl (es_defs es) (ESym x) w = Some (set_def (es_defs es) x (var_def (lookup (es_defs es) x) x w)).
Proof.
  intros (F & N & H) U. rewrite (define_rule_lhs fl (es_defs es) (ESym x) w x F (rule_lhs_sym x N)). f_equal. f_equal.
  unfold new_def, var_def, unset, variable in *. destruct (lookup (es_defs es) x) as [d|]; [|reflexivity]. f_equal.
  destruct H as [->|[v [[d' [z [E D]]] Uv]]]; [reflexivity|]. injection E as <-. rewrite D. unfold define_rule. cbn [overwrite].
  rewrite same_rule_var by (rewrite !mask_plain by assumption; reflexivity). reflexivity.
Qed.
(* what set_var does *)
Theorem C96_set_var : forall es x w,
  variable (set_var es x w) x w /\ sym_attrs (set_var es x w) x = sym_attrs es x /\
  (forall y, y <> x -> lookup (es_defs (set_var es x w)) y = lookup (es_defs es) y) /\
  st_frozen (es_defs (set_var es x w)) = st_frozen (es_defs es) /\ es_thrown (set_var es x w) = es_thrown es /\ es_sown (set_var es x w) = es_sown es.
Proof.
  intros es x w. unfold set_var. cbn [es_defs with_defs es_thrown es_sown]. split; [|split; [|split; [|repeat split]]].
  - unfold variable. cbn [es_defs with_defs]. rewrite lookup_set_same. unfold var_def. destruct (lookup (es_defs es) x); eexists; eexists; split; reflexivity.
  - unfold sym_attrs. cbn [es_defs with_defs]. rewrite lookup_set_same. unfold var_def. destruct (lookup (es_defs es) x); reflexivity.
  - intros y N. apply lookup_set_other, N.
Qed.
Print Assumptions C96_set_var.
Lemma variable_value es x v : variable es x v -> get_sym_def (es_defs es) x = Some v.
Proof. intros [d [z [L D]]]. unfold get_sym_def. rewrite L, D. reflexivity. Qed.
Lemma variable_int c es x k : variable es x (EInt k) -> evals_to c es (ESym x) (EInt k) es.
Proof. intro V. exists 2. unfold eval. cbn [run]. rewrite (variable_value es x _ V). reflexivity. Qed.

(* ---- Set ---- *)
Definition set_attrs : list string := ["HoldFirst"; "SequenceHold"; "Protected"]%string.
Lemma set_not a : In a ["NumericFunction"; "Flat"; "Orderless"; "Listable"]%string -> ~ In a set_attrs.
Proof. intros I K. cbn in I, K. destruct K as [<-|[<-|[<-|[]]]]; repeat (destruct I as [I|I]; [discriminate I|]); exact I. Qed.
Lemma set_not_held i : i <> 1 -> ~ holds set_attrs i.
Proof. intros N [K|[K|[[K _]|[_ K]]]]; cbn in K; try contradiction; intuition discriminate. Qed.
Lemma set_other_fn es x w h names : x <> h -> system_fn es h names -> system_fn (set_var es x w) h names.
Proof. intros N [d [L K]]. exists d. rewrite <- L. split; [apply (C96_set_var es x w); congruence|exact K]. Qed.
Lemma set_lookup es x w y : y <> x -> lookup (es_defs (set_var es x w)) y = lookup (es_defs es) y.
Proof. apply C96_set_var. Qed.
Lemma set_no_rules es x w h : x <> h -> no_rules es h -> no_rules (set_var es x w) h.
Proof. intros N K d. rewrite set_lookup by congruence. apply K. Qed.
Lemma set_no_value es x w h : x <> h -> no_value es h -> no_value (set_var es x w) h.
Proof. intros N K. unfold no_value, get_sym_def in *. rewrite set_lookup by congruence. exact K. Qed.
Lemma set_ready es x w h names : x <> sysname h -> ready es h names -> ready (set_var es x w) h names.
Proof.
  intros N (Sy & NR & NV & T). split; [apply set_other_fn; assumption|]. split; [apply set_no_rules; assumption|].
  split; [apply set_no_value; assumption|exact T].
Qed.
Lemma set_usable es x w h names : x <> sysname h -> usable es h names -> usable (set_var es x w) h names.
Proof. intros N (Sy & NV & T). split; [apply set_other_fn; assumption|]. split; [apply set_no_value; assumption|exact T]. Qed.
Lemma set_user es x w f names : x <> f -> user_fn es f names -> user_fn (set_var es x w) f names.
Proof.
  intros N (A & NV & T & Na). split; [|split; [apply set_no_value; assumption|split; [exact T|exact Na]]].
  rewrite <- A. unfold sym_attrs. rewrite set_lookup by congruence. reflexivity.
Qed.
Lemma set_defined es x w f rules : x <> f -> defined_by es f rules -> defined_by (set_var es x w) f rules.
Proof. intros N D. unfold defined_by in *. rewrite set_lookup by congruence. exact D. Qed.
Lemma set_variable es x w y v : x <> y -> variable es y v -> variable (set_var es x w) y v.
Proof. intros N [d [z [L D]]]. exists d, z. rewrite set_lookup by congruence. split; assumption. Qed.
Lemma set_can_set es x w : st_frozen (es_defs es) = false -> x <> ""%string -> unconditional w -> can_set (set_var es x w) x.
Proof. intros F N U. split; [exact F|]. split; [exact N|]. right. exists w. split; [apply C96_set_var|exact U]. Qed.
Lemma set_can_set_other es x w y : x <> y -> can_set es y -> can_set (set_var es x w) y.
Proof.
  intros N (F & Ny & H). split; [exact F|]. split; [exact Ny|]. destruct H as [U|[v [V Uv]]].
  - left. unfold unset in *. rewrite set_lookup by congruence. exact U.
  - right. exists v. split; [apply set_variable; assumption|exact Uv].
Qed.

Lemma set_pass c es x e w es1 : cfg_mono c -> ready es "Set" set_attrs -> evals_to c es e w es1 -> ready es1 "Set" set_attrs ->
  can_set es1 x -> x <> sysname "Set" -> ordinary_arg w -> unconditional w ->
  exists n, forall m, n <= m -> pass c m (run c m None) es [sys "Set"; ESym x; e] = Ret (inr (w, false), set_var es1 x w).
Proof.
  intros Hc (Sy & NR & NV & T) E (Sy1 & NR1 & NV1 & T1) CS N O U.
  apply (system_pass c es (sysname "Set") set_attrs [ESym x; e] [ESym x; w] (set_fn c) w es1 (set_var es1 x w) Hc Sy (ex_intro _ _ Sy1));
    try (apply set_not; cbn; tauto).
  - apply head_arg; [exact NV|exact T|]. apply EA_held; [right; right; left; split; [reflexivity|left; reflexivity]|].
    apply EA_eval with es1; [apply set_not_held; lia|exact E|exact T1|apply EA_nil].
  - constructor; [apply ordinary_sym|constructor; [exact O|constructor]].
  - reflexivity.
  - apply set_no_rules; [congruence|exact NR1].
  - exists 0. intros m _. exists [sys "Set"; ESym x; w]. unfold set_fn, es_define. rewrite (define_var (c_fl c) es1 x w CS U). reflexivity.
Qed.
(* x = e: e is evaluated; x then has the value w that it gave and nothing else
   has changed; the result is w, evaluated once more *)
Theorem C96_set : forall c es x e w es1 v es2, cfg_mono c -> ready es "Set" set_attrs -> evals_to c es e w es1 -> ready es1 "Set" set_attrs ->
  can_set es1 x -> x <> sysname "Set" -> ordinary_arg w -> unconditional w ->
  hash_ok (fn "Set" [ESym x; e]) -> no_clash (fn "Set" [ESym x; e]) w -> evals_to c (set_var es1 x w) w v es2 ->
  evals_to c es (fn "Set" [ESym x; e]) v es2.
Proof.
  intros c es x e w es1 v es2 Hc R E R1 CS N O U Hz Nc Ev.
  apply (evals_next c es [sys "Set"; ESym x; e] w (set_var es1 x w) v es2 Hc Hz Nc); [|exact Ev]. apply set_pass; assumption.
Qed.
Print Assumptions C96_set.
Lemma unconditional_atom v : is_expr v = false -> unconditional v.
Proof. intro A. repeat split; intros [l ->]; discriminate A. Qed.
Lemma ordinary_atom v : is_expr v = false -> ordinary_arg v.
Proof. intro A. repeat split; intros [l ->]; discriminate A. Qed.

(* ---- sums and sequences whose value is an integer ---- *)
Lemma num_pass2 c es op f a b p q z : cfg_mono c -> usable es op num_attrs -> assoc (table c) (sysname op) = Some (value_fn f) ->
  cond_expr a = None -> cond_expr b = None -> evals_to c es a (EInt p) es -> evals_to c es b (EInt q) es ->
  f [EInt p; EInt q] = EInt z -> f [EInt q; EInt p] = EInt z ->
  hash (EInt z) <> hash (fn op [EInt p; EInt q]) -> hash (EInt z) <> hash (fn op [EInt q; EInt p]) ->
  exists n, forall m, n <= m -> pass c m (run c m None) es [sys op; a; b] = Ret (inr (EInt z, false), es).
Proof.
  intros Hc Us B Ca Cb Ea Eb F1 F2 H1 H2.
  destruct (evals_large c _ _ _ _ Hc Ea) as [n1 K1]. destruct (evals_large c _ _ _ _ Hc Eb) as [n2 K2].
  exists (S (n1 + n2)). intros [|m] Hm; [lia|].
  apply (num_pass c m es op f [a; b] p q z Us B); auto.
  - unfold propagate_conditionals. cbn [existsb]. rewrite Ca, Cb. reflexivity.
  - cbn [eval_parts]. destruct num_attr_vals as (_ & _ & _ & _ & _ & _ & A7). rewrite !A7. rewrite K1 by lia. cbn [obind].
    destruct Us as (_ & _ & Th). rewrite Th. rewrite K2 by lia. cbn [obind]. rewrite Th. reflexivity.
Qed.
(* no accident of the hashes in the sum of two integers *)
Definition calm (op : string) (p q z : Z) : Prop :=
  hash (EInt z) <> hash (fn op [EInt p; EInt q]) /\ hash (EInt z) <> hash (fn op [EInt q; EInt p]).
Lemma plus_evals c es a b p q : cfg_mono c -> usable es "Plus" num_attrs ->
  cond_expr a = None -> cond_expr b = None -> evals_to c es a (EInt p) es -> evals_to c es b (EInt q) es ->
  hash_ok (fn "Plus" [a; b]) -> calm "Plus" p q (p + q) -> evals_to c es (fn "Plus" [a; b]) (EInt (p + q)) es.
Proof.
  intros Hc U Ca Cb Ea Eb Hz [H1 H2]. apply (evals_next_value c es [sys "Plus"; a; b] (EInt (p + q)) es Hc Hz eq_refl); [|apply value_int].
  apply (num_pass2 c es "Plus" plus_eval a b p q (p + q) Hc U (table_plus c)); auto using plus_ints.
  rewrite plus_ints. f_equal. lia.
Qed.
Lemma opposite_evals c es b q : cfg_mono c -> usable es "Times" num_attrs -> cond_expr b = None -> evals_to c es b (EInt q) es ->
  hash_ok (fn "Times" [b; EInt (-1)]) -> calm "Times" q (-1) (- q) -> evals_to c es (fn "Times" [b; EInt (-1)]) (EInt (- q)) es.
Proof.
  intros Hc U Cb Eb Hz [H1 H2]. apply (evals_next_value c es [sys "Times"; b; EInt (-1)] (EInt (- q)) es Hc Hz eq_refl); [|apply value_int].
  apply (num_pass2 c es "Times" times_eval b (EInt (-1)) q (-1) (- q) Hc U (table_times c)); auto; try apply value_int;
    rewrite times_ints; f_equal; lia.
Qed.
Lemma minus_evals c es a b p q : cfg_mono c -> arith_ready es ->
  cond_expr a = None -> cond_expr b = None -> evals_to c es a (EInt p) es -> evals_to c es b (EInt q) es ->
  hash_ok (minus a b) -> hash_ok (fn "Times" [b; EInt (-1)]) -> calm "Times" q (-1) (- q) -> calm "Plus" p (- q) (p + - q) ->
  evals_to c es (minus a b) (EInt (p - q)) es.
Proof.
  intros Hc [UP UT] Ca Cb Ea Eb H1 H2 H3 H4. replace (p - q)%Z with (p + - q)%Z by lia.
  apply (plus_evals c es a (fn "Times" [b; EInt (-1)]) p (- q)); auto. apply opposite_evals; assumption.
Qed.
Lemma compound_pass c es pre es1 a r es2 : cfg_mono c ->
  ready es "CompoundExpression" ce_attrs -> no_rules es2 (sysname "CompoundExpression") ->
  Forall ordinary_arg (pre ++ [a]) -> runs c es pre es1 -> evals_to c es1 a r es2 -> es_thrown es2 = None ->
  exists n, forall m, n <= m -> pass c m (run c m None) es (sys "CompoundExpression" :: pre ++ [a]) = Ret (inr (r, false), es2).
Proof.
  intros Hc [Sy [NR [NV T]]] NR2 O R Ea T2.
  destruct (compound_value c es pre es1 a [] r es2 Hc R Ea T2 (or_introl eq_refl)) as [n1 K1].
  apply (system_pass c es (sysname "CompoundExpression") ce_attrs (pre ++ [a]) (pre ++ [a]) compound_fn r es es2 Hc Sy (ex_intro _ _ Sy));
    try (apply ce_not; cbn; tauto); auto.
  - apply head_arg; [exact NV|exact T|]. apply held_rest. intros j _. left. cbn; tauto.
  - exists n1. intros m Hm. exists (sys "CompoundExpression" :: pre ++ [a]). unfold compound_fn. cbn [tl]. rewrite (K1 m Hm). reflexivity.
Qed.

(* ---- calls of the functions of the library ---- *)
Lemma atom_reaches c es v e' es' : is_expr v = false -> reaches c es v e' es' -> e' = v.
Proof. intros A H. inversion H; subst; [reflexivity|]. match goal with K : steps _ _ _ _ _ |- _ => destruct K as [p [b [n [E _]]]]; subst v; discriminate A end. Qed.
Lemma one_pass_returns_not c es l v b es1 : is_expr v = false -> ~ headed (EExpr l) (sysname "Return") ->
  (exists n, forall m, n <= m -> pass c m (run c m None) es l = Ret (inr (v, b), es1)) -> never_returns c es (EExpr l).
Proof.
  intros A N P e' es' R. inversion R; subst; [exact N|].
  match goal with K : steps _ _ _ _ _ |- _ => destruct (pass_steps _ _ _ _ _ _ P _ _ K); subst end.
  match goal with K : reaches _ _ _ _ _ |- _ => rewrite (atom_reaches _ _ _ _ _ A K) end. intros [l' ->]. discriminate A.
Qed.
(* f[a1, ...] := rhs, the only rule; the body becomes an atom in one pass *)
Lemma library_call c es f names xs args args' es1 rhs r v es2 : cfg_mono c -> user_fn es f names ->
  evals_args c (holds names) 1 es args args' es1 -> Forall ordinary_arg args' ->
  defined_by es1 f [DVal (held (EExpr (ESym f :: map var xs))) rhs 0] -> user_fn es1 f names ->
  xs <> [] -> NoDup xs -> ~ In f pattern_heads -> length args' = length xs -> subst (combine xs args') rhs (EExpr r) ->
  ~ headed (EExpr r) nCondition -> ~ headed (EExpr r) (sysname "With") -> ~ headed (EExpr r) (sysname "Module") -> ~ headed (EExpr r) (sysname "Return") ->
  (exists n, forall m, n <= m -> pass c m (run c m None) es1 r = Ret (inr (v, false), es2)) -> is_expr v = false -> value c es2 v ->
  hash_ok (EExpr (ESym f :: args)) -> no_clash (EExpr (ESym f :: args)) (EExpr r) ->
  evals_to c es (EExpr (ESym f :: args)) v es2.
Proof.
  intros Hc U E O D U1 Nx Nd Nf Le Sb N1 N2 N3 N4 P A V Hz Nc.
  apply (C90_call c es f names args args' es1 _ (EExpr r) es1 v es2 Hc U E O D); auto.
  - apply SEL_hit with (combine xs args') (EExpr r).
    + split.
      * assert (F1 : me_flat (env_of c es1) f = false).
        { destruct U1 as [A1 [_ [_ Na]]]. unfold env_of; cbn [me_flat]. rewrite A1. apply (attr_off names aFlat "Flat" (has_flat names)). apply Na. cbn; tauto. }
        assert (F2 : me_orderless (env_of c es1) f = false).
        { destruct U1 as [A1 [_ [_ Na]]]. unfold env_of; cbn [me_orderless]. rewrite A1. apply (attr_off names aOrderless "Orderless" (has_orderless names)). apply Na. cbn; tauto. }
        cbn [simple]. rewrite F1, F2. replace (existsb (String.eqb f) pattern_heads) with false
          by (symmetry; destruct (existsb (String.eqb f) pattern_heads) eqn:Q; [apply existsb_eqb in Q; contradiction|reflexivity]).
        replace (match map var xs with [] => true | _ => false end) with false by (destruct xs; [congruence|reflexivity]).
        replace (forallb (simple (env_of c es1)) (map var xs)) with true; [rewrite !orb_true_r; reflexivity|].
        symmetry. apply forallb_forall. intros p Hp. apply in_map_iff in Hp. destruct Hp as [y [<- _]]. reflexivity.
      * rewrite names_node by exact Nf. replace (flat_map pattern_names (map var xs)) with xs; [exact Nd|].
        clear. induction xs as [|y t IH]; [reflexivity|]. cbn [map flat_map]. rewrite <- IH. reflexivity.
    + apply F_node; [exact Nf|reflexivity|apply N.eqb_refl|]. clear - Le. revert args' Le.
      induction xs as [|y t IH]; intros [|a l] Le; try discriminate Le; [constructor|]. cbn [map combine].
      apply (FL_cons (var y) a [(y, a)] _ _ (combine t l)); [apply F_var|]. apply IH. injection Le as Le. exact Le.
    + exact Sb.
    + apply G_plain; assumption.
  - eapply one_pass_returns_not; [exact A|exact N4|exact P].
  - apply (evals_next_value c es1 r v es2 Hc (proj1 Nc) A P V).
Qed.

(* ---- x++, x--, ++x, --x, x += e, x -= e on integers ---- *)
(* names outside the System context *)
Definition user_name (x : string) : Prop := x <> ""%string /\ forall s, x <> sysname s.
Definition statements (es : estate) : Prop :=
  st_frozen (es_defs es) = false /\ ready es "Set" set_attrs /\ ready es "CompoundExpression" ce_attrs /\ arith_ready es.
(* the function h of the library, with its rules and attributes *)
Definition library (es : estate) (h : string) (names : list string) (rules : list dval) : Prop :=
  user_fn es (sysname h) names /\ defined_by es (sysname h) rules.

Lemma set_statements es x w : user_name x -> statements es -> statements (set_var es x w).
Proof.
  intros [_ N] (F & R1 & R2 & U1 & U2). split; [exact F|]. split; [apply set_ready; auto|]. split; [apply set_ready; auto|].
  split; apply set_usable; auto.
Qed.
Lemma set_library es x w h names rules : user_name x -> library es h names rules -> library (set_var es x w) h names rules.
Proof. intros [_ N] [U D]. split; [apply set_user; auto|apply set_defined; auto]. Qed.
Lemma variable_can_set es x k : statements es -> user_name x -> variable es x (EInt k) -> can_set es x.
Proof. intros [F _] [N _] V. split; [exact F|]. split; [exact N|]. right. exists (EInt k). split; [exact V|apply unconditional_atom; reflexivity]. Qed.

Lemma set_int_pass c es x e j : cfg_mono c -> statements es -> user_name x -> can_set es x -> evals_to c es e (EInt j) es ->
  exists n, forall m, n <= m -> pass c m (run c m None) es [sys "Set"; ESym x; e] = Ret (inr (EInt j, false), set_var es x (EInt j)).
Proof.
  intros Hc (F & R & _) [Ne N] CS E. apply set_pass; auto; [apply ordinary_atom|apply unconditional_atom]; reflexivity.
Qed.
Lemma set_int c es x e j : cfg_mono c -> statements es -> user_name x -> can_set es x -> evals_to c es e (EInt j) es ->
  hash_ok (fn "Set" [ESym x; e]) -> evals_to c es (fn "Set" [ESym x; e]) (EInt j) (set_var es x (EInt j)).
Proof.
  intros Hc S Nx CS E Hz. apply (evals_next_value c es [sys "Set"; ESym x; e] (EInt j) _ Hc Hz eq_refl); [|apply value_int].
  apply set_int_pass; assumption.
Qed.

(* no accident of the 64 bit hashes: none of these expressions has the hash 0,
   and the body does not have the hash of the call *)
Definition hashes_ok (call body : ex) (parts : list ex) : Prop :=
  hash_ok call /\ no_clash call body /\ Forall hash_ok parts.
Lemma held_first c es names a : In "HoldFirst"%string names -> evals_args c (holds names) 1 es [a] [a] es.
Proof. intro H. apply EA_held; [right; right; left; split; [reflexivity|exact H]|apply EA_nil]. Qed.
Lemma ord_set a b : ordinary_arg (fn "Set" [a; b]). Proof. repeat split; intros [l E]; discriminate E. Qed.
Lemma ord_plus a b : ordinary_arg (fn "Plus" [a; b]). Proof. repeat split; intros [l E]; discriminate E. Qed.
Ltac nh := let l := fresh in let E := fresh in intros [l E]; discriminate E.
Ltac not_special := let K := fresh in intro K; cbn in K; repeat (destruct K as [K|K]; [discriminate K|]); exact K.

(* the call of a function of one held variable *)
Lemma library_call1 c es h names x rhs r v es2 : cfg_mono c -> In "HoldFirst"%string names ->
  library es h names (rule1 h [var la] rhs) -> ~ In (sysname h) pattern_heads ->
  subst [(la, ESym x)] rhs (EExpr r) -> 
  ~ headed (EExpr r) nCondition -> ~ headed (EExpr r) (sysname "With") -> ~ headed (EExpr r) (sysname "Module") -> ~ headed (EExpr r) (sysname "Return") ->
  (exists n, forall m, n <= m -> pass c m (run c m None) es r = Ret (inr (EInt v, false), es2)) ->
  hash_ok (fn h [ESym x]) -> no_clash (fn h [ESym x]) (EExpr r) ->
  evals_to c es (fn h [ESym x]) (EInt v) es2.
Proof.
  intros Hc Hf [U D] Np Sb N1 N2 N3 N4 P Hz Nc.
  apply (library_call c es (sysname h) names [la] [ESym x] [ESym x] es rhs r (EInt v) es2 Hc U); auto.
  - apply held_first, Hf.
  - constructor; [apply ordinary_sym|constructor].
  - discriminate.
  - constructor; [intros []|constructor].
  - apply value_int.
Qed.
Definition int_var (es : estate) (x : string) (k : Z) : Prop := user_name x /\ variable es x (EInt k).

(* x++ gives the value of x, and x has the next value afterwards *)
Theorem C96_increment : forall c es x k, cfg_mono c -> statements es -> library es "Increment" incr_attrs increment_rules ->
  int_var es x k -> calm "Plus" k 1 (k + 1) -> calm "Plus" (k + 1) (-1) k ->
  hashes_ok (fn "Increment" [ESym x]) (increment_rhs (ESym x)) [fn "Set" [ESym x; fn "Plus" [ESym x; EInt 1]]; fn "Plus" [ESym x; EInt 1]; minus (ESym x) (EInt 1)] ->
  evals_to c es (fn "Increment" [ESym x]) (EInt k) (set_var es x (EInt (k + 1))).
Proof.
  intros c es x k Hc St L [Nx V] Q1 Q2 (Hz & Nc & Hp).
  apply Forall_inv in Hp as Hs. apply Forall_inv_tail in Hp. apply Forall_inv in Hp as Hpl. apply Forall_inv_tail in Hp. apply Forall_inv in Hp as Hm. clear Hp.
  pose proof (set_statements es x (EInt (k + 1)) Nx St) as St1.
  eapply (library_call1 c es "Increment" incr_attrs x _ _ k _ Hc ltac:(left; reflexivity) L); [not_special| | | | | | |exact Hz|exact Nc]; try nh.
  - apply (proj1 (C26_replace_is_substitution _ _ _)). reflexivity.
  - apply (compound_pass c es [fn "Set" [ESym x; fn "Plus" [ESym x; EInt 1]]] (set_var es x (EInt (k + 1))) (minus (ESym x) (EInt 1)) (EInt k) _ Hc).
    + apply St.
    + apply St1.
    + constructor; [apply ord_set|constructor; [apply ord_plus|constructor]].
    + apply (RN_cons c es _ (EInt (k + 1)) (set_var es x (EInt (k + 1)))); [|apply St1|nh|apply RN_nil]. apply set_int; auto; [apply (variable_can_set es x k); auto|].
      apply plus_evals; auto; [apply St|apply variable_int, V|apply value_int].
    + enough (G : evals_to c (set_var es x (EInt (k + 1))) (minus (ESym x) (EInt 1)) (EInt (k + 1 - 1)) (set_var es x (EInt (k + 1)))) by (replace (k + 1 - 1)%Z with k in G by lia; exact G).
      apply minus_evals; auto; try reflexivity.
      * apply St1.
      * apply variable_int, C96_set_var.
      * apply value_int.
      * hok.
      * split; hok.
      * replace (k + 1 + - (1))%Z with k by lia. exact Q2.
    + apply St1.
Qed.
Print Assumptions C96_increment.
(* x-- *)
Theorem C96_decrement : forall c es x k, cfg_mono c -> statements es -> library es "Decrement" incr_attrs decrement_rules ->
  int_var es x k -> calm "Plus" k (-1) (k - 1) -> calm "Plus" (k - 1) 1 k ->
  hashes_ok (fn "Decrement" [ESym x]) (decrement_rhs (ESym x)) [fn "Set" [ESym x; minus (ESym x) (EInt 1)]; fn "Plus" [ESym x; EInt 1]; minus (ESym x) (EInt 1)] ->
  evals_to c es (fn "Decrement" [ESym x]) (EInt k) (set_var es x (EInt (k - 1))).
Proof.
  intros c es x k Hc St L [Nx V] Q1 Q2 (Hz & Nc & Hp).
  apply Forall_inv in Hp as Hs. apply Forall_inv_tail in Hp. apply Forall_inv in Hp as Hpl. apply Forall_inv_tail in Hp. apply Forall_inv in Hp as Hm. clear Hp.
  pose proof (set_statements es x (EInt (k - 1)) Nx St) as St1.
  eapply (library_call1 c es "Decrement" incr_attrs x _ _ k _ Hc ltac:(left; reflexivity) L); [not_special| | | | | | |exact Hz|exact Nc]; try nh.
  - apply (proj1 (C26_replace_is_substitution _ _ _)). reflexivity.
  - apply (compound_pass c es [fn "Set" [ESym x; minus (ESym x) (EInt 1)]] (set_var es x (EInt (k - 1))) (fn "Plus" [ESym x; EInt 1]) (EInt k) _ Hc).
    + apply St.
    + apply St1.
    + constructor; [apply ord_set|constructor; [apply ord_plus|constructor]].
    + apply (RN_cons c es _ (EInt (k - 1)) (set_var es x (EInt (k - 1)))); [|apply St1|nh|apply RN_nil]. apply set_int; auto; [apply (variable_can_set es x k); auto|].
      apply minus_evals; auto; try reflexivity; [apply St|apply variable_int, V|apply value_int|hok|split; hok].
    + enough (G : evals_to c (set_var es x (EInt (k - 1))) (fn "Plus" [ESym x; EInt 1]) (EInt (k - 1 + 1)) (set_var es x (EInt (k - 1)))) by (replace (k - 1 + 1)%Z with k in G by lia; exact G).
      apply plus_evals; auto; try reflexivity.
      * apply St1.
      * apply variable_int, C96_set_var.
      * apply value_int.
      * replace (k - 1 + 1)%Z with k by lia. exact Q2.
    + apply St1.
Qed.
Print Assumptions C96_decrement.
(* ++x and --x give the new value *)
Theorem C96_pre_increment : forall c es x k, cfg_mono c -> statements es -> library es "PreIncrement" incr_attrs pre_increment_rules ->
  int_var es x k -> calm "Plus" k 1 (k + 1) ->
  hashes_ok (fn "PreIncrement" [ESym x]) (pre_increment_rhs (ESym x)) [fn "Plus" [ESym x; EInt 1]] ->
  evals_to c es (fn "PreIncrement" [ESym x]) (EInt (k + 1)) (set_var es x (EInt (k + 1))).
Proof.
  intros c es x k Hc St L [Nx V] Q1 (Hz & Nc & Hp). apply Forall_inv in Hp as Hs. clear Hp.
  eapply (library_call1 c es "PreIncrement" incr_attrs x _ _ (k + 1) _ Hc ltac:(left; reflexivity) L); [not_special| | | | | | |exact Hz|exact Nc]; try nh.
  - apply (proj1 (C26_replace_is_substitution _ _ _)). reflexivity.
  - apply set_int_pass; auto; [apply (variable_can_set es x k); auto|].
    apply plus_evals; auto; [apply St|apply variable_int, V|apply value_int].
Qed.
Print Assumptions C96_pre_increment.
Theorem C96_pre_decrement : forall c es x k, cfg_mono c -> statements es -> library es "PreDecrement" incr_attrs pre_decrement_rules ->
  int_var es x k -> calm "Plus" k (-1) (k - 1) ->
  hashes_ok (fn "PreDecrement" [ESym x]) (pre_decrement_rhs (ESym x)) [minus (ESym x) (EInt 1)] ->
  evals_to c es (fn "PreDecrement" [ESym x]) (EInt (k - 1)) (set_var es x (EInt (k - 1))).
Proof.
  intros c es x k Hc St L [Nx V] Q1 (Hz & Nc & Hp). apply Forall_inv in Hp as Hs. clear Hp.
  eapply (library_call1 c es "PreDecrement" incr_attrs x _ _ (k - 1) _ Hc ltac:(left; reflexivity) L); [not_special| | | | | | |exact Hz|exact Nc]; try nh.
  - apply (proj1 (C26_replace_is_substitution _ _ _)). reflexivity.
  - apply set_int_pass; auto; [apply (variable_can_set es x k); auto|].
    apply minus_evals; auto; try reflexivity; [apply St|apply variable_int, V|apply value_int|hok|split; hok].
Qed.
Print Assumptions C96_pre_decrement.
(* x += e and x -= e: first e is evaluated (which may change x), then its value is added to the value x has then *)
Lemma addto_args c es x e j es1 : evals_to c es e (EInt j) es1 -> es_thrown es1 = None ->
  evals_args c (holds addto_attrs) 1 es [ESym x; e] [ESym x; EInt j] es1.
Proof.
  intros E T. apply EA_held; [right; right; left; split; [reflexivity|left; reflexivity]|].
  apply EA_eval with es1; [|exact E|exact T|apply EA_nil].
  intros [K|[K|[[K _]|[_ K]]]]; try discriminate K; destruct K as [K|[K|[]]]; discriminate K.
Qed.
Theorem C96_add_to : forall c es x e k j es1, cfg_mono c -> library es "AddTo" addto_attrs add_to_rules ->
  evals_to c es e (EInt j) es1 -> statements es1 -> library es1 "AddTo" addto_attrs add_to_rules -> int_var es1 x k -> calm "Plus" k j (k + j) ->
  hash_ok (fn "AddTo" [ESym x; e]) -> no_clash (fn "AddTo" [ESym x; e]) (add_to_rhs (ESym x) (EInt j)) -> hash_ok (fn "Plus" [ESym x; EInt j]) ->
  evals_to c es (fn "AddTo" [ESym x; e]) (EInt (k + j)) (set_var es1 x (EInt (k + j))).
Proof.
  intros c es x e k j es1 Hc [U D] E St [U1 D1] [Nx V] Q Hz Nc Hs.
  eapply (library_call c es (sysname "AddTo") addto_attrs [la; lb] [ESym x; e] [ESym x; EInt j] es1 _ _ (EInt (k + j)) _ Hc U);
    [apply addto_args; [exact E|apply U1]| |exact D1|exact U1|discriminate| |not_special|reflexivity|apply (proj1 (C26_replace_is_substitution _ _ _)); reflexivity|nh|nh|nh|nh| |reflexivity|apply value_int|exact Hz|exact Nc].
  - constructor; [apply ordinary_sym|constructor; [apply ord_int|constructor]].
  - constructor; [intros [K|[]]; discriminate K|constructor; [intros []|constructor]].
  - apply set_int_pass; auto; [apply (variable_can_set es1 x k); auto|].
    apply plus_evals; auto; [apply St|apply variable_int, V|apply value_int].
Qed.
Print Assumptions C96_add_to.
Theorem C96_subtract_from : forall c es x e k j es1, cfg_mono c -> library es "SubtractFrom" addto_attrs subtract_from_rules ->
  evals_to c es e (EInt j) es1 -> statements es1 -> library es1 "SubtractFrom" addto_attrs subtract_from_rules -> int_var es1 x k ->
  calm "Times" j (-1) (- j) -> calm "Plus" k (- j) (k - j) ->
  hash_ok (fn "SubtractFrom" [ESym x; e]) -> no_clash (fn "SubtractFrom" [ESym x; e]) (subtract_from_rhs (ESym x) (EInt j)) ->
  hash_ok (minus (ESym x) (EInt j)) -> hash_ok (fn "Times" [EInt j; EInt (-1)]) ->
  evals_to c es (fn "SubtractFrom" [ESym x; e]) (EInt (k - j)) (set_var es1 x (EInt (k - j))).
Proof.
  intros c es x e k j es1 Hc [U D] E St [U1 D1] [Nx V] Q1 Q2 Hz Nc Hs Ht.
  eapply (library_call c es (sysname "SubtractFrom") addto_attrs [la; lb] [ESym x; e] [ESym x; EInt j] es1 _ _ (EInt (k - j)) _ Hc U);
    [apply addto_args; [exact E|apply U1]| |exact D1|exact U1|discriminate| |not_special|reflexivity|apply (proj1 (C26_replace_is_substitution _ _ _)); reflexivity|nh|nh|nh|nh| |reflexivity|apply value_int|exact Hz|exact Nc].
  - constructor; [apply ordinary_sym|constructor; [apply ord_int|constructor]].
  - constructor; [intros [K|[]]; discriminate K|constructor; [intros []|constructor]].
  - apply set_int_pass; auto; [apply (variable_can_set es1 x k); auto|].
    apply minus_evals; auto; [apply St|apply variable_int, V|apply value_int].
Qed.
Print Assumptions C96_subtract_from.

(* ---- the hypotheses are met; where the claim fails ---- *)
Definition lib (h : string) (rules : list dval) (names : list string) : string * def := (sysname h, Def rules (strings_to_attributes names) None false).
Definition es_as : estate := ES (State (st_defs (es_defs es0) ++
  [ lib "Increment" increment_rules incr_attrs; lib "Decrement" decrement_rules incr_attrs;
    lib "PreIncrement" pre_increment_rules incr_attrs; lib "PreDecrement" pre_decrement_rules incr_attrs;
    lib "AddTo" add_to_rules addto_attrs; lib "SubtractFrom" subtract_from_rules addto_attrs; lib "For" for_rules for_attrs ]) false) None None.
Definition es_k : estate := set_var es_as "Global`k" (EInt 41).
Ltac ready_tac := split; [eexists; split; [vm_compute; reflexivity|split; reflexivity]|
  split; [let d := fresh in let K := fresh in intros d K; vm_compute in K; injection K as <-; reflexivity|split; vm_compute; reflexivity]].
Lemma as_statements : statements es_as.
Proof.
  split; [reflexivity|]. split; [ready_tac|]. split; [ready_tac|].
  split; (split; [eexists; split; [vm_compute; reflexivity|split; reflexivity]|split; vm_compute; reflexivity]).
Qed.
Lemma global_name s : user_name (append "Global`" s).
Proof. split; [|intro t]; discriminate. Qed.
Lemma incr_lib h rules : sym_attrs es_as (sysname h) = strings_to_attributes incr_attrs -> no_value es_as (sysname h) -> defined_by es_as (sysname h) rules ->
  library es_as h incr_attrs rules.
Proof.
  intros A N D. split; [|exact D]. split; [exact A|]. split; [exact N|]. split; [reflexivity|].
  intros a I K. cbn in I, K. destruct K as [<-|[<-|[<-|[]]]]; repeat (destruct I as [I|I]; [discriminate I|]); exact I.
Qed.
Lemma addto_lib h rules : sym_attrs es_as (sysname h) = strings_to_attributes addto_attrs -> no_value es_as (sysname h) -> defined_by es_as (sysname h) rules ->
  library es_as h addto_attrs rules.
Proof.
  intros A N D. split; [|exact D]. split; [exact A|]. split; [exact N|]. split; [reflexivity|].
  intros a I K. cbn in I, K. destruct K as [<-|[<-|[]]]; repeat (destruct I as [I|I]; [discriminate I|]); exact I.
Qed.
Lemma k_var : int_var es_k "Global`k" 41.
Proof. split; [apply (global_name "k")|apply C96_set_var]. Qed.
Ltac lib_tac := apply set_library; [apply (global_name "k")|]; first [apply incr_lib|apply addto_lib]; [vm_compute; reflexivity|vm_compute; reflexivity|vm_compute; split; reflexivity].
Ltac hashes_tac := split; [hok|split; [split; hok|repeat constructor; hok]].
Example C96_increment_ex : evals_to c0 es_k (fn "Increment" [gl "k"]) (EInt 41) (set_var es_k "Global`k" (EInt 42)) /\
  get_sym_def (es_defs (set_var es_k "Global`k" (EInt 42))) "Global`k" = Some (EInt 42).
Proof.
  split; [|reflexivity]. apply (C96_increment c0 es_k "Global`k" 41 c0_mono); [apply set_statements; [apply (global_name "k")|apply as_statements]|lib_tac|apply k_var|split; hok|split; hok|hashes_tac].
Qed.
Example C96_decrement_ex : evals_to c0 es_k (fn "Decrement" [gl "k"]) (EInt 41) (set_var es_k "Global`k" (EInt 40)).
Proof.
  apply (C96_decrement c0 es_k "Global`k" 41 c0_mono); [apply set_statements; [apply (global_name "k")|apply as_statements]|lib_tac|apply k_var|split; hok|split; hok|hashes_tac].
Qed.
Example C96_pre_increment_ex : evals_to c0 es_k (fn "PreIncrement" [gl "k"]) (EInt 42) (set_var es_k "Global`k" (EInt 42)).
Proof.
  apply (C96_pre_increment c0 es_k "Global`k" 41 c0_mono); [apply set_statements; [apply (global_name "k")|apply as_statements]|lib_tac|apply k_var|split; hok|hashes_tac].
Qed.
Example C96_pre_decrement_ex : evals_to c0 es_k (fn "PreDecrement" [gl "k"]) (EInt 40) (set_var es_k "Global`k" (EInt 40)).
Proof.
  apply (C96_pre_decrement c0 es_k "Global`k" 41 c0_mono); [apply set_statements; [apply (global_name "k")|apply as_statements]|lib_tac|apply k_var|split; hok|hashes_tac].
Qed.
(* k += k++ with k = 41: k++ comes first, then 41 is added to 42 *)
Example C96_add_to_ex : exists es', evals_to c0 es_k (fn "AddTo" [gl "k"; fn "Increment" [gl "k"]]) (EInt 83) es' /\ get_sym_def (es_defs es') "Global`k" = Some (EInt 83).
Proof.
  eexists. split.
  - apply (C96_add_to c0 es_k "Global`k" (fn "Increment" [gl "k"]) 42 41 (set_var es_k "Global`k" (EInt 42)) c0_mono).
    + lib_tac.
    + apply C96_increment_ex.
    + apply set_statements; [apply (global_name "k")|]. apply set_statements; [apply (global_name "k")|apply as_statements].
    + apply set_library; [apply (global_name "k")|]. lib_tac.
    + split; [apply (global_name "k")|apply C96_set_var].
    + split; hok.
    + hok.
    + split; hok.
    + hok.
  - reflexivity.
Qed.
Example C96_subtract_from_ex : evals_to c0 es_k (fn "SubtractFrom" [gl "k"; EInt 50]) (EInt (-9)) (set_var es_k "Global`k" (EInt (-9))).
Proof.
  apply (C96_subtract_from c0 es_k "Global`k" (EInt 50) 41 50 es_k c0_mono).
  - lib_tac.
  - apply value_int.
  - apply set_statements; [apply (global_name "k")|apply as_statements].
  - lib_tac.
  - apply k_var.
  - split; hok.
  - split; hok.
  - hok.
  - split; hok.
  - hok.
  - hok.
Qed.
(* k = {k, 7} with k = 41 gives {41, 7} *)
Example C96_set_ex : exists es', evals_to c0 es_k (fn "Set" [gl "k"; mkList [gl "k"; EInt 7]]) (mkList [EInt 41; EInt 7]) es' /\
  get_sym_def (es_defs es') "Global`k" = Some (mkList [EInt 41; EInt 7]).
Proof.
  eexists. split.
  - apply (C96_set c0 es_k "Global`k" (mkList [gl "k"; EInt 7]) (mkList [EInt 41; EInt 7]) es_k (mkList [EInt 41; EInt 7]) (set_var es_k "Global`k" (mkList [EInt 41; EInt 7])) c0_mono).
    + apply (set_statements es_as "Global`k" (EInt 41) (global_name "k") as_statements).
    + exists 20. vm_compute. reflexivity.
    + apply (set_statements es_as "Global`k" (EInt 41) (global_name "k") as_statements).
    + apply (variable_can_set es_k "Global`k" 41); [apply (set_statements es_as "Global`k" (EInt 41) (global_name "k") as_statements)|apply (global_name "k")|apply k_var].
    + discriminate.
    + repeat split; nh.
    + repeat split; nh.
    + hok.
    + split; hok.
    + exists 20. vm_compute. reflexivity.
  - reflexivity.
Qed.

(* The original value is computed as (x + 1) - 1: with a real number it can be
   another one.  x = 2.^-100; x++ gives 0. *)
Definition tiny : ex := EFlt (fround 1 (2 ^ 100)).
Definition es_tiny : estate := set_var es_as "Global`k" tiny.
Theorem C96_increment_real_refuted : exists v es', evals_to c0 es_tiny (gl "k") tiny es_tiny /\
  evals_to c0 es_tiny (fn "Increment" [gl "k"]) v es' /\ is_sameq v tiny = false.
Proof.
  eexists. eexists. split; [exists 5; vm_compute; reflexivity|]. split; [exists 40; vm_compute; reflexivity|vm_compute; reflexivity].
Qed.
Print Assumptions C96_increment_real_refuted.
(* x++ where x has no value: x becomes x + 1, and evaluating it does not end *)
Definition es_loop : estate := set_var es_as "Global`k" (fn "Plus" [EInt 1; gl "k"]).
Lemma sym_loop c es x l : get_sym_def (es_defs es) x = Some (EExpr l) -> hash_ok (EExpr l) ->
  (forall m, run c m None es (ESym x) = More -> pass c m (run c m None) es l = More) ->
  forall m, run c m None es (ESym x) = More.
Proof.
  intros G Hz H m. enough (K : forall n m, m <= n -> run c m None es (ESym x) = More) by (apply (K m m); lia). clear m.
  induction n as [|n IH]; intros m Hm; [replace m with 0 by lia; reflexivity|].
  destruct m as [|m]; [reflexivity|]. cbn [run]. rewrite G. destruct m as [|m]; [reflexivity|].
  change (run c (S m) None es (EExpr l)) with (run c m (Some (0%N, false)) es (EExpr l)). destruct m as [|m]; [reflexivity|].
  rewrite run_expr by exact Hz. rewrite H; [reflexivity|]. apply IH. lia.
Qed.
Lemma plus_more m : run c0 m None es_loop (gl "k") = More -> pass c0 m (run c0 m None) es_loop [sys "Plus"; EInt 1; gl "k"] = More.
Proof.
  intro K. change (sys "Plus") with (ESym (sysname "Plus")). unfold pass. cbv zeta.
  assert (A0 : sym_attrs es_loop (sysname "Plus") = strings_to_attributes num_attrs) by (vm_compute; reflexivity). rewrite A0. clear A0.
  destruct num_attr_vals as (A1 & A2 & A3 & A4 & A5 & A6 & A7). rewrite A1.
  change (propagate_conditionals [ESym (sysname "Plus"); EInt 1; gl "k"]) with (None : option ex).
  cbn [eval_parts]. rewrite !A7. destruct m as [|m]; [reflexivity|].
  replace (run c0 (S m) None es_loop (ESym (sysname "Plus"))) with (Ret (ESym (sysname "Plus"), es_loop) : outcome (ex * estate)) by reflexivity.
  cbn [obind]. change (es_thrown es_loop) with (None : option ex). cbn [obind].
  replace (run c0 (S m) None es_loop (EInt 1)) with (Ret (EInt 1, es_loop) : outcome (ex * estate)) by reflexivity.
  cbn [obind]. change (es_thrown es_loop) with (None : option ex). cbn [obind].
  rewrite K. reflexivity.
Qed.
Lemma k_more m : run c0 m None es_loop (gl "k") = More.
Proof.
  apply (sym_loop c0 es_loop "Global`k" [sys "Plus"; EInt 1; gl "k"]); [vm_compute; reflexivity|hok|exact plus_more].
Qed.
Lemma set_more m : run c0 m None es_as (fn "Set" [gl "k"; fn "Plus" [gl "k"; EInt 1]]) = More.
Proof.
  assert (P : exists n, forall m, n <= m -> pass c0 m (run c0 m None) es_as [sys "Set"; gl "k"; fn "Plus" [gl "k"; EInt 1]] = Ret (inr (fn "Plus" [EInt 1; gl "k"], false), es_loop)).
  { apply set_pass; try (apply as_statements); try (repeat split; nh); [apply c0_mono|exists 20; vm_compute; reflexivity| |discriminate].
    split; [reflexivity|]. split; [discriminate|]. left. vm_compute. exact Logic.I. }
  destruct P as [n P]. apply (diverges_large c0 es_as _ (S (S n)) c0_mono). clear m. intros m Hm. unfold eval.
  destruct m as [|[|m]]; try lia.
  change (run c0 (S (S m)) None es_as (fn "Set" [gl "k"; fn "Plus" [gl "k"; EInt 1]])) with (run c0 (S m) (Some (0%N, false)) es_as (EExpr [sys "Set"; gl "k"; fn "Plus" [gl "k"; EInt 1]])).
  rewrite run_expr by hok. rewrite P by lia. cbn [obind]. destruct m as [|m]; [reflexivity|]. change (fn "Plus" [EInt 1; gl "k"]) with (EExpr [sys "Plus"; EInt 1; gl "k"]).
  rewrite run_expr by hok. rewrite plus_more by apply k_more. reflexivity.
Qed.
Theorem C96_increment_unset_refuted : diverges c0 es_as (fn "Increment" [gl "k"]).
Proof.
  assert (L : library es_as "Increment" incr_attrs increment_rules) by (apply incr_lib; [vm_compute; reflexivity|vm_compute; reflexivity|vm_compute; split; reflexivity]).
  destruct L as [U D]. set (body := increment_rhs (gl "k")).
  destruct (user_pass c0 es_as (sysname "Increment") incr_attrs [gl "k"] [gl "k"] es_as increment_rules (Some body) es_as c0_mono U) as [n P].
  - apply held_first. left; reflexivity.
  - constructor; [apply ordinary_sym|constructor].
  - exact D.
  - eapply SEL_hit with (bs := [(la, gl "k")]).
    + split; [vm_compute; reflexivity|]. cbn. constructor; [intros []|constructor].
    + apply F_node; [not_special|reflexivity|apply N.eqb_refl|]. apply (FL_cons (var la) (gl "k") [(la, gl "k")] [] [] []); [apply F_var|constructor].
    + apply (proj1 (C26_replace_is_substitution _ _ _)). reflexivity.
    + apply G_plain; nh.
  - apply (diverges_large c0 es_as _ (S (S (S n))) c0_mono). intros [|[|m]] Hm; try lia. unfold eval.
    change (run c0 (S (S m)) None es_as (fn "Increment" [gl "k"])) with (run c0 (S m) (Some (0%N, false)) es_as (EExpr (ESym (sysname "Increment") :: [gl "k"]))).
    rewrite run_expr by hok. rewrite P by lia. cbn [obind]. destruct m as [|m]; [lia|].
    cbn [run]. replace (N.eqb (hash body) (hash (EExpr [ESym (sysname "Increment"); gl "k"]))) with false by (vm_compute; reflexivity).
    unfold body, increment_rhs, app2. replace (return_value (EExpr _)) with (None : option ex) by reflexivity.
    rewrite (pass_symbol c0 m (run c0 m None) es_as (sysname "CompoundExpression") ce_attrs _ (sys "CompoundExpression" :: [fn "Set" [gl "k"; fn "Plus" [gl "k"; EInt 1]]; minus (gl "k") (EInt 1)]) es_as);
      [|vm_compute; reflexivity|apply ce_not; cbn; tauto|apply ce_not; cbn; tauto|apply ce_not; cbn; tauto|apply ce_not; cbn; tauto| | |discriminate].
    + unfold apply_head. destruct as_statements as (_ & _ & ([d [Ld [B _]]] & _) & _). rewrite Ld, B.
      change (builtin_of c0 (sysname "CompoundExpression")) with (Some compound_fn). unfold compound_fn. cbn [tl compound_loop].
      rewrite set_more. reflexivity.
    + apply arg_pass_hold. intro i. left. left. reflexivity.
    + repeat constructor; nh.
Qed.
Print Assumptions C96_increment_unset_refuted.
