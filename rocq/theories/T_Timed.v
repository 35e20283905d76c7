(* Property theorems: Quiet and TimeConstrained (C137). *)
From Verif Require Import M_Syntax M_Float M_Hash M_Order M_Sort M_Num M_Arith M_Compare M_Match M_Defs S_Defs P_Defs P_Defs4 M_Eval M_List S_Match S_Eval S_Iter S_Call M_LibAssign M_FreeQ M_Timed M_Callback
  P_Hash P_MatchFuel P_Eval P_Eval2 P_Eval3 P_Eval4 P_Callback P_Iter P_Call T_Match T_Eval T_Eval2 T_Eval3 T_Eval4 T_Eval5 T_Iter T_Callback T_Call T_Assign T_AppendTo.
Open Scope nat_scope.

(* no body of a rule that the evaluator treats specially *)
Definition plain_body (e : ex) : Prop :=
  ~ headed e nCondition /\ ~ headed e (sysname "With") /\ ~ headed e (sysname "Module").

Lemma var_rule_usable c (es : estate) h names xs : user_fn es h names -> xs <> [] -> NoDup xs -> ~ In h pattern_heads ->
  usable_rule c es (EExpr (ESym h :: map var xs)).
Proof.
  intros (A1 & _ & _ & Na) Nx Nd Nf. split.
  - assert (F1 : me_flat (env_of c es) h = false).
    { unfold env_of; cbn [me_flat]. rewrite A1. apply (attr_off names aFlat "Flat" (has_flat names)). apply Na. cbn; tauto. }
    assert (F2 : me_orderless (env_of c es) h = false).
    { unfold env_of; cbn [me_orderless]. rewrite A1. apply (attr_off names aOrderless "Orderless" (has_orderless names)). apply Na. cbn; tauto. }
    cbn [simple]. rewrite F1, F2. replace (existsb (String.eqb h) pattern_heads) with false
      by (symmetry; destruct (existsb (String.eqb h) pattern_heads) eqn:Q; [apply existsb_eqb in Q; contradiction|reflexivity]).
    replace (match map var xs with [] => true | _ => false end) with false by (destruct xs; [congruence|reflexivity]).
    replace (forallb (simple (env_of c es)) (map var xs)) with true; [rewrite !orb_true_r; reflexivity|].
    symmetry. apply forallb_forall. intros p Hp. apply in_map_iff in Hp. destruct Hp as [y [<- _]]. reflexivity.
  - rewrite names_node by exact Nf. replace (flat_map pattern_names (map var xs)) with xs; [exact Nd|].
    clear. induction xs as [|y t IH]; [reflexivity|]. cbn [map flat_map]. rewrite <- IH. reflexivity.
Qed.
Lemma fits_vars xs l : List.length l = List.length xs -> fits_list (map var xs) l (combine xs l).
Proof.
  revert l. induction xs as [|y t IH]; intros [|a l] Le; try discriminate Le; [constructor|]. cbn [map combine].
  apply (FL_cons (var y) a [(y, a)]); [apply F_var|apply IH; injection Le; auto].
Qed.
Lemma fits_length ps es bs : fits_list ps es bs -> List.length ps = List.length es.
Proof. induction 1; cbn; congruence. Qed.
Lemma vars_hit c (es : estate) h names xs args r v rest : user_fn es h names -> xs <> [] -> NoDup xs -> ~ In h pattern_heads ->
  List.length args = List.length xs -> subst (combine xs args) r v -> plain_body v ->
  S_Call.selects c (EExpr (ESym h :: args)) es (DVal (held (EExpr (ESym h :: map var xs))) r 0 :: rest) (Some v) es.
Proof.
  intros U Nx Nd Nf Le Sb (N1 & N2 & N3). apply SEL_hit with (combine xs args) v.
  - apply (var_rule_usable c es h names); assumption.
  - apply F_node; [exact Nf|reflexivity|apply N.eqb_refl|]. apply fits_vars, Le.
  - exact Sb.
  - apply G_plain; assumption.
Qed.
Lemma vars_skip c (es : estate) h names xs args r rest o es1 : user_fn es h names -> xs <> [] -> NoDup xs -> ~ In h pattern_heads ->
  List.length args <> List.length xs -> S_Call.selects c (EExpr (ESym h :: args)) es rest o es1 ->
  S_Call.selects c (EExpr (ESym h :: args)) es (DVal (held (EExpr (ESym h :: map var xs))) r 0 :: rest) o es1.
Proof.
  intros U Nx Nd Nf Le S. apply SEL_skip; [apply (var_rule_usable c es h names); assumption| |exact S].
  intros bs H. inversion H; subst; try discriminate; try (exfalso; apply Nf; cbn; tauto).
  apply Le. match goal with K : fits_list _ _ _ |- _ => apply fits_length in K; rewrite map_length in K; symmetry; exact K end.
Qed.

Lemma held_all c es names args : In "HoldAll"%string names -> evals_args c (holds names) 1 es args args es.
Proof. intro H. apply held_rest. intros j _. left. exact H. Qed.

Lemma private_dup2 : NoDup [te; tt_].
Proof. constructor; [intros [K|[]]; discriminate K|constructor; [intros []|constructor]]. Qed.
Lemma private_dup3 : NoDup [te; tt_; tf].
Proof. constructor; [intros [K|[K|[]]]; discriminate K|constructor; [intros [K|[]]; discriminate K|constructor; [intros []|constructor]]]. Qed.

(* ---- C137 ---- *)
(* Quiet[e] has the value of e and does what evaluating e once does; nothing about
   messages *)
Theorem C137_quiet : forall c es e v es', cfg_mono c -> library es "Quiet" timed_attrs quiet_rules ->
  ordinary_arg e -> plain_body e -> never_returns c es e -> hash_ok (fn "Quiet" [e]) -> no_clash (fn "Quiet" [e]) e ->
  evals_to c es e v es' -> evals_to c es (fn "Quiet" [e]) v es'.
Proof.
  intros c es e v es' Hc [U D] O P NR Hz Nc E.
  apply (C90_call c es (sysname "Quiet") timed_attrs [e] [e] es quiet_rules e es v es' Hc U); auto.
  - apply held_all. left; reflexivity.
  - apply (vars_hit c es (sysname "Quiet") timed_attrs [te] [e] (ESym te) e []); auto; try discriminate.
    + constructor; [intros []|constructor].
    + not_special.
    + apply (proj1 (C26_replace_is_substitution _ _ _)). reflexivity.
Qed.
Print Assumptions C137_quiet.

Lemma select3 c es e t f rules : user_fn es (sysname "TimeConstrained") timed_attrs -> timed_rules rules -> plain_body e ->
  S_Call.selects c (fn "TimeConstrained" [e; t; f]) es rules (Some e) es.
Proof.
  intros U R P.
  assert (Sb : subst (combine [te; tt_; tf] [e; t; f]) (ESym te) e) by (apply (proj1 (C26_replace_is_substitution _ _ _)); reflexivity).
  assert (H3 : forall rest, S_Call.selects c (fn "TimeConstrained" [e; t; f]) es (timed3_rules ++ rest) (Some e) es).
  { intro rest. apply (vars_hit c es (sysname "TimeConstrained") timed_attrs [te; tt_; tf] [e; t; f] (ESym te) e rest U); auto; try discriminate.
    - exact private_dup3.
    - not_special. }
  destruct R as [-> | ->]; [|apply H3].
  apply (vars_skip c es (sysname "TimeConstrained") timed_attrs [te; tt_] [e; t; f] _ timed3_rules (Some e) es U); try discriminate.
  - exact private_dup2.
  - not_special.
  - rewrite <- (app_nil_r timed3_rules). apply H3.
Qed.
Lemma select2 c es e t rules : user_fn es (sysname "TimeConstrained") timed_attrs -> timed_rules rules ->
  S_Call.selects c (fn "TimeConstrained" [e; t]) es rules (Some (timed2_rhs e t)) es.
Proof.
  intros U R.
  assert (Sb : subst (combine [te; tt_] [e; t]) (timed2_rhs (ESym te) (ESym tt_)) (timed2_rhs e t)) by (apply (proj1 (C26_replace_is_substitution _ _ _)); reflexivity).
  assert (H2 : forall rest, S_Call.selects c (fn "TimeConstrained" [e; t]) es (timed2_rules ++ rest) (Some (timed2_rhs e t)) es).
  { intro rest. apply (vars_hit c es (sysname "TimeConstrained") timed_attrs [te; tt_] [e; t] _ _ rest U); auto; try discriminate.
    - exact private_dup2.
    - not_special.
    - repeat split; nh. }
  destruct R as [-> | ->]; [apply H2|].
  apply (vars_skip c es (sysname "TimeConstrained") timed_attrs [te; tt_; tf] [e; t] _ timed2_rules (Some (timed2_rhs e t)) es U); try discriminate.
  - exact private_dup3.
  - not_special.
  - rewrite <- (app_nil_r timed2_rules). apply H2.
Qed.

(* TimeConstrained[e, t, f] has the value of e, whatever t and f are; neither is
   evaluated *)
Theorem C137_time_constrained : forall c es e t f rules v es', cfg_mono c ->
  library es "TimeConstrained" timed_attrs rules -> timed_rules rules ->
  Forall ordinary_arg [e; t; f] -> plain_body e -> never_returns c es e ->
  hash_ok (fn "TimeConstrained" [e; t; f]) -> no_clash (fn "TimeConstrained" [e; t; f]) e ->
  evals_to c es e v es' -> evals_to c es (fn "TimeConstrained" [e; t; f]) v es'.
Proof.
  intros c es e t f rules v es' Hc [U D] R O P NR Hz Nc E.
  apply (C90_call c es (sysname "TimeConstrained") timed_attrs [e; t; f] [e; t; f] es rules e es v es' Hc U); auto.
  - apply held_all. left; reflexivity.
  - apply select3; assumption.
Qed.
Print Assumptions C137_time_constrained.

(* TimeConstrained[e, t] is TimeConstrained[e, t, $Aborted] *)
Theorem C137_two_arguments : forall c es e t rules v es', cfg_mono c ->
  library es "TimeConstrained" timed_attrs rules -> timed_rules rules ->
  Forall ordinary_arg [e; t] -> plain_body e -> never_returns c es e ->
  hash_ok (fn "TimeConstrained" [e; t]) -> no_clash (fn "TimeConstrained" [e; t]) (timed2_rhs e t) ->
  no_clash (timed2_rhs e t) e -> hash_ok (timed2_rhs e t) ->
  evals_to c es e v es' -> evals_to c es (fn "TimeConstrained" [e; t]) v es'.
Proof.
  intros c es e t rules v es' Hc L R O P NR Hz Nc Nc2 Hz2 E. pose proof L as [U D].
  assert (O3 : Forall ordinary_arg [e; t; sys "$Aborted"]).
  { inversion O as [|? ? O1 O2]. inversion O2. constructor; [assumption|constructor; [assumption|constructor; [apply ordinary_sym|constructor]]]. }
  apply (C90_call c es (sysname "TimeConstrained") timed_attrs [e; t] [e; t] es rules (timed2_rhs e t) es v es' Hc U); auto.
  - apply held_all. left; reflexivity.
  - apply select2; assumption.
  - intros e' es2 Re. unfold timed2_rhs in Re. inversion Re as [|? ? e1 es1 ? ? K Re']; subst; [nh|].
    assert (Ps : exists n, forall m, n <= m -> pass c m (run c m None) es [sys "TimeConstrained"; e; t; sys "$Aborted"] = Ret (inr (e, true), es)).
    { apply (user_pass c es (sysname "TimeConstrained") timed_attrs [e; t; sys "$Aborted"] [e; t; sys "$Aborted"] es rules (Some e) es Hc U); auto.
      - apply held_all. left; reflexivity.
      - apply select3; assumption. }
    destruct (pass_steps _ _ _ _ _ _ Ps _ _ K) as [-> ->]. apply (NR _ _ Re').
  - apply (C137_time_constrained c es e t (sys "$Aborted") rules v es'); auto.
Qed.
Print Assumptions C137_two_arguments.

(* Refuted: there is no time limit.  If the evaluation of e does not end, neither does
   TimeConstrained[e, t, f], for any limit t *)
Lemma inside_any c : cfg_mono c -> forall n last b1 b2 es e, never_returns c es e ->
  run c n (Some (last, b1)) es e = run c n (Some (last, b2)) es e.
Proof.
  intro Hc. induction n as [|k IH]; intros last b1 b2 es e NR; [reflexivity|].
  cbn [run]. destruct (N.eqb (hash e) last); [reflexivity|].
  destruct e as [s|s|z|p q|f|re im|parts]; try reflexivity.
  assert (RV : return_value (EExpr parts) = None) by (apply not_return, (NR _ es); constructor).
  rewrite RV. destruct b1, b2; cbn [orb]; try reflexivity;
    (destruct (pass c k (run c k None) es parts) as [[[v|[e' b]] es1]| |] eqn:P; cbn [obind]; try reflexivity;
     apply IH; intros e2 es2 R; apply (NR e2 es2); apply (RE_step c es _ e' es1); [|exact R];
     exists parts, b, k; split; [reflexivity|]; intros m Hm; apply (pass_large c k es parts _ Hc P m Hm)).
Qed.
Lemma diverges_inside c es e last : cfg_mono c -> never_returns c es e -> hash e <> 0%N -> hash e <> last ->
  diverges c es e -> forall k, run c k (Some (last, true)) es e = More.
Proof.
  intros Hc NR Hz Nl D [|k]; [reflexivity|]. destruct (is_expr e) eqn:X.
  - rewrite (inside_any c Hc _ _ true false _ _ NR). destruct e as [s|s|z|p q|f|re im|l]; try discriminate X.
    pose proof (D (S (S k))) as H. unfold eval in H.
    change (run c (S (S k)) None es (EExpr l)) with (run c (S k) (Some (0%N, false)) es (EExpr l)) in H.
    rewrite run_expr in H by exact Hz. rewrite run_expr by exact Nl. exact H.
  - rewrite run_none_atom by assumption. apply D.
Qed.
Lemma user_diverges c es f names args rules r : cfg_mono c -> user_fn es f names -> evals_args c (holds names) 1 es args args es ->
  Forall ordinary_arg args -> defined_by es f rules -> S_Call.selects c (EExpr (ESym f :: args)) es rules (Some r) es ->
  never_returns c es r -> hash_ok (EExpr (ESym f :: args)) -> no_clash (EExpr (ESym f :: args)) r -> diverges c es r ->
  diverges c es (EExpr (ESym f :: args)).
Proof.
  intros Hc U E O D Se NR Hz [Nz Nc] Dv.
  destruct (user_pass c es f names args args es rules (Some r) es Hc U E O D Se) as [n K].
  apply (diverges_large c es _ (S (S n)) Hc). intros m Hm. destruct m as [|[|m]]; try lia. unfold eval.
  change (run c (S (S m)) None es (EExpr (ESym f :: args))) with (run c (S m) (Some (0%N, false)) es (EExpr (ESym f :: args))).
  rewrite run_expr by exact Hz. rewrite K by lia. cbn [obind]. apply diverges_inside; assumption.
Qed.
Theorem C137_time_limit_refuted : forall c es e t f rules, cfg_mono c ->
  library es "TimeConstrained" timed_attrs rules -> timed_rules rules ->
  Forall ordinary_arg [e; t; f] -> plain_body e -> never_returns c es e ->
  hash_ok (fn "TimeConstrained" [e; t; f]) -> no_clash (fn "TimeConstrained" [e; t; f]) e ->
  diverges c es e -> diverges c es (fn "TimeConstrained" [e; t; f]).
Proof.
  intros c es e t f rules Hc [U D] R O P NR Hz Nc Dv.
  apply (user_diverges c es (sysname "TimeConstrained") timed_attrs [e; t; f] rules e Hc U); auto.
  - apply held_all. left; reflexivity.
  - apply select3; assumption.
Qed.
Print Assumptions C137_time_limit_refuted.

(* The restriction to plain bodies is necessary: the argument becomes the body of a
   rule, so that Quiet[a /; b] is a when b is True - although a /; b itself is a value *)
Theorem C137_condition_refuted : forall c es a b v es1 es2, cfg_mono c -> library es "Quiet" timed_attrs quiet_rules ->
  let e := EExpr [ESym nCondition; a; b] in
  plain_body a -> never_returns c es1 a -> hash_ok (fn "Quiet" [e]) -> no_clash (fn "Quiet" [e]) a ->
  evals_to c es b sTrue es1 -> evals_to c es1 a v es2 ->
  evals_to c es (fn "Quiet" [e]) v es2.
Proof.
  intros c es a b v es1 es2 Hc [U D] e (N1 & N2 & N3) NR Hz Nc Eb Ea.
  apply (C90_call c es (sysname "Quiet") timed_attrs [e] [e] es quiet_rules a es1 v es2 Hc U); auto.
  - apply held_all. left; reflexivity.
  - constructor; [|constructor]. repeat split; nh.
  - unfold quiet_rules, rule1. apply SEL_hit with [(te, e)] e.
    + apply (var_rule_usable c es (sysname "Quiet") timed_attrs [te]); auto; [discriminate|constructor; [intros []|constructor]|not_special].
    + apply F_node; [not_special|reflexivity|apply N.eqb_refl|]. apply (fits_vars [te] [e]). reflexivity.
    + apply (proj1 (C26_replace_is_substitution _ _ _)). reflexivity.
    + apply G_true with es1; [exact Eb|]. apply G_plain; assumption.
Qed.
Print Assumptions C137_condition_refuted.

(* ---- the hypotheses are met ---- *)
Definition es_td : estate := with_entries es0
  [lib "Quiet" quiet_rules timed_attrs; lib "TimeConstrained" (timed2_rules ++ timed3_rules) timed_attrs].
Lemma td_quiet : library es_td "Quiet" timed_attrs quiet_rules.
Proof.
  split; [|vm_compute; split; reflexivity]. split; [vm_compute; reflexivity|]. split; [vm_compute; reflexivity|]. split; [reflexivity|].
  intros a I K. cbn in I, K. destruct K as [<-|[<-|[]]]; repeat (destruct I as [I|I]; [discriminate I|]); exact I.
Qed.
Lemma td_timed : library es_td "TimeConstrained" timed_attrs (timed2_rules ++ timed3_rules).
Proof.
  split; [|vm_compute; split; reflexivity]. split; [vm_compute; reflexivity|]. split; [vm_compute; reflexivity|]. split; [reflexivity|].
  intros a I K. cbn in I, K. destruct K as [<-|[<-|[]]]; repeat (destruct I as [I|I]; [discriminate I|]); exact I.
Qed.
(* Quiet[1 + 1], TimeConstrained[1 + 1, t, f], TimeConstrained[1 + 1, 0] *)
Definition one_one : ex := fn "Plus" [EInt 1; EInt 1].
Lemma one_one_never : never_returns c0 es_td one_one.
Proof.
  apply (one_pass_returns_not c0 es_td _ (EInt 2) false es_td); [reflexivity|nh|].
  exists 9. apply (pass_large c0 9 es_td _ _ c0_mono). vm_compute. reflexivity.
Qed.
Example C137_meets : ordinary_arg one_one /\ plain_body one_one /\ never_returns c0 es_td one_one /\
  evals_to c0 es_td (fn "Quiet" [one_one]) (EInt 2) es_td /\
  evals_to c0 es_td (fn "TimeConstrained" [one_one; gl "t"; gl "f"]) (EInt 2) es_td /\
  evals_to c0 es_td (fn "TimeConstrained" [one_one; EInt 0]) (EInt 2) es_td.
Proof.
  assert (O : ordinary_arg one_one) by (repeat split; nh).
  assert (P : plain_body one_one) by (repeat split; nh).
  assert (E : evals_to c0 es_td one_one (EInt 2) es_td) by (exists 12; vm_compute; reflexivity).
  split; [exact O|]. split; [exact P|]. split; [exact one_one_never|]. split; [|split].
  - apply C137_quiet; auto using c0_mono, td_quiet, one_one_never; [hok|split; hok].
  - apply (C137_time_constrained c0 es_td _ _ _ (timed2_rules ++ timed3_rules)); auto using c0_mono, td_timed, one_one_never; [left; reflexivity| |hok|split; hok].
    repeat constructor; nh.
  - apply (C137_two_arguments c0 es_td _ _ (timed2_rules ++ timed3_rules)); auto using c0_mono, td_timed, one_one_never; [left; reflexivity| |hok|split; hok|split; hok|hok].
    repeat constructor; nh.
Qed.
(* TimeConstrained[While[True, 0], 1, f] *)
Definition for_ever : ex := fn "While" [sTrue; EInt 0].
Lemma for_ever_loop m k : while_loop k (run c0 m None) es_td sTrue (EInt 0) = More.
Proof.
  induction k as [|k IH]; [reflexivity|]. cbn [while_loop].
  destruct m as [|m]; [reflexivity|].
  replace (run c0 (S m) None es_td sTrue) with (Ret (sTrue, es_td)) by (cbn [run]; vm_compute; reflexivity).
  cbn [obind]. replace (is_sameq sTrue sTrue) with true by (vm_compute; reflexivity).
  change (run c0 (S m) None es_td (EInt 0)) with (Ret (EInt 0, es_td)). exact IH.
Qed.
Lemma for_ever_pass : exists n, forall m, n <= m -> pass c0 m (run c0 m None) es_td [sys "While"; sTrue; EInt 0] = More.
Proof.
  assert (Sy : system_fn es_td (sysname "While") ["HoldAll"; "Protected"]%string) by (eexists; split; [vm_compute; reflexivity|split; reflexivity]).
  assert (Ea : evals_args c0 (holds ["HoldAll"; "Protected"]%string) 0 es_td [sys "While"; sTrue; EInt 0] [sys "While"; sTrue; EInt 0] es_td).
  { apply head_arg; [vm_compute; reflexivity|reflexivity|apply held_all; left; reflexivity]. }
  destruct (evals_args_large c0 _ _ _ _ _ _ c0_mono Ea) as [n K]. exists n. intros m Hm.
  change [sys "While"; sTrue; EInt 0] with (ESym (sysname "While") :: [sTrue; EInt 0]).
  rewrite (pass_symbol c0 m (run c0 m None) es_td (sysname "While") ["HoldAll"; "Protected"]%string [sTrue; EInt 0] [sys "While"; sTrue; EInt 0] es_td).
  - unfold apply_head. destruct Sy as [d [L [B _]]]. rewrite L, B. unfold builtin_of.
    assert (assoc (table c0) (sysname "While") = Some while_fn) as -> by reflexivity. unfold while_fn. rewrite for_ever_loop. reflexivity.
  - apply (system_attrs _ _ _ Sy).
  - intros [H|[H|[]]]; discriminate H.
  - intros [H|[H|[]]]; discriminate H.
  - intros [H|[H|[]]]; discriminate H.
  - intros [H|[H|[]]]; discriminate H.
  - apply K. exact Hm.
  - repeat constructor; nh.
  - discriminate.
Qed.
Example C137_time_limit_meets : never_returns c0 es_td for_ever /\ diverges c0 es_td for_ever /\
  diverges c0 es_td (fn "TimeConstrained" [for_ever; EInt 1; gl "f"]).
Proof.
  destruct for_ever_pass as [n K].
  assert (NR : never_returns c0 es_td for_ever).
  { intros e' es' R. inversion R as [|? ? e1 es1 ? ? St _]; subst; [nh|]. destruct St as [parts [b [k [Q H]]]]. injection Q as <-.
    pose proof (H (n + k) ltac:(lia)) as A. change (ESym (sysname "While")) with (sys "While") in A. rewrite K in A by lia. discriminate A. }
  assert (Dv : diverges c0 es_td for_ever).
  { apply (diverges_large c0 es_td _ (S (S n)) c0_mono). intros m Hm. destruct m as [|[|m]]; try lia. unfold eval, for_ever, fn.
    change (run c0 (S (S m)) None es_td (EExpr (sys "While" :: [sTrue; EInt 0]))) with (run c0 (S m) (Some (0%N, false)) es_td (EExpr [sys "While"; sTrue; EInt 0])).
    rewrite run_expr by hok. rewrite K by lia. reflexivity. }
  split; [exact NR|]. split; [exact Dv|].
  apply (C137_time_limit_refuted c0 es_td for_ever (EInt 1) (gl "f") (timed2_rules ++ timed3_rules)); auto using c0_mono, td_timed; [left; reflexivity| |repeat split; nh|hok|split; hok].
  repeat constructor; nh.
Qed.
(* Quiet[(1 + 1) /; True] is 2, but (1 + 1) /; True is not *)
Example C137_condition_meets :
  evals_to c0 es_td (fn "Quiet" [EExpr [ESym nCondition; one_one; sTrue]]) (EInt 2) es_td /\
  exists v, evals_to c0 es_td (EExpr [ESym nCondition; one_one; sTrue]) v es_td /\ v <> EInt 2.
Proof.
  split.
  - apply (C137_condition_refuted c0 es_td one_one sTrue (EInt 2) es_td es_td c0_mono td_quiet); try exact one_one_never.
    + repeat split; nh.
    + hok.
    + split; hok.
    + exists 5; vm_compute; reflexivity.
    + exists 12; vm_compute; reflexivity.
  - eexists. split; [exists 20; vm_compute; reflexivity|discriminate].
Qed.
