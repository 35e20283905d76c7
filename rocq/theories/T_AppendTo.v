(* Property theorems: lists in variables, AppendTo and PrependTo (C113). *)
From Verif Require Import M_Syntax M_Float M_Hash M_Order M_Sort M_Num M_Arith M_Compare M_Match M_Defs S_Defs P_Defs P_Defs4 M_Eval M_List S_Match S_Eval S_Iter S_Call M_LibAssign M_Callback
  P_Hash P_MatchFuel P_Eval P_Eval2 P_Eval3 P_Eval4 P_Callback P_Iter P_Call T_Match T_Eval T_Eval2 T_Eval3 T_Eval4 T_Eval5 T_Iter T_Callback T_Call T_Assign.
Open Scope nat_scope.

(* ---- the builtins Append and Prepend inside the evaluator ---- *)
(* builtin_list.go 634-671: a call they cannot handle is returned as it is *)
Definition opt_fn (f : list ex -> option ex) : builtin := fun _ _ es parts =>
  match f (tl parts) with Some r => Ret (r, parts, es) | None => Ret (EExpr parts, parts, es) end.
Definition has_append (c : cfg) : Prop :=
  builtin_of c (sysname "Append") = Some (opt_fn append_eval) /\ builtin_of c (sysname "Prepend") = Some (opt_fn prepend_eval).

(* ---- lists of values ---- *)
(* List is a symbol without rules; it evaluates its arguments *)
Definition list_head (es : estate) : Prop := exists names, plain_fn es nList names /\ no_value es nList /\ es_thrown es = None /\
  forall a, In a ["NumericFunction"; "Flat"; "Orderless"; "Listable"; "HoldAll"; "HoldAllComplete"; "HoldFirst"; "HoldRest"]%string -> ~ In a names.
Definition elements (c : cfg) (es : estate) (l : list ex) : Prop := Forall (value c es) l /\ Forall ordinary_arg l.

Lemma elements_args c es held i l : (forall j, ~ held j) -> es_thrown es = None -> Forall (value c es) l -> evals_args c held i es l l es.
Proof.
  intros Hh T V. revert i. induction V as [|x l Vx _ IH]; intro i; [apply EA_nil|]. apply EA_eval with es; auto.
Qed.
Lemma list_pass c es l : cfg_mono c -> list_head es -> elements c es l ->
  exists n, forall m, n <= m -> pass c m (run c m None) es (sList :: l) = Ret (inr (mkList l, false), es).
Proof.
  intros Hc (names & P & NV & T & Ha) [V O].
  assert (E : evals_args c (holds names) 0 es (sList :: l) (sList :: l) es).
  { assert (Hh : forall j, ~ holds names j).
    { intros j [K|[K|[[_ K]|[_ K]]]]; revert K; apply Ha; cbn; tauto. }
    apply EA_eval with es; [apply Hh|apply value_sym, NV|exact T|]. apply elements_args; auto. }
  destruct (evals_args_large c _ _ _ _ _ _ Hc E) as [n K]. exists n. intros m Hm.
  change sList with (ESym nList). rewrite (pass_symbol c m (run c m None) es nList names l (ESym nList :: l) es); try (apply Ha; cbn; tauto).
  - rewrite (plain_apply c m _ es nList names) by exact P. reflexivity.
  - apply (plain_attrs _ _ _ P).
  - apply K, Hm.
  - constructor; [apply ordinary_sym|exact O].
  - discriminate.
Qed.
Theorem C113_list_value : forall c es l, cfg_mono c -> list_head es -> elements c es l -> value c es (mkList l).
Proof. intros c es l Hc H E. apply (evals_fixed c es _ false Hc). apply list_pass; assumption. Qed.
Print Assumptions C113_list_value.
Lemma list_not_headed l h : h <> nList -> ~ headed (mkList l) h.
Proof. intros N [t K]. unfold mkList in K. change sList with (ESym nList) in K. injection K as K _. congruence. Qed.
Lemma ordinary_list l : ordinary_arg (mkList l).
Proof. split; [|split]; apply list_not_headed; discriminate. Qed.
Lemma unconditional_list l : unconditional (mkList l).
Proof. split; [|split]; apply list_not_headed; discriminate. Qed.
Lemma variable_list c es x l : cfg_mono c -> list_head es -> variable es x (mkList l) -> elements c es l -> evals_to c es (ESym x) (mkList l) es.
Proof.
  intros Hc H V E. destruct (C113_list_value c es l Hc H E) as [n K]. exists (S n). unfold eval in *. cbn [run].
  rewrite (variable_value es x _ V). unfold mkList in *. cbn iota. rewrite K. reflexivity.
Qed.
Lemma set_list_head es x w : x <> nList -> list_head es -> list_head (set_var es x w).
Proof.
  intros N (names & P & NV & T & Ha). exists names. split; [|split; [|split; [exact T|exact Ha]]].
  - unfold plain_fn in *. rewrite set_lookup by congruence. exact P.
  - unfold no_value, get_sym_def in *. rewrite set_lookup by congruence. exact NV.
Qed.
(* a pass that gives a list of values is the last one *)
Lemma list_reaches c es l : cfg_mono c -> list_head es -> elements c es l -> forall e' es', reaches c es (mkList l) e' es' -> e' = mkList l.
Proof.
  intros Hc H E e' es' R. assert (G : forall s e f s', reaches c s e f s' -> s = es -> e = mkList l -> f = mkList l).
  { clear R e' es'. intros s e f s' R. induction R as [s e|s e e1 s1 e2 s2 K R IH]; intros Qs Q; [exact Q|]. subst e s.
    destruct (pass_steps c es (sList :: l) (mkList l) false es (list_pass c es l Hc H E) _ _ K) as [-> ->]. apply IH; reflexivity. }
  apply (G _ _ _ _ R); reflexivity.
Qed.

(* f[a1, ...] := rhs, the only rule; the body becomes a list of values in one pass *)
Lemma library_call_list c es f names xs args args' es1 rhs r l es2 : cfg_mono c -> user_fn es f names ->
  evals_args c (holds names) 1 es args args' es1 -> Forall ordinary_arg args' ->
  defined_by es1 f [DVal (held (EExpr (ESym f :: map var xs))) rhs 0] -> user_fn es1 f names ->
  xs <> [] -> NoDup xs -> ~ In f pattern_heads -> length args' = length xs -> subst (combine xs args') rhs (EExpr r) ->
  ~ headed (EExpr r) nCondition -> ~ headed (EExpr r) (sysname "With") -> ~ headed (EExpr r) (sysname "Module") -> ~ headed (EExpr r) (sysname "Return") ->
  (exists n, forall m, n <= m -> pass c m (run c m None) es1 r = Ret (inr (mkList l, false), es2)) -> list_head es2 -> elements c es2 l ->
  hash_ok (EExpr (ESym f :: args)) -> no_clash (EExpr (ESym f :: args)) (EExpr r) -> no_clash (EExpr r) (mkList l) ->
  evals_to c es (EExpr (ESym f :: args)) (mkList l) es2.
Proof.
  intros Hc U E O D U1 Nx Nd Nf Le Sb N1 N2 N3 N4 P LH V Hz Nc Nl.
  apply (C90_call c es f names args args' es1 _ (EExpr r) es1 (mkList l) es2 Hc U E O D); auto.
  - apply SEL_hit with (combine xs args') (EExpr r).
    + split.
      * assert (F1 : me_flat (env_of c es1) f = false).
        { destruct U1 as [A1 [_ [_ Na]]]. unfold env_of; cbn [me_flat]. rewrite A1. apply (attr_off names aFlat "Flat" (has_flat names)). apply Na. cbn; tauto. }
        assert (F2 : me_orderless (env_of c es1) f = false).
        { destruct U1 as [A1 [_ [_ Na]]]. unfold env_of; cbn [me_orderless]. rewrite A1. apply (attr_off names aOrderless "Orderless" (has_orderless names)). apply Na. cbn; tauto. }
        cbn [simple]. rewrite F1, F2. replace (existsb (String.eqb f) pattern_heads) with false
          by (symmetry; destruct (existsb (String.eqb f) pattern_heads) eqn:Q; [apply existsb_eqb in Q; contradiction|reflexivity]).
        replace (match map var xs with [] => true | _ => false end) with false by (destruct xs; [congruence|reflexivity]).
        replace (forallb (simple (env_of c es1)) (map var xs)) with true; [rewrite !orb_true_r; reflexivity|].
        symmetry. apply forallb_forall. intros p Hp. apply in_map_iff in Hp. destruct Hp as [y [<- _]]. reflexivity.
      * rewrite names_node by exact Nf. replace (flat_map pattern_names (map var xs)) with xs; [exact Nd|].
        clear. induction xs as [|y t IH]; [reflexivity|]. cbn [map flat_map]. rewrite <- IH. reflexivity.
    + apply F_node; [exact Nf|reflexivity|apply N.eqb_refl|]. clear - Le. revert args' Le.
      induction xs as [|y t IH]; intros [|a s] Le; try discriminate Le; [constructor|]. cbn [map combine].
      apply (FL_cons (var y) a [(y, a)] _ _ (combine t s)); [apply F_var|]. apply IH. injection Le as Le. exact Le.
    + exact Sb.
    + apply G_plain; assumption.
  - intros e' es' R. remember (EExpr r) as e eqn:Q. destruct R as [s e|s e e1 s1 e2 s2 K R]; [subst e; exact N4|]. subst e.
    destruct (pass_steps _ _ _ _ _ _ P _ _ K) as [-> ->]. rewrite (list_reaches c es2 l Hc LH V _ _ R).
    apply list_not_headed; discriminate.
  - apply (evals_next c es1 r (mkList l) es2 (mkList l) es2 Hc (proj1 Nc) Nl P). apply C113_list_value; assumption.
Qed.

(* Append[x, w] and Prepend[x, w] on values *)
Lemma grow_evals c es h f x l w r : cfg_mono c -> builtin_of c (sysname h) = Some (opt_fn f) -> f [mkList l; w] = Some (mkList r) ->
  ready es h prot -> list_head es -> evals_to c es (ESym x) (mkList l) es -> value c es w -> ordinary_arg w -> elements c es r ->
  hash_ok (fn h [ESym x; w]) -> no_clash (fn h [ESym x; w]) (mkList r) -> evals_to c es (fn h [ESym x; w]) (mkList r) es.
Proof.
  intros Hc B Ef (Sy & NR & NV & T) LH Ex Vw Ow Er Hz Nc.
  apply (evals_next c es (sys h :: [ESym x; w]) (mkList r) es (mkList r) es Hc Hz Nc); [|apply C113_list_value; assumption].
  apply (builtin_pass c es (sysname h) prot [ESym x; w] [mkList l; w] (opt_fn f) (mkList r) es es Hc Sy (ex_intro _ _ Sy)); try (apply not_prot; cbn; tauto); auto.
  - apply head_arg; auto. apply EA_eval with es; [apply prot_free|exact Ex|exact T|]. apply EA_eval with es; [apply prot_free|exact Vw|exact T|apply EA_nil].
  - constructor; [apply ordinary_list|constructor; [exact Ow|constructor]].
  - exists 0. intros m _. eexists. unfold opt_fn. cbn [tl]. rewrite Ef. reflexivity.
Qed.

(* the accidents that must not happen *)
Definition grow_hashes (to grow x : string) (e w : ex) (r : list ex) : Prop :=
  let X := ESym x in
  hash_ok (fn to [X; e]) /\ no_clash (fn to [X; e]) (fn "Set" [X; fn grow [X; w]]) /\ no_clash (fn "Set" [X; fn grow [X; w]]) (mkList r) /\
  hash_ok (fn grow [X; w]) /\ no_clash (fn grow [X; w]) (mkList r).
(* what the statement needs from the interpreter *)
Definition grow_ready (es : estate) (to grow : string) (rules : list dval) : Prop :=
  st_frozen (es_defs es) = false /\ ready es "Set" set_attrs /\ ready es grow prot /\ list_head es /\ library es to addto_attrs rules.

Lemma grow_call c es to grow f x e w l r es1 : cfg_mono c -> builtin_of c (sysname grow) = Some (opt_fn f) -> f [mkList l; w] = Some (mkList r) ->
  ~ In (sysname to) pattern_heads ->
  let rules := rule1 to [var la; var lb] (app2 "Set" (ESym la) (app2 grow (ESym la) (ESym lb))) in
  library es to addto_attrs rules -> evals_to c es e w es1 -> grow_ready es1 to grow rules ->
  user_name x -> variable es1 x (mkList l) -> elements c es1 l -> elements c es1 r -> elements c (set_var es1 x (mkList r)) r ->
  value c es1 w -> ordinary_arg w -> subst [(la, ESym x); (lb, w)] (app2 "Set" (ESym la) (app2 grow (ESym la) (ESym lb))) (app2 "Set" (ESym x) (app2 grow (ESym x) w)) -> grow_hashes to grow x e w r ->
  evals_to c es (fn to [ESym x; e]) (mkList r) (set_var es1 x (mkList r)).
Proof.
  intros Hc B Ef Nt rules [U D] E (F & RS & RG & LH & U1 & D1) [Nx Ns] V El Er Er' Vw Ow Ng (H1 & H2 & H3 & H4 & H5).
  pose proof (proj2 (proj2 (proj2 RS))) as T1.
  eapply (library_call_list c es (sysname to) addto_attrs [la; lb] [ESym x; e] [ESym x; w] es1 _ [sys "Set"; ESym x; fn grow [ESym x; w]] r (set_var es1 x (mkList r)) Hc U);
    [apply EA_held; [right; right; left; split; [reflexivity|left; reflexivity]|];
     apply EA_eval with es1; [|exact E|exact T1|apply EA_nil];
     intros [K|[K|[[K _]|[_ K]]]]; try discriminate K; destruct K as [K|[K|[]]]; discriminate K
    | |exact D1|exact U1|discriminate| |exact Nt|reflexivity| |nh|nh|nh|nh| | |exact Er'|exact H1|exact H2|exact H3].
  - constructor; [apply ordinary_sym|constructor; [exact Ow|constructor]].
  - constructor; [intros [K|[]]; discriminate K|constructor; [intros []|constructor]].
  - exact Ng.
  - apply set_pass; auto using ordinary_list, unconditional_list.
    + apply (grow_evals c es1 grow f x l w r); auto. apply variable_list; assumption.
    + split; [exact F|]. split; [exact Nx|]. right. exists (mkList l). split; [exact V|apply unconditional_list].
  - apply set_list_head; [apply (Ns "List"%string)|exact LH].
Qed.

(* ---- C113 ---- *)
(* AppendTo[x, e]: e is evaluated; then the list that is the value of x gets the
   value of e as its new last element.  Nothing else changes, and the result is
   the new list. *)
Theorem C113_append_to : forall c es x e w l es1, cfg_mono c -> has_append c ->
  library es "AppendTo" addto_attrs append_to_rules -> evals_to c es e w es1 -> grow_ready es1 "AppendTo" "Append" append_to_rules ->
  user_name x -> variable es1 x (mkList l) -> elements c es1 (l ++ [w]) -> elements c (set_var es1 x (mkList (l ++ [w]))) (l ++ [w]) ->
  grow_hashes "AppendTo" "Append" x e w (l ++ [w]) ->
  evals_to c es (fn "AppendTo" [ESym x; e]) (mkList (l ++ [w])) (set_var es1 x (mkList (l ++ [w]))).
Proof.
  intros c es x e w l es1 Hc [B _] L E G Nx V [Va Oa] Er Hs. apply Forall_app in Va as [Vl Vw]. apply Forall_app in Oa as [Ol Ow].
  apply Forall_inv in Vw. apply Forall_inv in Ow.
  apply (grow_call c es "AppendTo" "Append" append_eval x e w l (l ++ [w]) es1 Hc B eq_refl); auto.
  - not_special.
  - split; assumption.
  - split; apply Forall_app; split; auto.
  - apply (proj1 (C26_replace_is_substitution _ _ _)). reflexivity.
Qed.
Print Assumptions C113_append_to.
Theorem C113_prepend_to : forall c es x e w l es1, cfg_mono c -> has_append c ->
  library es "PrependTo" addto_attrs prepend_to_rules -> evals_to c es e w es1 -> grow_ready es1 "PrependTo" "Prepend" prepend_to_rules ->
  user_name x -> variable es1 x (mkList l) -> elements c es1 (w :: l) -> elements c (set_var es1 x (mkList (w :: l))) (w :: l) ->
  grow_hashes "PrependTo" "Prepend" x e w (w :: l) ->
  evals_to c es (fn "PrependTo" [ESym x; e]) (mkList (w :: l)) (set_var es1 x (mkList (w :: l))).
Proof.
  intros c es x e w l es1 Hc [_ B] L E G Nx V [Va Oa] Er Hs.
  apply (grow_call c es "PrependTo" "Prepend" prepend_eval x e w l (w :: l) es1 Hc B eq_refl); auto.
  - not_special.
  - split; eapply Forall_inv_tail; eassumption.
  - split; assumption.
  - eapply Forall_inv; exact Va.
  - eapply Forall_inv; exact Oa.
  - apply (proj1 (C26_replace_is_substitution _ _ _)). reflexivity.
Qed.
Print Assumptions C113_prepend_to.

(* a queue: AppendTo[x, a1]; ...; AppendTo[x, an] for atoms a1, ..., an leaves
   {l..., a1, ..., an} in x and changes nothing else *)
Definition literal (a : ex) : Prop := match a with EStr _ | EInt _ => True | _ => False end.
Lemma literal_value c es a : literal a -> value c es a /\ ordinary_arg a.
Proof. destruct a; try contradiction; intros _; (split; [|apply ordinary_atom; reflexivity]); [apply value_str|apply value_int]. Qed.
Lemma literal_elements c es l : Forall literal l -> elements c es l.
Proof. intro H. split; (eapply Forall_impl; [|exact H]); intros a K; apply (literal_value c es a K). Qed.
Definition same_elsewhere (x : string) (es es' : estate) : Prop :=
  (forall y, y <> x -> lookup (es_defs es') y = lookup (es_defs es) y) /\ sym_attrs es' x = sym_attrs es x /\
  st_frozen (es_defs es') = st_frozen (es_defs es) /\ es_thrown es' = es_thrown es /\ es_sown es' = es_sown es.
Lemma set_grow_ready es x v to grow rules : user_name x -> grow_ready es to grow rules -> grow_ready (set_var es x v) to grow rules.
Proof.
  intros Nx (F & R1 & R2 & LH & L). pose proof Nx as [Ne N]. split; [exact F|]. split; [apply set_ready; auto|]. split; [apply set_ready; auto|].
  split; [apply set_list_head; [apply (N "List"%string)|exact LH]|apply set_library; auto].
Qed.
Theorem C113_append_all : forall c x vs es l, cfg_mono c -> has_append c -> user_name x -> Forall literal (l ++ vs) ->
  grow_ready es "AppendTo" "Append" append_to_rules -> variable es x (mkList l) ->
  (forall pre a post, vs = pre ++ a :: post -> grow_hashes "AppendTo" "Append" x a a (l ++ pre ++ [a])) ->
  exists es', runs c es (map (fun a => fn "AppendTo" [ESym x; a]) vs) es' /\ variable es' x (mkList (l ++ vs)) /\ same_elsewhere x es es'.
Proof.
  intros c x vs. induction vs as [|a vs IH]; intros es l Hc Ha Nx Li G V Hs.
  - exists es. rewrite app_nil_r. split; [apply RN_nil|]. split; [exact V|]. split; [reflexivity|repeat split].
  - assert (Q : l ++ a :: vs = (l ++ [a]) ++ vs) by (rewrite <- app_assoc; reflexivity).
    rewrite Q in Li. pose proof (proj1 (proj1 (Forall_app _ _ _) Li)) as La. pose proof (proj2 (proj1 (Forall_app _ _ _) La)) as Lw. apply Forall_inv in Lw.
    destruct (literal_value c es a Lw) as [Va Oa].
    destruct (C96_set_var es x (mkList (l ++ [a]))) as (V1 & A1 & O1 & F1 & T1 & W1).
    destruct (IH (set_var es x (mkList (l ++ [a]))) (l ++ [a]) Hc Ha Nx Li (set_grow_ready _ _ _ _ _ _ Nx G) V1) as [es' (R & V' & O' & A' & F' & T' & W')].
    + intros pre b post ->. rewrite <- app_assoc. apply (Hs (a :: pre) b post eq_refl).
    + exists es'. rewrite Q. split; [|split; [exact V'|]].
      * cbn [map]. apply (RN_cons c es _ (mkList (l ++ [a])) (set_var es x (mkList (l ++ [a])))); [| | |exact R].
        -- apply (C113_append_to c es x a a l es Hc Ha (proj2 (proj2 (proj2 (proj2 G)))) Va G Nx V); [apply literal_elements, La|apply literal_elements, La|].
           apply (Hs [] a vs eq_refl).
        -- apply (proj2 (proj2 (proj2 (proj1 (proj2 G))))).
        -- apply list_not_headed. discriminate.
      * split; [intros y Ny; rewrite O' by exact Ny; apply O1, Ny|]. rewrite A', F', T', W'. auto.
Qed.
Print Assumptions C113_append_all.

(* ---- the hypotheses are met ---- *)
Definition list_fns (n : string) : option builtin :=
  if String.eqb n (sysname "Append") then Some (opt_fn append_eval) else if String.eqb n (sysname "Prepend") then Some (opt_fn prepend_eval) else None.
Definition c_l : cfg := Cfg (fun _ => 0%Z) (fun _ => ""%string) (fun _ _ => false) list_fns.
Lemma opt_mono f : mono (opt_fn f).
Proof. intros k1 k2 e1 e2 es l Hk He. right. reflexivity. Qed.
Lemma c_l_mono : cfg_mono c_l.
Proof.
  intros n b H. cbn [c_other c_l] in H. unfold list_fns in H.
  destruct (String.eqb n (sysname "Append")); [injection H as <-; apply opt_mono|].
  destruct (String.eqb n (sysname "Prepend")); [injection H as <-; apply opt_mono|discriminate H].
Qed.
Lemma c_l_has : has_append c_l.
Proof. split; vm_compute; reflexivity. Qed.
Definition es_l : estate := with_entries es0 [ entry "Append" prot true; entry "Prepend" prot true; entry "List" ["Locked"; "Protected"]%string false;
  lib "AppendTo" append_to_rules addto_attrs; lib "PrependTo" prepend_to_rules addto_attrs ].
Definition es_q : estate := set_var es_l "Global`k" (mkList [EInt 5]).
Lemma grow_lib h rules : sym_attrs es_l (sysname h) = strings_to_attributes addto_attrs -> no_value es_l (sysname h) -> defined_by es_l (sysname h) rules ->
  library es_l h addto_attrs rules.
Proof.
  intros A N D. split; [|exact D]. split; [exact A|]. split; [exact N|]. split; [reflexivity|].
  intros a I K. cbn in I, K. destruct K as [<-|[<-|[]]]; repeat (destruct I as [I|I]; [discriminate I|]); exact I.
Qed.
Lemma l_list : list_head es_l.
Proof.
  exists ["Locked"; "Protected"]%string. split; [left; eexists; split; [vm_compute; reflexivity|repeat split]|]. split; [vm_compute; reflexivity|]. split; [reflexivity|].
  intros a I K. cbn in I, K. destruct K as [<-|[<-|[]]]; repeat (destruct I as [I|I]; [discriminate I|]); exact I.
Qed.
Lemma l_append : grow_ready es_l "AppendTo" "Append" append_to_rules.
Proof.
  split; [reflexivity|]. split; [ready_tac|]. split; [ready_tac|]. split; [exact l_list|].
  apply grow_lib; [vm_compute; reflexivity|vm_compute; reflexivity|vm_compute; split; reflexivity].
Qed.
Lemma l_prepend : grow_ready es_l "PrependTo" "Prepend" prepend_to_rules.
Proof.
  split; [reflexivity|]. split; [ready_tac|]. split; [ready_tac|]. split; [exact l_list|].
  apply grow_lib; [vm_compute; reflexivity|vm_compute; reflexivity|vm_compute; split; reflexivity].
Qed.
Ltac gh := split; [hok|split; [split; hok|split; [split; hok|split; [hok|split; hok]]]].
(* k = {5}; PrependTo[k, 3 + 4] gives {7, 5} *)
Example C113_prepend_ex : evals_to c_l es_q (fn "PrependTo" [gl "k"; fn "Plus" [EInt 3; EInt 4]]) (mkList [EInt 7; EInt 5]) (set_var es_q "Global`k" (mkList [EInt 7; EInt 5])).
Proof.
  apply (C113_prepend_to c_l es_q "Global`k" (fn "Plus" [EInt 3; EInt 4]) (EInt 7) [EInt 5] es_q c_l_mono c_l_has).
  - apply set_library; [apply (global_name "k")|apply l_prepend].
  - exists 20. vm_compute. reflexivity.
  - apply set_grow_ready; [apply (global_name "k")|apply l_prepend].
  - apply (global_name "k").
  - apply C96_set_var.
  - apply literal_elements. repeat constructor.
  - apply literal_elements. repeat constructor.
  - gh.
Qed.
(* k = {5}; AppendTo[k, 6]; AppendTo[k, "a"] *)
Example C113_append_ex : exists es', runs c_l es_q [fn "AppendTo" [gl "k"; EInt 6]; fn "AppendTo" [gl "k"; EStr "a"]] es' /\
  variable es' "Global`k" (mkList [EInt 5; EInt 6; EStr "a"]) /\ same_elsewhere "Global`k" es_q es'.
Proof.
  apply (C113_append_all c_l "Global`k" [EInt 6; EStr "a"] es_q [EInt 5] c_l_mono c_l_has (global_name "k")).
  - repeat constructor.
  - apply set_grow_ready; [apply (global_name "k")|apply l_append].
  - apply C96_set_var.
  - intros [|p1 [|p2 [|p3 pre]]] a post H; try discriminate H; injection H; intros; subst; gh.
Qed.
(* ... where x has no value: x becomes Append[x, e], and evaluating it does not end *)
Definition looped : ex := fn "Append" [gl "k"; EInt 1].
Definition es_ll : estate := set_var es_l "Global`k" looped.
Lemma append_more m : run c_l m None es_ll (gl "k") = More -> pass c_l m (run c_l m None) es_ll [sys "Append"; gl "k"; EInt 1] = More.
Proof.
  intro K. change (sys "Append") with (ESym (sysname "Append")). unfold pass. cbv zeta.
  assert (A0 : sym_attrs es_ll (sysname "Append") = strings_to_attributes prot) by (vm_compute; reflexivity). rewrite A0. clear A0.
  change (has_attr (strings_to_attributes prot) aNumericFunction) with false. cbn iota.
  cbn [eval_parts]. change (part_held (strings_to_attributes prot) 0) with false. change (part_held (strings_to_attributes prot) 1) with false.
  destruct m as [|m]; [reflexivity|].
  replace (run c_l (S m) None es_ll (ESym (sysname "Append"))) with (Ret (ESym (sysname "Append"), es_ll) : outcome (ex * estate)) by reflexivity.
  cbn [obind]. change (es_thrown es_ll) with (None : option ex). cbn [obind].
  rewrite K. reflexivity.
Qed.
Lemma ll_more m : run c_l m None es_ll (gl "k") = More.
Proof.
  apply (sym_loop c_l es_ll "Global`k" [sys "Append"; gl "k"; EInt 1]); [vm_compute; reflexivity|hok|exact append_more].
Qed.
Theorem C113_unset_refuted : diverges c_l es_l (fn "AppendTo" [gl "k"; EInt 1]).
Proof.
  destruct l_append as (Fz & RS & RA & _ & U & D). set (body := append_to_rhs (gl "k") (EInt 1)).
  destruct (user_pass c_l es_l (sysname "AppendTo") addto_attrs [gl "k"; EInt 1] [gl "k"; EInt 1] es_l append_to_rules (Some body) es_l c_l_mono U) as [n P].
  - apply addto_args; [apply value_int|reflexivity].
  - constructor; [apply ordinary_sym|constructor; [apply ord_int|constructor]].
  - exact D.
  - eapply SEL_hit with (bs := [(la, gl "k"); (lb, EInt 1)]).
    + split; [vm_compute; reflexivity|]. cbn. constructor; [intros [K|[]]; discriminate K|constructor; [intros []|constructor]].
    + apply F_node; [not_special|reflexivity|apply N.eqb_refl|]. apply (FL_cons (var la) (gl "k") [(la, gl "k")] [var lb] [EInt 1] [(lb, EInt 1)]); [apply F_var|].
      apply (FL_cons (var lb) (EInt 1) [(lb, EInt 1)] [] [] []); [apply F_var|constructor].
    + apply (proj1 (C26_replace_is_substitution _ _ _)). reflexivity.
    + apply G_plain; nh.
  - assert (P2 : exists n, forall m, n <= m -> pass c_l m (run c_l m None) es_l [sys "Set"; gl "k"; looped] = Ret (inr (looped, false), es_ll)).
    { apply set_pass; [apply c_l_mono|exact RS|exists 20; vm_compute; reflexivity|exact RS| |discriminate|repeat split; nh|repeat split; nh].
      split; [reflexivity|]. split; [discriminate|]. left. vm_compute. exact Logic.I. }
    destruct P2 as [n2 P2]. apply (diverges_large c_l es_l _ (S (S (S (n + n2)))) c_l_mono). intros [|[|m]] Hm; try lia. unfold eval.
    change (run c_l (S (S m)) None es_l (fn "AppendTo" [gl "k"; EInt 1])) with (run c_l (S m) (Some (0%N, false)) es_l (EExpr (ESym (sysname "AppendTo") :: [gl "k"; EInt 1]))).
    rewrite run_expr by hok. rewrite P by lia. cbn [obind]. destruct m as [|m]; [lia|].
    cbn [run]. replace (N.eqb (hash body) (hash (EExpr [ESym (sysname "AppendTo"); gl "k"; EInt 1]))) with false by (vm_compute; reflexivity).
    unfold body, append_to_rhs, app2. change (EExpr [sys "Append"; gl "k"; EInt 1]) with looped. replace (return_value (EExpr _)) with (None : option ex) by reflexivity.
    rewrite P2 by lia. cbn [obind orb]. destruct m as [|m]; [reflexivity|]. cbn [run]. replace (N.eqb (hash looped) _) with false by (vm_compute; reflexivity).
    change looped with (EExpr [sys "Append"; gl "k"; EInt 1]). cbn iota. replace (return_value (EExpr [sys "Append"; gl "k"; EInt 1])) with (None : option ex) by reflexivity.
    rewrite append_more by apply ll_more. reflexivity.
Qed.
Print Assumptions C113_unset_refuted.
