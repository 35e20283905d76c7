(* Property theorems: Module and Block as the evaluator runs them (C118). *)
From Verif Require Import M_Syntax M_Float M_Hash M_Match M_Defs S_Defs S_Match P_Hash P_MatchSound P_MatchNames P_Defs P_Defs2 P_Defs3 P_Defs4 T_Module
  M_Eval S_Eval P_MatchFuel P_Eval P_Eval2 P_Eval3 P_Eval4 P_Callback T_Eval T_Eval2 T_Eval3 T_Eval4 T_Callback M_Module.
Open Scope nat_scope.

(* ---- the builtin stays itself when given more fuel ---- *)
Lemma snag_loop_more : forall n m st b mn r, n <= m -> snag_loop n st b mn = Some r -> snag_loop m st b mn = Some r.
Proof.
  induction n as [|n IH]; intros [|m] st b mn r L H; try discriminate; [lia|]. cbn [snag_loop] in *.
  destruct (is_def st _); [|exact H]. apply IH; [lia|exact H].
Qed.
Lemma snag_unique_more n m fl st b r : n <= m -> snag_unique fl n st b = Some r -> snag_unique fl m st b = Some r.
Proof.
  unfold snag_unique. intro L. destruct (get_sym_def st nModuleNumber) as [[| |z| | | |]|]; try (intro H; exact H).
  destruct (snag_loop n st b (wrap64 z)) as [mn|] eqn:E; [|discriminate]. rewrite (snag_loop_more _ _ _ _ _ _ L E). intro H; exact H.
Qed.
Lemma snag_all_more n m fl : n <= m -> forall ls st r, snag_all fl n st ls = Some r -> snag_all fl m st ls = Some r.
Proof.
  intro L. induction ls as [|l t IH]; intros st r H; cbn [snag_all] in *; [exact H|].
  destruct (snag_unique fl n st (local_sym l)) as [[[u s1]|]|] eqn:E; try discriminate; rewrite (snag_unique_more _ _ _ _ _ _ L E).
  - destruct (snag_all fl n s1 t) as [[[us1 s2]|]|] eqn:F; try discriminate; rewrite (IH _ _ F); exact H.
  - exact H.
Qed.
Lemma start_mono e1 e2 : ev_le e1 e2 -> forall ls es, ole (start_locals e1 es ls) (start_locals e2 es ls).
Proof.
  intro He. induction ls as [|[[x|x v|x v] u] t IH]; intro es; cbn [start_locals]; try apply IH; [apply ole_refl|].
  apply ole_bind; [apply He|]. intros [r es1]. apply IH.
Qed.
Lemma module_mono fl : mono (module_fn fl).
Proof.
  intros k1 k2 e1 e2 es l Hk He. unfold module_fn. destruct l as [|x0 [|ls [|body [|]]]]; try apply ole_refl.
  destruct (args_of ls nList) as [l|]; [|apply ole_refl]. destruct (parse_locals l) as [ps|]; [|apply ole_refl].
  destruct (snag_all fl k1 (es_defs es) ps) as [r|] eqn:E; [|apply ole_more]. rewrite (snag_all_more _ _ fl Hk _ _ _ E).
  destruct r as [[us st]|]; [|apply ole_refl]. apply ole_bind; [apply start_mono, He|]. intro es2. apply ole_refl.
Qed.

(* ---- specification ---- *)
(* a local variable as it is written *)
Definition local_ex (l : mlocal) : ex :=
  match l with LPlain x => ESym x | LSet x v => fn "Set" [ESym x; v] | LDelayed x v => fn "SetDelayed" [ESym x; v] end.
Definition module (ls : list mlocal) (body : ex) : ex := fn "Module" [mkList (map local_ex ls); body].
(* what a name stands for in a session: the session in which u has the value r
   and no attributes, and the one in which it has no value *)
Definition given (es : estate) (u : string) (r : ex) (es' : estate) : Prop :=
  es_thrown es' = es_thrown es /\ es_sown es' = es_sown es /\ st_frozen (es_defs es') = st_frozen (es_defs es) /\
  get_sym_def (es_defs es') u = Some r /\ forall s, s <> u -> lookup (es_defs es') s = lookup (es_defs es) s.
(* the locals are created from left to right: the initialisers with = are
   evaluated in the session left by those before *)
Inductive starts (c : cfg) : estate -> list (mlocal * string) -> estate -> Prop :=
| ST_nil es : starts c es [] es
| ST_plain es x u t es' : starts c (set_local es u def0) t es' -> starts c es ((LPlain x, u) :: t) es'
| ST_set es x v u t r es1 es' : evals_to c es v r es1 -> starts c (set_local es1 u (local_def u r)) t es' ->
    starts c es ((LSet x v, u) :: t) es'
| ST_delayed es x v u t es' : starts c (set_local es u (local_def u v)) t es' -> starts c es ((LDelayed x v, u) :: t) es'.
(* a session in which Module can name its locals: definitions can be changed and
   $ModuleNumber is the integer z *)
Definition numbered (es : estate) (z : Z) : Prop := mn_state (es_defs es) z.
(* the definitions are those of es except for $ModuleNumber *)
Definition renumbered (es es' : estate) : Prop :=
  es_thrown es' = es_thrown es /\ es_sown es' = es_sown es /\ forall s, s <> nModuleNumber -> lookup (es_defs es') s = lookup (es_defs es) s.

Lemma local_given es u r : given es u r (set_local es u (local_def u r)).
Proof.
  unfold given, set_local, with_defs. cbn [es_thrown es_sown es_defs]. repeat split.
  - unfold get_sym_def. rewrite lookup_set_same. cbn [d_dvs find local_def]. rewrite is_sym_rule_held. reflexivity.
  - intros s N. apply lookup_set_other. congruence.
Qed.
Lemma parse_local_ex l : parse_local (local_ex l) = Some l.
Proof.
  destruct l as [x|x v|x v]; [reflexivity| |]; unfold local_ex, fn, parse_local, sys; rewrite !args_of_expr.
  - rewrite String.eqb_refl. reflexivity.
  - rewrite String.eqb_refl. reflexivity.
Qed.
Lemma parse_locals_ex : forall ls, parse_locals (map local_ex ls) = Some ls.
Proof. induction ls as [|l t IH]; [reflexivity|]. cbn [map parse_locals]. rewrite parse_local_ex, IH. reflexivity. Qed.
Lemma starts_run c : cfg_mono c -> forall es ls es', starts c es ls es' -> exists n, forall m, n <= m -> start_locals (run c m None) es ls = Ret es'.
Proof.
  intros Hc es ls es'. induction 1 as [es|es x u t es' _ [n IH]|es x v u t r es1 es' E _ [n IH]|es x v u t es' _ [n IH]].
  - exists 0. reflexivity.
  - exists n. exact IH.
  - destruct (evals_large c _ _ _ _ Hc E) as [n1 K]. exists (n + n1). intros m Hm. cbn [start_locals]. rewrite K by lia. cbn [obind]. apply IH. lia.
  - exists n. exact IH.
Qed.
Lemma not_module a : In a ["NumericFunction"; "Flat"; "Orderless"; "Listable"]%string -> ~ In a module_attrs.
Proof.
  unfold module_attrs. intros I K. cbn in I, K. destruct K as [<-|[<-|[]]]; repeat (destruct I as [I|I]; [discriminate I|]); exact I.
Qed.

(* ---- C118 ---- *)
(* Module[{x, y = v, z := w}, body] in a session in which $ModuleNumber is the
   integer z: names that nothing in the session has are generated, one for each
   local, all different; nothing but $ModuleNumber changes.  When the locals
   have then been created under these names, the Module evaluates to what the
   body with the local variables renamed does. *)
Theorem C118_module : forall c es z ls body, cfg_mono c -> builtin_of c (sysname "Module") = Some (module_fn (c_fl c)) ->
  ready es "Module" module_attrs -> numbered es z -> (- 2 ^ 63 <= z)%Z ->
  (z + Z.of_nat (length ls) * Z.of_nat (S (length (st_defs (es_defs es)))) < 2 ^ 63)%Z ->
  NoDup (map local_sym ls) -> ordinary_arg body -> hash_ok (module ls body) ->
  exists us e es1, length us = length ls /\ NoDup us /\ Forall (fun u => is_def (es_defs es) u = false) us /\
    subst (combine (map local_sym ls) (map ESym us)) body e /\ renumbered es es1 /\
    forall es2, starts c es1 (combine ls us) es2 -> no_rules es2 (sysname "Module") -> no_clash (module ls body) e ->
    forall v es3, evals_to c es2 e v es3 -> evals_to c es (module ls body) v es3.
Proof.
  intros c es z ls body Hc B (Sy & NR & NV & T) M Lo Up ND O Hz.
  set (fuel := S (length (st_defs (es_defs es)))).
  assert (Iz : in64 z \/ ls = []).
  { destruct ls as [|l t]; [right; reflexivity|left]. unfold in64. cbn [length] in Up. nia. }
  assert (G : exists us st', snag_all (c_fl c) fuel (es_defs es) ls = Some (Some (us, st')) /\ NoDup us).
  { destruct Iz as [Iz | ->]; [|exists [], (es_defs es); split; [reflexivity|constructor]].
    destruct (snag_all_mn (c_fl c) fuel ls (es_defs es) z M Iz ltac:(unfold fuel; lia) Up) as (us & st' & z' & E & _ & _ & _ & N & _).
    exists us, st'. split; assumption. }
  destruct G as (us & st' & E & N).
  exists us, (replace_pd_go (fold_left (fun pm '(l, u) => pd_set pm (local_sym l) (ESym u)) (combine ls us) []) body), (with_defs es st').
  destruct (snag_all_some _ _ _ _ _ _ E) as (L & _ & F). destruct (snag_all_frame _ _ _ _ _ _ E) as [_ Fr].
  split; [exact L|]. split; [exact N|]. split; [exact F|]. split; [|split; [repeat split; exact Fr|]].
  - apply (C75_body (c_fl c) (fun s x => (x, s)) fuel (es_defs es) ls body us _ (init_locals (fun s x => (x, s)) st' (combine ls us))); [|exact ND].
    unfold module_eval. rewrite E. reflexivity.
  - intros es2 St NR2 Nc v es3 Ev. set (e := replace_pd_go _ body) in *.
    apply (evals_next c es (sys "Module" :: [mkList (map local_ex ls); body]) e es2 v es3 Hc Hz Nc); [|exact Ev].
    apply (builtin_pass c es (sysname "Module") module_attrs [mkList (map local_ex ls); body] [mkList (map local_ex ls); body]
      (module_fn (c_fl c)) e es es2 Hc Sy (ex_intro _ _ Sy)); try (apply not_module; cbn; tauto); auto.
    + apply head_arg; [exact NV|exact T|]. apply held_rest. intros j _. left. unfold module_attrs; cbn; tauto.
    + apply Forall_cons; [repeat split; intros [x K]; discriminate K|]. apply Forall_cons; [exact O|constructor].
    + destruct (starts_run c Hc _ _ _ St) as [n1 K]. exists (fuel + n1). intros m Hm. exists (sys "Module" :: [mkList (map local_ex ls); body]).
      change (ESym (sysname "Module")) with (sys "Module"). unfold module_fn.
      replace (args_of (mkList (map local_ex ls)) nList) with (Some (map local_ex ls)) by reflexivity.
      rewrite parse_locals_ex. rewrite (snag_all_more fuel m (c_fl c) ltac:(lia) _ _ _ E). rewrite K by lia. reflexivity.
Qed.
Print Assumptions C118_module.

(* what a local holds once it has been created: its value, or nothing *)
Theorem C118_local_value : forall es u r, given es u r (set_local es u (local_def u r)).
Proof. exact local_given. Qed.
Print Assumptions C118_local_value.
Theorem C118_local_plain : forall es u, get_sym_def (es_defs (set_local es u def0)) u = None /\
  forall s, s <> u -> lookup (es_defs (set_local es u def0)) s = lookup (es_defs es) s.
Proof.
  intros es u. unfold set_local, with_defs. cbn [es_defs]. split.
  - unfold get_sym_def. rewrite lookup_set_same. reflexivity.
  - intros s N. apply lookup_set_other. congruence.
Qed.
Print Assumptions C118_local_plain.

(* a reference to the local gives the value of its initialiser: Module[{x = e},
   x] is the value of e, evaluated in the session outside *)
Theorem C118_initialised : forall c es z x e, cfg_mono c -> builtin_of c (sysname "Module") = Some (module_fn (c_fl c)) ->
  ready es "Module" module_attrs -> numbered es z -> (- 2 ^ 63 <= z)%Z -> (z + Z.of_nat (S (length (st_defs (es_defs es)))) < 2 ^ 63)%Z ->
  hash_ok (module [LSet x e] (ESym x)) ->
  exists u es1, is_def (es_defs es) u = false /\ renumbered es es1 /\
    forall r es1' w es2, evals_to c es1 e r es1' -> no_rules es1' (sysname "Module") -> r <> ESym u ->
    evals_to c (set_local es1' u (local_def u r)) r w es2 -> ~ headed w (sysname "Return") ->
    no_clash (module [LSet x e] (ESym x)) (ESym u) -> evals_to c es (module [LSet x e] (ESym x)) w es2.
Proof.
  intros c es z x e Hc B R M Lo Up Hz. destruct R as (Sy & NR & NV & T).
  assert (Rd : ready es "Module" module_attrs) by (repeat split; assumption).
  assert (Up1 : (z + Z.of_nat (length [LSet x e]) * Z.of_nat (S (length (st_defs (es_defs es)))) < 2 ^ 63)%Z).
  { replace (Z.of_nat (length [LSet x e])) with 1%Z by reflexivity. rewrite Z.mul_1_l. exact Up. }
  assert (ND : NoDup (map local_sym [LSet x e])) by (cbn [map]; constructor; [intros []|constructor]).
  destruct (C118_module c es z [LSet x e] (ESym x) Hc B Rd M Lo Up1 ND (ordinary_sym x) Hz) as (us & b & es1 & L & _ & F & Su & Rn & K).
  destruct us as [|u [|u' us]]; try discriminate L. apply Forall_inv in F. exists u, es1. split; [exact F|]. split; [exact Rn|].
  intros r es1' w es2 E1 N1 Ne E2 Nr Nc.
  assert (b = ESym u) as ->.
  { cbn [map combine] in Su. remember (ESym x) as y eqn:Y. destruct Su as [y v V|y V|y V1 V2|q q' V].
    - injection Y as ->. cbn [pd_get local_sym] in V. rewrite String.eqb_refl in V. congruence.
    - injection Y as ->. cbn [pd_get local_sym] in V. rewrite String.eqb_refl in V. discriminate V.
    - subst y. discriminate V1.
    - discriminate Y. }
  apply (K (set_local es1' u (local_def u r))).
  - cbn [combine]. apply ST_set with (r := r) (es1 := es1'); [exact E1|constructor].
  - intros d D. unfold set_local, with_defs in D. cbn [es_defs] in D. rewrite lookup_set_other in D; [apply N1, D|].
    intro Eq. rewrite <- Eq in F. destruct Sy as (d0 & D0 & _). unfold is_def in F. rewrite D0 in F. discriminate F.
  - exact Nc.
  - destruct E2 as [n En]. exists (S n). unfold eval. cbn [run].
    destruct (local_given es1' u r) as (_ & _ & _ & Gv & _). rewrite Gv.
    replace (match r with ESym s' => (s' =? u)%string | _ => false end) with false.
    + unfold eval in En. rewrite En. cbn [obind]. unfold return_value. rewrite (args_of_not w (sysname "Return") Nr). reflexivity.
    + destruct r as [s|s|zz|n' d'|f|a1 a2|l]; try reflexivity. destruct (String.eqb_spec s u); [congruence|reflexivity].
Qed.
Print Assumptions C118_initialised.

Lemma run_enter c k es parts : run c (S k) None es (EExpr parts) = run c k (Some (0%N, false)) es (EExpr parts).
Proof. reflexivity. Qed.
(* if $ModuleNumber is not an integer, a Module with a local kills the process *)
Theorem C118_fatal : forall c es ls body, cfg_mono c -> builtin_of c (sysname "Module") = Some (module_fn (c_fl c)) ->
  ready es "Module" module_attrs -> ls <> [] -> (forall z, get_sym_def (es_defs es) nModuleNumber <> Some (EInt z)) ->
  ordinary_arg body -> hash_ok (module ls body) -> crashes c es (module ls body).
Proof.
  intros c es ls body Hc B (Sy & NR & NV & T) Ne Nz O Hz.
  set (args := [mkList (map local_ex ls); body]).
  assert (E : evals_args c (holds module_attrs) 0 es (sys "Module" :: args) (sys "Module" :: args) es).
  { apply head_arg; [exact NV|exact T|]. apply held_rest. intros j _. left. unfold module_attrs; cbn; tauto. }
  destruct (evals_args_large c _ _ _ _ _ _ Hc E) as [n K].
  exists (S (S n)). unfold eval, module, fn. fold args.
  rewrite run_enter.
  rewrite run_expr by exact Hz.
  assert (P : pass c n (run c n None) es (ESym (sysname "Module") :: args) =
    obind (apply_head c n (run c n None) es (sysname "Module") (sys "Module" :: args) (sys "Module" :: args)) (fun '(r, b, es3) => Ret (inr (r, b), es3))).
  { apply pass_symbol with (names := module_attrs); try (apply not_module; cbn; tauto).
    - apply (system_attrs _ _ _ Sy).
    - apply K. lia.
    - apply Forall_cons; [apply ordinary_sym|]. apply Forall_cons; [repeat split; intros [x Q]; discriminate Q|]. apply Forall_cons; [exact O|constructor].
    - discriminate. }
  change (ESym (sysname "Module")) with (sys "Module") in P. rewrite P. clear P.
  - destruct Sy as [d [L [Bd _]]]. unfold apply_head. rewrite L, Bd, B. unfold module_fn at 1. unfold args.
    replace (args_of (mkList (map local_ex ls)) nList) with (Some (map local_ex ls)) by reflexivity.
    rewrite parse_locals_ex. destruct ls as [|l t]; [congruence|]. cbn [snag_all]. unfold snag_unique.
    destruct (get_sym_def (es_defs es) nModuleNumber) as [[| |z| | | |]|]; try reflexivity. exfalso. apply (Nz z). reflexivity.
Qed.
Print Assumptions C118_fatal.

(* ---- a session ---- *)
Definition c_mod : cfg := Cfg (fun _ => 0%Z) (fun _ => ""%string) (fun _ _ => false)
  (fun n => if String.eqb n (sysname "Module") then Some (module_fn (fun _ => 0%Z)) else None).
Lemma c_mod_mono : cfg_mono c_mod.
Proof. intros n b H. cbn [c_other c_mod] in H. destruct (String.eqb n (sysname "Module")); [injection H as <-; apply module_mono|discriminate H]. Qed.
Definition es_mod : estate := with_entries es0
  [entry "Module" module_attrs true; (sysname "Block", Def block_rules (strings_to_attributes module_attrs) None false);
   (nModuleNumber, Def [DVal (held (ESym nModuleNumber)) (EInt 4) 0] no_attrs None false);
   ("Global`x"%string, local_def "Global`x" (EInt 1)); ("Global`y$5"%string, local_def "Global`y$5" (EInt 3));
   ("Global`f"%string, Def [DVal (held (uf "f" [])) (gl "x") 0] no_attrs None false)].
Example mod_ready : ready es_mod "Module" module_attrs /\ numbered es_mod 4.
Proof.
  split; [|split; [reflexivity|eexists; reflexivity]]. split; [eexists; repeat split; reflexivity|].
  split; [intros d D; vm_compute in D; injection D as <-; reflexivity|split; reflexivity].
Qed.
(* C118_module applies to this session, for three locals *)
Example mod_applies : exists us e es1, length us = 3 /\ NoDup us /\ Forall (fun u => is_def (es_defs es_mod) u = false) us /\
  subst (combine ["Global`x"; "Global`y"; "Global`z"]%string (map ESym us)) (gl "x") e /\ renumbered es_mod es1.
Proof.
  destruct mod_ready as [R M].
  destruct (C118_module c_mod es_mod 4 [LSet "Global`x" (EInt 2); LPlain "Global`y"; LDelayed "Global`z" (gl "x")] (gl "x") c_mod_mono eq_refl R M)
    as (us & e & es1 & L & N & F & Su & Rn & _).
  - lia.
  - reflexivity.
  - repeat constructor; intro K; repeat (destruct K as [K|K]; [discriminate K|]); exact K.
  - apply ordinary_sym.
  - hok.
  - exists us, e, es1. repeat split; auto; apply Rn.
Qed.
Definition final (es : estate) (e : ex) : option (ex * estate) := match eval c_mod 40 es e with Ret r => Some r | _ => None end.
(* Module[{x = x + 1, y, z := x}, {x, y, z, f[]}] where x is 1 and f[] is x: the
   outer x is seen by the initialisers and by f, and is 1 afterwards; the name
   y$5 is in use and is passed over *)
Example mod_run :
  let m := module [LSet "Global`x" (fn "Plus" [gl "x"; EInt 1]); LPlain "Global`y"; LDelayed "Global`z" (gl "x")]
             (mkList [gl "x"; gl "y"; gl "z"; uf "f" []]) in
  match final es_mod m with
  | Some (v, es') => v = mkList [EInt 2; gl "y$6"; EInt 1; EInt 1] /\ get_sym_def (es_defs es') "Global`x" = Some (EInt 1) /\
                     get_sym_def (es_defs es') nModuleNumber = Some (EInt 8)
  | None => False
  end.
Proof. vm_compute. repeat split. Qed.

(* Block is Module: its variables are not given values for the functions that
   are called from the body.  With x = 1 and f[] := x, Block[{x = 5}, f[]]
   would be 5; it is 1 *)
Theorem C118_block_dynamic_refuted : exists es',
  evals_to c_mod es_mod (uf "f" []) (EInt 1) es_mod /\
  evals_to c_mod es_mod (fn "Block" [mkList [fn "Set" [gl "x"; EInt 5]]; uf "f" []]) (EInt 1) es' /\
  evals_to c_mod (set_local es_mod "Global`x" (local_def "Global`x" (EInt 5))) (uf "f" []) (EInt 5)
    (set_local es_mod "Global`x" (local_def "Global`x" (EInt 5))).
Proof.
  set (call := fn "Block" [mkList [fn "Set" [gl "x"; EInt 5]]; uf "f" []]).
  exists (match eval c_mod 40 es_mod call with Ret (_, s) => s | _ => es_mod end).
  split; [|split]; exists 40; vm_compute; reflexivity.
Qed.
Print Assumptions C118_block_dynamic_refuted.

Example fatal_example : crashes c_mod (with_entries es_mod [(nModuleNumber, local_def nModuleNumber (gl "x"))]) (module [LPlain "Global`x"] (gl "x")).
Proof.
  apply C118_fatal; try reflexivity; [exact c_mod_mono| |discriminate| |apply ordinary_sym|hok].
  - split; [eexists; repeat split; reflexivity|].
    split; [intros d D; vm_compute in D; injection D as <-; reflexivity|split; reflexivity].
  - intros z K. vm_compute in K. discriminate K.
Qed.
