(* Property theorems: iteration variables are restored (C40). *)
From Verif Require Import M_Syntax M_Float M_Hash M_Order M_Sort M_Num M_Arith M_Compare M_Match M_Defs S_Defs P_Defs P_Defs4 T_Defs
  M_Eval S_Eval S_Iter P_Hash P_MatchFuel P_OrderNum P_Eval P_Eval2 P_Eval3 P_Eval4 P_Iter T_Eval T_Eval3 T_Eval4 T_Iter.
Open Scope nat_scope.

Lemma unconditional_mask v : unconditional v -> mask_non_conditional v = sys "ExpreduceNonConditional".
Proof.
  intros [H1 H2]. destruct v as [| | | | | |l]; try reflexivity. destruct l as [|h t]; [reflexivity|].
  destruct h as [s| | | | | |]; try reflexivity. cbn [mask_non_conditional].
  destruct (String.eqb_spec s (sysname "Condition")) as [->|N]; [exfalso; apply H1; exists t; reflexivity|].
  destruct (String.eqb s (sysname "With") || String.eqb s (sysname "Module")) eqn:E; [|reflexivity].
  destruct t as [|x [|b [|]]]; try reflexivity.
  assert (W : s = sysname "With" \/ s = sysname "Module").
  { apply orb_true_iff in E. destruct E as [E|E]; apply String.eqb_eq in E; auto. }
  specialize (H2 s x b W eq_refl). destruct (has_head b (sysname "Condition")) eqn:K; [|reflexivity].
  exfalso. apply H2. unfold has_head in K. destruct b as [| | | | | |lb]; try (cbn in K; discriminate K). destruct lb as [|hb tb]; [cbn in K; discriminate K|].
  destruct hb as [sb| | | | | |]; try (cbn in K; discriminate K). exists tb. cbn [head_assertion] in K.
  destruct (String.eqb_spec sb (sysname "Condition")) as [->|]; [reflexivity|discriminate K].
Qed.

Lemma get_rules st x : get_sym_def st x = match find is_sym_rule (rules_of st x) with Some r => Some (dv_rhs r) | None => None end.
Proof. unfold get_sym_def, rules_of. destruct (lookup st x); reflexivity. Qed.

Lemma define_own fl st x v : reachable fl st -> st_frozen st = false -> x <> ""%string -> own_plain st x -> unconditional v ->
  exists st', define fl st (ESym x) v = Some st' /\ get_sym_def st' x = Some v /\ own_plain st' x /\ reachable fl st' /\
    st_frozen st' = false /\ forall y, y <> x -> rules_of st' y = rules_of st y.
Proof.
  intros R F N OP U. pose proof (define_rule_lhs fl st (ESym x) v x F (rule_lhs_sym x N)) as D.
  eexists. split; [exact D|]. split; [|split; [|split; [|split]]].
  - apply (C28_variable_reads_back_partial fl st x v _ R F N); [| |exact D].
    + intros d I1 S1. destruct (OP d I1) as [O1 O2]. split; [apply O1; auto|].
      rewrite (unconditional_mask _ (O2 S1)), (unconditional_mask v U). reflexivity.
    + intros d I1 S1. apply (OP d I1). auto.
  - intros d I1. rewrite rules_set_same in I1.
    assert (NEW : forall l sp, l = held (ESym x) -> d = DVal l v sp ->
      (is_sym_rule d = true \/ is_sameq (dv_lhs d) (held (ESym x)) = true -> dv_lhs d = held (ESym x)) /\ (is_sym_rule d = true -> unconditional (dv_rhs d))).
    { intros l sp -> ->. cbn [dv_lhs dv_rhs]. auto. }
    unfold new_def in I1. unfold own_plain, rules_of in OP. destruct (lookup st x) as [d0|].
    + cbn [d_dvs] in I1. unfold define_rule in I1. destruct (overwrite (held (ESym x)) v (d_dvs d0)) as [l'|] eqn:OV.
      * apply overwrite_some in OV. destruct OV as (a & d1 & b & EQ & -> & S1 & _).
        apply in_app_iff in I1. destruct I1 as [I1|[I1|I1]].
        -- apply OP. rewrite EQ. apply in_app_iff. auto.
        -- apply (NEW (dv_lhs d1) (dv_spec d1)); [|auto]. apply (OP d1); [rewrite EQ; apply in_elt|].
           right. unfold same_rule in S1. apply andb_true_iff in S1. apply S1.
        -- apply OP. rewrite EQ. apply in_app_iff. right. right. exact I1.
      * destruct (insert_shape fl x (held (ESym x)) v (d_dvs d0)) as (a & b & sp & EQ & IQ & _). rewrite IQ in I1.
        apply in_app_iff in I1. destruct I1 as [I1|[I1|I1]].
        -- apply OP. rewrite EQ. apply in_app_iff. auto.
        -- apply (NEW (held (ESym x)) sp); auto.
        -- apply OP. rewrite EQ. apply in_app_iff. auto.
    + destruct I1 as [<-|[]]. apply (NEW (held (ESym x)) 0%Z); reflexivity.
  - eapply R_step; [exact R|]. eapply St_define; [|exact D]. discriminate.
  - rewrite frozen_set. exact F.
  - intros y Ny. apply rules_set_other. exact Ny.
Qed.

Lemma clear_own fl st x : reachable fl st -> st_frozen st = false ->
  get_sym_def (clear st x) x = None /\ own_plain (clear st x) x /\ reachable fl (clear st x) /\ st_frozen (clear st x) = false /\
  forall y, y <> x -> rules_of (clear st x) y = rules_of st y.
Proof.
  intros R F. assert (E : rules_of (clear st x) x = []).
  { unfold clear. destruct (lookup st x) eqn:L; [rewrite rules_set_same; reflexivity|]. unfold rules_of. rewrite L. reflexivity. }
  split; [rewrite get_rules, E; reflexivity|]. split; [intros d I1; rewrite E in I1; destruct I1|].
  split; [eapply R_step; [exact R|apply St_clear]|]. unfold clear. destruct (lookup st x); [|auto].
  split; [rewrite frozen_set; exact F|]. intros y Ny. apply rules_set_other, Ny.
Qed.

Lemma own_same st st' x : rules_of st' x = rules_of st x -> own_plain st x -> own_plain st' x.
Proof. intros E H d I1. rewrite E in I1. exact (H d I1). Qed.

(* the state after the variables have been given back *)
Lemma restores_exist c (g : string -> option ex) xs : forall es, reachable (c_fl c) (es_defs es) -> st_frozen (es_defs es) = false ->
  (forall x, In x xs -> x <> ""%string /\ own_plain (es_defs es) x /\ match g x with Some v => unconditional v | None => True end) ->
  exists es', restores c es xs (map g xs) es' /\ (forall x, In x xs -> get_sym_def (es_defs es') x = g x) /\
    (forall x, ~ In x xs -> rules_of (es_defs es') x = rules_of (es_defs es) x) /\ es_thrown es' = es_thrown es.
Proof.
  induction xs as [|x xs IH]; intros es R F H.
  - exists es. split; [constructor|]. split; [intros y []|]. split; reflexivity.
  - destruct (H x (or_introl eq_refl)) as (N & OP & U). cbn [map].
    assert (exists d, (match g x with Some v => define (c_fl c) (es_defs es) (ESym x) v = Some d | None => d = clear (es_defs es) x end) /\
      get_sym_def d x = g x /\ own_plain d x /\ reachable (c_fl c) d /\ st_frozen d = false /\ (forall y, y <> x -> rules_of d y = rules_of (es_defs es) y)) as (d & D1 & D2 & D3 & D4 & D5 & D6).
    { destruct (g x) as [v|].
      - destruct (define_own (c_fl c) (es_defs es) x v R F N OP U) as (st' & K). exists st'. exact K.
      - exists (clear (es_defs es) x). split; [reflexivity|]. apply clear_own; assumption. }
    destruct (IH (with_defs es d)) as (es' & R1 & R2 & R3 & R4).
    + exact D4.
    + exact D5.
    + intros y Iy. destruct (H y (or_intror Iy)) as (Ny & OPy & Uy). split; [exact Ny|]. split; [|exact Uy].
      destruct (string_dec y x) as [->|Nyx]; [exact D3|]. apply (own_same (es_defs es)); [apply D6, Nyx|exact OPy].
    + exists es'. split; [|split; [|split]].
      * destruct (g x) as [v|]; [apply (RS_value c es x v d); assumption|]. subst d. apply RS_clear. exact R1.
      * intros y [<-|Iy]; [|apply R2, Iy]. destruct (in_dec string_dec x xs) as [I1|NI]; [apply R2, I1|].
        rewrite get_rules, (R3 x NI), <- get_rules. exact D2.
      * intros y Ny. rewrite (R3 y) by (intro K; apply Ny; right; exact K). apply D6. intro K. apply Ny. left. auto.
      * rewrite R4. reflexivity.
Qed.

Lemma own_value es x v : own_plain (es_defs es) x -> get_sym_def (es_defs es) x = Some v -> unconditional v.
Proof.
  intros OP G. rewrite get_rules in G. destruct (find is_sym_rule (rules_of (es_defs es) x)) as [r|] eqn:E; [|discriminate G].
  injection G as <-. apply find_some in E. destruct E as [I1 S1]. apply (OP r I1), S1.
Qed.

(* ---- C40 ---- *)
(* es1 is the state when the loop starts, es2 the state after its last round.
   Afterwards every iteration variable has its old value, or none if it had
   none, and the rules of all other symbols are untouched. *)
Definition given_back (es1 es2 es3 : estate) (xs : list string) : Prop :=
  (forall x, In x xs -> get_sym_def (es_defs es3) x = get_sym_def (es_defs es1) x) /\
  (forall x, ~ In x xs -> rules_of (es_defs es3) x = rules_of (es_defs es2) x).
(* what is assumed about the variables: plain own values *)
Definition plain_vars (c : cfg) (es1 es2 : estate) (xs : list string) : Prop :=
  reachable (c_fl c) (es_defs es2) /\ st_frozen (es_defs es2) = false /\
  forall x, In x xs -> x <> ""%string /\ own_plain (es_defs es1) x /\ own_plain (es_defs es2) x.

Lemma back c es1 es2 xs : plain_vars c es1 es2 xs ->
  exists es3, restores c es2 xs (map (get_sym_def (es_defs es1)) xs) es3 /\ given_back es1 es2 es3 xs /\ es_thrown es3 = es_thrown es2.
Proof.
  intros (R & F & H). destruct (restores_exist c (get_sym_def (es_defs es1)) xs es2 R F) as (es3 & K1 & K2 & K3 & K4).
  - intros x I1. destruct (H x I1) as (N & O1 & O2). split; [exact N|]. split; [exact O2|].
    destruct (get_sym_def (es_defs es1) x) eqn:E; [|exact I]. exact (own_value es1 x e O1 E).
  - exists es3. split; [exact K1|]. split; [split; assumption|exact K4].
Qed.

Theorem C40_table_partial : forall c es body specs xs vss es1 rs es2, cfg_mono c ->
  is_system es "Table" iter_attrs -> specs <> [] -> Forall ordinary_arg (body :: specs) ->
  iterators c es specs xs vss es1 -> table_rounds c xs body es1 (product vss) rs es2 ->
  plain_vars c es1 es2 xs ->
  hash_ok (fn "Table" (body :: specs)) -> no_clash (fn "Table" (body :: specs)) (mkList rs) ->
  exists es3, given_back es1 es2 es3 xs /\
    forall v es4, evals_to c es3 (mkList rs) v es4 -> evals_to c es (fn "Table" (body :: specs)) v es4.
Proof.
  intros c es body specs xs vss es1 rs es2 Hc S NE O HI HR PV Hz NC. destruct (back c es1 es2 xs PV) as (es3 & RS & G & _).
  exists es3. split; [exact G|]. intros v es4 EV. exact (C39_table c es body specs xs vss es1 rs es2 es3 v es4 Hc S NE O HI HR RS Hz NC EV).
Qed.
Print Assumptions C40_table_partial.
Theorem C40_sum_partial : forall c es body specs xs vss es1 res es2, cfg_mono c ->
  is_system es "Sum" fold_attrs -> specs <> [] -> Forall ordinary_arg (body :: specs) ->
  iterators c es specs xs vss es1 -> fold_rounds c "Plus" xs body es1 (product vss) (EInt 0) res es2 ->
  plain_vars c es1 es2 xs ->
  hash_ok (fn "Sum" (body :: specs)) -> no_clash (fn "Sum" (body :: specs)) res ->
  exists es3, given_back es1 es2 es3 xs /\
    forall v es4, evals_to c es3 res v es4 -> evals_to c es (fn "Sum" (body :: specs)) v es4.
Proof.
  intros c es body specs xs vss es1 res es2 Hc S NE O HI HR PV Hz NC. destruct (back c es1 es2 xs PV) as (es3 & RS & G & _).
  exists es3. split; [exact G|]. intros v es4 EV. exact (C39_sum c es body specs xs vss es1 res es2 es3 v es4 Hc S NE O HI HR RS Hz NC EV).
Qed.
Print Assumptions C40_sum_partial.
Theorem C40_do_partial : forall c es body specs xs vss es1 es2, cfg_mono c ->
  is_system es "Do" iter_attrs -> specs <> [] -> Forall ordinary_arg (body :: specs) ->
  iterators c es specs xs vss es1 -> do_rounds c xs body es1 (product vss) es2 ->
  plain_vars c es1 es2 xs -> no_value es2 (sysname "Null") -> ~ In (sysname "Null") xs ->
  hash_ok (fn "Do" (body :: specs)) -> hash sNull <> hash (fn "Do" (body :: specs)) ->
  exists es3, given_back es1 es2 es3 xs /\ evals_to c es (fn "Do" (body :: specs)) sNull es3.
Proof.
  intros c es body specs xs vss es1 es2 Hc S NE O HI HR PV NV NI Hz NC. destruct (back c es1 es2 xs PV) as (es3 & RS & G & _).
  exists es3. split; [exact G|]. apply (C39_do c es body specs xs vss es1 es2 es3 Hc S NE O HI HR RS Hz NC).
  unfold no_value in *. rewrite get_rules, (proj2 G _ NI), <- get_rules. exact NV.
Qed.
Print Assumptions C40_do_partial.

(* A Do left by Return[v]: the value is v, and the state is the one in which the
   body was left: nothing is given back. *)
Theorem C40_do_return_refuted : forall c es body specs xs vss es1 v es2 w es3, cfg_mono c ->
  is_system es "Do" iter_attrs -> specs <> [] -> Forall ordinary_arg (body :: specs) ->
  iterators c es specs xs vss es1 -> do_returns c xs body es1 (product vss) v es2 ->
  hash_ok (fn "Do" (body :: specs)) -> no_clash (fn "Do" (body :: specs)) v ->
  evals_to c es2 v w es3 -> evals_to c es (fn "Do" (body :: specs)) w es3.
Proof.
  intros c es body specs xs vss es1 v es2 w es3 Hc S NE O HI HR Hz NC EV.
  apply (evals_next c es (sys "Do" :: body :: specs) v es2 w es3 Hc Hz NC); [|exact EV].
  apply (held_pass c es (sysname "Do") iter_attrs (body :: specs) (do_fn c)); auto; try (apply iter_not; discriminate).
  - left; reflexivity.
  - apply NC.
  - apply (frame_stop c sNull _ (fun x => x) (ESym (sysname "Do")) es body specs xs vss es1 v es2 Hc NE HI).
    clear - HR Hc. induction HR as [e t ts e1 v rest e2 A E T|e t ts e1 r e2 v e3 A E R NR _ IH].
    + apply (LS_here _ _ _ e t ts e1 sNull v e2 A).
      destruct (evals_large c _ _ _ _ Hc E) as [n Hn]. exists n. intros m Hm. rewrite (Hn m Hm). cbn [obind]. rewrite T. reflexivity.
    + apply (LS_later _ _ _ e t ts e1 sNull sNull e2 v e3 A); auto.
      destruct (evals_large c _ _ _ _ Hc E) as [n Hn]. exists n. intros m Hm. rewrite (Hn m Hm). cbn [obind].
      rewrite (proj2 (proj2 (proj1 R))). rewrite (not_return r NR). reflexivity.
Qed.
Print Assumptions C40_do_return_refuted.
(* u is 7; after Do[Return[5], {u, 3}] it is 1.  The same for a Throw. *)
Theorem C40_early_exit_refuted :
  get_sym_def (es_defs es_it) "Global`u" = Some (EInt 7) /\
  (exists es', evals_to c0 es_it (fn "Do" [fn "Return" [EInt 5]; mkList [gl "u"; EInt 3]]) (EInt 5) es' /\
     get_sym_def (es_defs es') "Global`u" = Some (EInt 1)) /\
  (exists es', evals_to c0 es_it (fn "Catch" [fn "Do" [fn "Throw" [EInt 5]; mkList [gl "u"; EInt 3]]]) (EInt 5) es' /\
     get_sym_def (es_defs es') "Global`u" = Some (EInt 1)).
Proof.
  split; [vm_compute; reflexivity|]. split; eexists; (split; [exists 60; vm_compute; reflexivity|vm_compute; reflexivity]).
Qed.
Print Assumptions C40_early_exit_refuted.
(* A variable without own value is restored with Clear: w[1] = 2 and the
   attribute Flat of w are gone after Table[w, {w, 2}]. *)
Theorem C40_clear_refuted :
  rules_of (es_defs es_it) "Global`w" = [DVal (held (uf "w" [EInt 1])) (EInt 2) 0] /\
  exists es', evals_to c0 es_it (fn "Table" [gl "w"; mkList [gl "w"; EInt 2]]) (mkList [EInt 1; EInt 2]) es' /\
    rules_of (es_defs es') "Global`w" = [] /\ sym_attrs es_it "Global`w" = strings_to_attributes ["Flat"]%string /\
    sym_attrs es' "Global`w" = no_attrs.
Proof.
  split; [vm_compute; reflexivity|]. eexists; (split; [exists 60; vm_compute; reflexivity|]). repeat split; vm_compute; reflexivity.
Qed.
Print Assumptions C40_clear_refuted.

(* the hypotheses of C40_table_partial hold: u is 7, Table[u, {u, 2}] *)
Definition base_it : state :=
  State (map (fun '(n, d) => (n, Def [] (d_attrs d) (d_default d) (d_builtin d))) (st_defs (es_defs es_it))) false.
Lemma base_reachable : reachable (c_fl c0) base_it.
Proof.
  apply R_init. intro s. unfold rules_of, base_it, lookup. cbn [st_defs].
  induction (st_defs (es_defs es_it)) as [|[n d] t IH]; [reflexivity|]. cbn [map assoc].
  destruct (String.eqb n s); [reflexivity|exact IH].
Qed.
Definition def_u (st : state) (z : Z) : state :=
  match define (c_fl c0) st (ESym "Global`u") (EInt z) with Some d => d | None => st end.
Definition es_u : estate := with_defs es_it (def_u base_it 7).
Definition es_u1 : estate := with_defs es_it (def_u (es_defs es_u) 1).
Definition es_u2 : estate := with_defs es_it (def_u (es_defs es_u1) 2).
Lemma def_u_reach st z : reachable (c_fl c0) st -> reachable (c_fl c0) (def_u st z).
Proof.
  intro R. unfold def_u. destruct (define (c_fl c0) st (ESym "Global`u") (EInt z)) eqn:E; [|exact R].
  eapply R_step; [exact R|]. eapply St_define; [|exact E]. discriminate.
Qed.
Example C40_table_hyps : exists es3, get_sym_def (es_defs es3) "Global`u" = Some (EInt 7) /\
  forall v es4, evals_to c0 es3 (mkList [EInt 1; EInt 2]) v es4 -> evals_to c0 es_u (fn "Table" [gl "u"; mkList [gl "u"; EInt 2]]) v es4.
Proof.
  assert (AR0 : arith_ready es_u) by (split; (split; [eexists; split; [vm_compute; reflexivity|split; reflexivity]|split; vm_compute; reflexivity])).
  assert (AR1 : arith_ready es_u1) by (split; (split; [eexists; split; [vm_compute; reflexivity|split; reflexivity]|split; vm_compute; reflexivity])).
  assert (AR2 : arith_ready es_u2) by (split; (split; [eexists; split; [vm_compute; reflexivity|split; reflexivity]|split; vm_compute; reflexivity])).
  assert (ru : rules_of (es_defs es_u) "Global`u" = [DVal (held (gl "u")) (EInt 7) 0]) by (vm_compute; reflexivity).
  assert (ru2 : rules_of (es_defs es_u2) "Global`u" = [DVal (held (gl "u")) (EInt 2) 0]) by (vm_compute; reflexivity).
  assert (UI : forall z, unconditional (EInt z)).
  { intro z. split; [intros [l E]; discriminate E|]. intros h x b _ E. discriminate E. }
  destruct (C40_table_partial c0 es_u (gl "u") [mkList [gl "u"; EInt 2]] ["Global`u"%string] [[EInt 1; EInt 2]] es_u [EInt 1; EInt 2] es_u2 c0_mono)
    as (es3 & G & E).
  - eexists; split; [vm_compute; reflexivity|split; reflexivity].
  - discriminate.
  - repeat constructor; not_headed.
  - apply (IT_cons c0 es_u "Global`u"%string [EInt 2] [EInt 2] es_u [EInt 1; EInt 2]).
    + apply (EL_cons _ _ _ _ es_u); [apply value_int|constructor].
    + apply IV_max; [split; [reflexivity|intro j; cbn [length]; lia]|].
      split; [quiet_tac|]. split; [quiet_tac|]. split; [hok|]. intros [|[|j]] L; cbn [length] in L; try lia; quiet_tac.
    + exact AR0.
    + constructor.
  - cbn [product flat_map map app].
    apply (TR_cons _ _ _ es_u [EInt 1] _ es_u1 (EInt 1) es_u1); [apply (AS_cons _ _ _ _ (def_u (es_defs es_u) 1)); [vm_compute; reflexivity|constructor]|exists 5; vm_compute; reflexivity|exact AR1|].
    apply (TR_cons _ _ _ es_u1 [EInt 2] _ es_u2 (EInt 2) es_u2); [apply (AS_cons _ _ _ _ (def_u (es_defs es_u1) 2)); [vm_compute; reflexivity|constructor]|exists 5; vm_compute; reflexivity|exact AR2|].
    constructor.
  - split; [|split].
    + change (reachable (c_fl c0) (def_u (def_u (def_u base_it 7) 1) 2)). repeat apply def_u_reach. apply base_reachable.
    + vm_compute; reflexivity.
    + intros x [<-|[]]. split; [discriminate|]. split; intros d I1.
      * rewrite ru in I1. destruct I1 as [<-|[]]. cbn [dv_lhs dv_rhs]. split; [reflexivity|intros _; apply UI].
      * rewrite ru2 in I1. destruct I1 as [<-|[]]. cbn [dv_lhs dv_rhs]. split; [reflexivity|intros _; apply UI].
  - hok.
  - split; hok.
  - exists es3. split.
    + destruct G as [G _]. rewrite (G _ (or_introl eq_refl)). vm_compute. reflexivity.
    + exact E.
Qed.
