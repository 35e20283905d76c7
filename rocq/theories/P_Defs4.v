(* Module freshness, input history, concurrent definitions. *)
From Verif Require Import M_Syntax M_Float M_Hash M_Match M_Defs M_Conc S_Defs P_Hash P_Defs P_Defs3.
From Coq Require Import Sorted Permutation.
Open Scope nat_scope.

(* ---- definedness never goes away *)
Definition grows (st st' : state) : Prop := forall m, is_def st m = true -> is_def st' m = true.
Lemma grows_refl st : grows st st. Proof. intros m H; exact H. Qed.
Lemma grows_trans a b c : grows a b -> grows b c -> grows a c. Proof. intros H1 H2 m H. auto. Qed.
Lemma is_def_set st n d m : is_def (set_def st n d) m = true <-> m = n \/ is_def st m = true.
Proof.
  unfold is_def. destruct (String.eqb_spec m n) as [->|N].
  - rewrite lookup_set_same. tauto.
  - rewrite lookup_set_other by exact N. tauto.
Qed.
Lemma grows_set st n d : grows st (set_def st n d).
Proof. intros m H. apply is_def_set. auto. Qed.
Lemma define_grows fl st lhs rhs st' : define fl st lhs rhs = Some st' -> grows st st'.
Proof.
  intro H. destruct (st_frozen st) eqn:F.
  { rewrite define_frozen in H by exact F. injection H as <-. apply grows_refl. }
  apply define_cases in H; [|exact F].
  destruct H as [(s & R & ->)|[(s & -> & ->)|[(s & -> & ->)|(-> & _)]]].
  - apply grows_set.
  - destruct (define_attrs_shape st s rhs) as [->|(ss & ->)]; [apply grows_refl|apply grows_set].
  - destruct (define_dv_shape st s rhs) as [->|(ss & ->)]; [apply grows_refl|apply grows_set].
  - apply grows_refl.
Qed.
Lemma step_grows fl st st' : step fl st st' -> grows st st'.
Proof.
  destruct 1 as [st lhs rhs st' ND H|st s|st s|st b|st s r L].
  - eapply define_grows; eauto.
  - unfold clear. destruct (lookup st s); [apply grows_set|apply grows_refl].
  - unfold mark_seen. destruct (lookup st s); [apply grows_refl|apply grows_set].
  - intros m H. exact H.
  - apply grows_set.
Qed.

(* ---- $ModuleNumber *)
Definition mn_state (st : state) (z : Z) : Prop :=
  st_frozen st = false /\ exists sp, rules_of st nModuleNumber = [DVal (held (ESym nModuleNumber)) (EInt z) sp].
Lemma rule_lhs_sym s : s <> ""%string -> rule_lhs (ESym s) s.
Proof. intro H. split; [now constructor|]. split; intros t X; discriminate X. Qed.
Lemma nMN_ne : nModuleNumber <> ""%string. Proof. intro H. discriminate H. Qed.

Lemma same_rule_var s v w sp : mask_non_conditional v = mask_non_conditional w ->
  same_rule (held (ESym s)) w (DVal (held (ESym s)) v sp) = true.
Proof.
  intro H. unfold same_rule. cbn [dv_lhs dv_rhs]. rewrite H, !sameq_refl. reflexivity.
Qed.

Lemma mn_get st z : mn_state st z -> get_sym_def st nModuleNumber = Some (EInt z).
Proof.
  intros (_ & sp & H). unfold get_sym_def, rules_of in *. destruct (lookup st nModuleNumber) as [d|]; [|discriminate H].
  rewrite H. reflexivity.
Qed.
Lemma mn_define fl st z w : mn_state st z ->
  exists st', define fl st (ESym nModuleNumber) (EInt w) = Some st' /\ mn_state st' w /\
    (forall m, m <> nModuleNumber -> lookup st' m = lookup st m) /\ grows st st'.
Proof.
  intros (F & sp & H).
  rewrite (define_rule_lhs fl st (ESym nModuleNumber) (EInt w) nModuleNumber F (rule_lhs_sym _ nMN_ne)).
  eexists. split; [reflexivity|]. split; [|split].
  - split; [exact F|]. rewrite rules_set_same. unfold rules_of in H. destruct (lookup st nModuleNumber) as [d|]; [|discriminate H].
    cbn [new_def d_dvs]. rewrite H. unfold define_rule. cbn [overwrite].
    rewrite (same_rule_var nModuleNumber (EInt z) (EInt w) sp eq_refl). exists sp. reflexivity.
  - intros m N. now apply lookup_set_other.
  - apply grows_set.
Qed.

Definition in64 (z : Z) : Prop := (- 2 ^ 63 <= z < 2 ^ 63)%Z.
Lemma wrap64_id z : in64 z -> wrap64 z = z.
Proof. unfold in64, wrap64. intro H. rewrite Z.mod_small; lia. Qed.

Lemma snag_unique_some fl fuel st b u st' : snag_unique fl fuel st b = Some (Some (u, st')) ->
  is_def st u = false /\ grows st st' /\ exists mn, u = uname b mn.
Proof.
  unfold snag_unique. destruct (get_sym_def st nModuleNumber) as [[ | |z| | | | ]|]; try discriminate.
  destruct (snag_loop fuel st b (wrap64 z)) as [mn|] eqn:E; [|discriminate].
  destruct (define fl st (ESym nModuleNumber) (EInt (mn + 1))) as [s1|] eqn:D; [|discriminate].
  intro H. injection H as <- <-. apply snag_loop_some in E. destruct E as (E & _ & _).
  split; [exact E|]. split; [eapply define_grows; eauto|]. now exists mn.
Qed.

Lemma snag_all_some fl fuel : forall ls st us st', snag_all fl fuel st ls = Some (Some (us, st')) ->
  length us = length ls /\ grows st st' /\ Forall (fun u => is_def st u = false) us.
Proof.
  induction ls as [|l t IH]; intros st us st' H; cbn [snag_all] in H.
  - injection H as <- <-. repeat split; [apply grows_refl|constructor].
  - destruct (snag_unique fl fuel st (local_sym l)) as [[[u s1]|]|] eqn:E; try discriminate.
    destruct (snag_all fl fuel s1 t) as [[[us1 s2]|]|] eqn:F; try discriminate.
    injection H as <- <-. apply snag_unique_some in E. destruct E as (U & G & _).
    apply IH in F. destruct F as (L & G2 & A). split; [cbn; now rewrite L|]. split; [eapply grows_trans; eauto|].
    constructor; [exact U|]. eapply Forall_impl; [|exact A]. intros x Hx. destruct (is_def st x) eqn:D; [|reflexivity].
    apply G in D. congruence.
Qed.

(* pairwise distinct names; $ModuleNumber increases *)
Lemma snag_all_mn fl fuel : forall ls st z, mn_state st z -> in64 z -> length (st_defs st) < fuel ->
  (z + Z.of_nat (length ls) * Z.of_nat (S (length (st_defs st))) < 2 ^ 63)%Z ->
  exists us st' z', snag_all fl fuel st ls = Some (Some (us, st')) /\ mn_state st' z' /\
    (z + Z.of_nat (length ls) <= z')%Z /\ length (st_defs st') = length (st_defs st) /\
    NoDup us /\ Forall (fun u => exists b mn, u = uname b mn /\ (z <= mn)%Z) us.
Proof.
  induction ls as [|l t IH]; intros st z M I64 FU B; cbn [snag_all].
  - exists [], st, z. cbn [length]. split; [reflexivity|]. split; [exact M|]. split; [lia|]. split; [reflexivity|].
    split; constructor.
  - unfold snag_unique. rewrite (mn_get st z M), (wrap64_id z I64).
    destruct (snag_loop_total fuel st (local_sym l) z FU) as [mn E]. rewrite E.
    pose proof (snag_loop_some _ _ _ _ _ E) as (U & LE & BEF).
    assert (mn <= z + Z.of_nat (length (st_defs st)))%Z as UB.
    { destruct (Z_le_gt_dec mn (z + Z.of_nat (length (st_defs st)))) as [H|H]; [exact H|exfalso].
      assert (length (map (fun i => uname (local_sym l) (z + Z.of_nat i)) (seq 0 (S (length (st_defs st))))) <= length (map fst (st_defs st))) as X.
      { apply NoDup_incl_length.
        - apply nodup_map_inj; [|apply seq_NoDup]. intros x y Q. apply uname_inj in Q. lia.
        - intros w J. apply in_map_iff in J. destruct J as (i & <- & J). apply in_seq in J.
          apply is_def_in. apply BEF. lia. }
      rewrite !map_length, seq_length in X. lia. }
    destruct (mn_define fl st z (mn + 1)%Z M) as (s1 & D & M1 & FR & G). rewrite D.
    assert (length (st_defs s1) = length (st_defs st)) as LEN.
    { destruct M as (F & sp & R). rewrite (define_rule_lhs fl st _ _ nModuleNumber F (rule_lhs_sym _ nMN_ne)) in D.
      injection D as <-. unfold rules_of, lookup in R. cbn [set_def st_defs].
      assert (G2 : forall (L : list (string * def)) d x, assoc L nModuleNumber = Some x -> length (assoc_set L nModuleNumber d) = length L).
      { clear. induction L as [|[k v] t IH]; intros d x H; [discriminate H|]. cbn [assoc assoc_set] in *.
        destruct (String.eqb k nModuleNumber); cbn [length]; [reflexivity|]. now rewrite (IH d x H). }
      unfold lookup. destruct (assoc (st_defs st) nModuleNumber) as [x|] eqn:Q; [|discriminate R]. eapply G2; eauto. }
    cbn [length] in B. rewrite Nat2Z.inj_succ in B.
    assert (P1 : length (st_defs s1) < fuel) by lia.
    destruct (IH s1 (mn + 1)%Z M1) as (us & s2 & z' & E2 & M2 & LE2 & LEN2 & ND & FA).
    { unfold in64 in *. nia. }
    { exact P1. }
    { rewrite LEN. nia. }
    rewrite E2. exists (uname (local_sym l) mn :: us), s2, z'. split; [reflexivity|].
    split; [exact M2|]. split; [cbn [length]; lia|]. split; [lia|]. split.
    + constructor; [|exact ND]. intro J. rewrite Forall_forall in FA. apply FA in J.
      destruct J as (b & m2 & Q & LE3). apply uname_inj in Q. lia.
    + constructor; [exists (local_sym l), mn; split; [reflexivity|lia]|].
      eapply Forall_impl; [|exact FA]. intros u (b & m2 & Q & LE3). exists b, m2. split; [exact Q|lia].
Qed.

Lemma init_locals_grows ev : (forall st e, grows st (snd (ev st e))) ->
  forall ls st, grows st (init_locals ev st ls) /\ Forall (fun p => is_def (init_locals ev st ls) (snd p) = true) ls.
Proof.
  intros EV. induction ls as [|[l u] t IH]; intro st; cbn [init_locals].
  - split; [apply grows_refl|constructor].
  - assert (exists d st1, grows st st1 /\
      init_locals ev st ((l, u) :: t) = init_locals ev (set_def st1 u d) t) as (d & st1 & G & EQ).
    { cbn [init_locals]. destruct l as [s|s v|s v].
      - exists def0, st. split; [apply grows_refl|reflexivity].
      - specialize (EV st v). destruct (ev st v) as [r st1]. cbn [snd] in EV. eexists _, st1. split; [exact EV|reflexivity].
      - eexists _, st. split; [apply grows_refl|reflexivity]. }
    cbn [init_locals] in EQ. rewrite EQ. destruct (IH (set_def st1 u d)) as [G2 F2].
    split.
    + eapply grows_trans; [exact G|]. eapply grows_trans; [apply grows_set|exact G2].
    + constructor; [|exact F2]. cbn [snd]. apply G2. apply is_def_set. now left.
Qed.

(* ---- concurrency *)
Definition done_def fl (t : task) (o : option def) : def := new_def fl (tk_name t) (tk_lhs t) (tk_rhs t) o.

(* what a thread's private state must look like when only it touches its name *)
Definition tinv fl (st0 st : state) (tp : task * pc) : Prop :=
  let '(t, p) := tp in
  match p with
  | PStart => lookup st (tk_name t) = lookup st0 (tk_name t)
  | PNew => lookup st0 (tk_name t) = None /\ lookup st (tk_name t) = None
  | PRead => exists d, lookup st0 (tk_name t) = Some d /\ lookup st (tk_name t) = Some d /\
               overwrite (held (tk_lhs t)) (tk_rhs t) (d_dvs d) = None
  | PWrite snap => lookup st0 (tk_name t) = Some snap /\ overwrite (held (tk_lhs t)) (tk_rhs t) (d_dvs snap) = None
  | PDone => lookup st (tk_name t) = Some (done_def fl t (lookup st0 (tk_name t)))
  end.

Lemma tstep_tinv fl st0 st t p st' p' : tinv fl st0 st (t, p) -> tstep fl st t p = (st', p') ->
  tinv fl st0 st' (t, p') /\ forall m, m <> tk_name t -> lookup st' m = lookup st m.
Proof.
  intros I H. destruct p as [| | |snap|]; cbn [tinv tstep] in *.
  - rewrite I in H. destruct (lookup st0 (tk_name t)) as [d|] eqn:L.
    + destruct (overwrite _ _ _) as [l'|] eqn:O; injection H as <- <-; cbn [tinv].
      * rewrite lookup_set_same, ?L. split; [|intros; now apply lookup_set_other].
        cbn [done_def new_def]. unfold define_rule. rewrite O. reflexivity.
      * split; [|auto]. exists d. rewrite I. auto.
    + injection H as <- <-. cbn [tinv]. rewrite I, ?L. auto.
  - destruct I as [I0 I1]. injection H as <- <-. cbn [tinv]. rewrite lookup_set_same, I0.
    split; [reflexivity|]. intros; now apply lookup_set_other.
  - destruct I as (d & I0 & I1 & O). rewrite I1 in H. injection H as <- <-. cbn [tinv]. auto.
  - destruct I as (I0 & O). injection H as <- <-. cbn [tinv]. rewrite lookup_set_same, I0.
    split; [|intros; now apply lookup_set_other]. unfold done_def, new_def, define_rule, write_def. now rewrite O.
  - injection H as <- <-. cbn [tinv]. auto.
Qed.

Lemma tinv_frame fl st0 st st' tp : lookup st' (tk_name (fst tp)) = lookup st (tk_name (fst tp)) ->
  tinv fl st0 st tp -> tinv fl st0 st' tp.
Proof. destruct tp as [t p]. cbn [fst]. intros E. destruct p; cbn [tinv]; rewrite ?E; auto. Qed.

Lemma cstep_inv fl st0 c c' : cstep fl c c' -> NoDup (map (fun tp => tk_name (fst tp)) (snd c)) ->
  Forall (tinv fl st0 (fst c)) (snd c) ->
  Forall (tinv fl st0 (fst c')) (snd c') /\ map (fun tp => fst tp) (snd c') = map (fun tp => fst tp) (snd c) /\
  (forall m, ~ In m (map (fun tp => tk_name (fst tp)) (snd c)) -> lookup (fst c') m = lookup (fst c) m).
Proof.
  intros S ND F. destruct S as [st ts1 t p ts2 st' p' T NP]. cbn [fst snd] in *.
  apply Forall_app in F. destruct F as [F1 F2]. inversion F2 as [|? ? Ft F3]; subst.
  destruct (tstep_tinv _ _ _ _ _ _ _ Ft T) as [It Fr].
  rewrite map_app in ND. cbn [map fst] in ND. apply NoDup_remove_2 in ND.
  assert (G : forall tp, In tp ts1 \/ In tp ts2 -> tk_name (fst tp) <> tk_name t).
  { intros tp H E. apply ND. rewrite <- map_app. rewrite <- E.
    apply (in_map (fun tp => tk_name (fst tp))). apply in_or_app. exact H. }
  split; [|split].
  - apply Forall_app. split; [|constructor; [exact It|]].
    + rewrite Forall_forall in *. intros tp H. eapply tinv_frame; [|apply F1; exact H]. apply Fr. auto.
    + rewrite Forall_forall in *. intros tp H. eapply tinv_frame; [|apply F3; exact H]. apply Fr. auto.
  - rewrite !map_app. reflexivity.
  - intros m H. apply Fr. intros ->. apply H. rewrite map_app. cbn [map fst]. apply in_or_app. right. now left.
Qed.

Lemma csteps_inv fl st0 c c' : csteps fl c c' -> NoDup (map (fun tp => tk_name (fst tp)) (snd c)) ->
  Forall (tinv fl st0 (fst c)) (snd c) ->
  Forall (tinv fl st0 (fst c')) (snd c') /\ map (fun tp => fst tp) (snd c') = map (fun tp => fst tp) (snd c) /\
  (forall m, ~ In m (map (fun tp => tk_name (fst tp)) (snd c)) -> lookup (fst c') m = lookup (fst c) m).
Proof.
  induction 1 as [c|c1 c2 c3 S _ IH]; intros ND F.
  - auto.
  - destruct (cstep_inv fl st0 _ _ S ND F) as (F2 & M2 & L2).
    assert (map (fun tp => tk_name (fst tp)) (snd c2) = map (fun tp => tk_name (fst tp)) (snd c1)) as E.
    { rewrite <- !(map_map (fun tp => fst tp) tk_name). now rewrite M2. }
    destruct IH as (F3 & M3 & L3); [rewrite E; exact ND|exact F2|].
    split; [exact F3|]. split; [congruence|]. intros m H. rewrite L3 by (rewrite E; exact H). auto.
Qed.

(* ---- C52: one rule per line *)
Lemma define_fun_rule fl st h k rhs : st_frozen st = false -> h <> "Attributes"%string -> h <> "DownValues"%string ->
  define fl st (hist_lhs h k) rhs = Some (set_def st (sysname h) (new_def fl (sysname h) (hist_lhs h k) rhs (lookup st (sysname h)))).
Proof.
  intros F N1 N2. apply define_rule_lhs; [exact F|]. unfold hist_lhs, sys. 
  assert (sysname h <> sysname "Attributes") as X1 by (unfold sysname; cbn [append]; congruence).
  assert (sysname h <> sysname "DownValues") as X2 by (unfold sysname; cbn [append]; congruence).
  split; [apply T_fun; auto; discriminate|].
  split; intros t X; injection X as X; [apply X1|apply X2]; unfold sysname; cbn [append]; congruence.
Qed.
