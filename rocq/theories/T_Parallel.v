(* Property theorems: ParallelTable under every schedule (C91). *)
From Verif Require Import M_Syntax M_Float M_Hash M_Num M_Arith M_Compare M_Match M_Defs M_Eval M_Parallel S_Match S_Eval S_Call S_Iter S_Parallel P_Hash P_MatchFuel P_MatchNames P_Eval P_Eval2 P_Eval3 P_Eval4 P_Iter T_Match T_Eval T_Eval3 T_Eval4 T_Iter T_Eval5 T_Call.
Open Scope nat_scope.

(* ---- the steps of a goroutine are the iterations of the evaluator ---- *)
Definition resume (c : cfg) (n : nat) (es : estate) (t : thread) : outcome (ex * estate) :=
  match t with TEval e => run c n None es e | TLoop last ins e => run c n (Some (last, ins)) es e | TDone v => Ret (v, es) end.
Lemma resume_mono c n m es t x : cfg_mono c -> n <= m -> resume c n es t = Ret x -> resume c m es t = Ret x.
Proof.
  intros Hc Hm H. destruct t as [e|last ins e|v]; cbn [resume] in *; [| |exact H];
    (edestruct (run_mono c n m Hc Hm) as [K|K]; [rewrite K in H; discriminate H|rewrite <- K; exact H]).
Qed.
Lemma expr_or_atom e : (exists l, e = EExpr l) \/ is_expr e = false.
Proof. destruct e; [right|right|right|right|right|right|left]; try reflexivity. eexists. reflexivity. Qed.
Lemma advance_atom c k es e : is_expr e = false -> advance c k es (TEval e) = obind (run c (S k) None es e) (fun '(v, es1) => Ret (TDone v, es1)).
Proof. destruct e; try reflexivity. discriminate. Qed.
Lemma advance_loop_atom c k es last ins e : is_expr e = false -> N.eqb (hash e) last = false -> advance c k es (TLoop last ins e) = Ret (TEval e, es).
Proof. intros H Q. cbn [advance]. rewrite Q. destruct e; try reflexivity. discriminate. Qed.
Lemma run_loop_atom c k es last ins e : is_expr e = false -> N.eqb (hash e) last = false -> run c (S k) (Some (last, ins)) es e = run c k None es e.
Proof. intros H Q. cbn [run]. rewrite Q. destruct e; try reflexivity. discriminate. Qed.
Lemma advance_mono c n m es t x : cfg_mono c -> n <= m -> advance c n es t = Ret x -> advance c m es t = Ret x.
Proof.
  intros Hc Hm H. destruct t as [e|last ins e|v]; cbn [advance] in *; [| |exact H].
  - destruct e; try exact H;
    (match goal with |- obind (run c (S m) None ?s ?y) _ = _ =>
       destruct (run_mono c (S n) (S m) Hc (le_n_S _ _ Hm) None s y) as [K|K]; rewrite K in *; [discriminate H|exact H] end).
  - destruct (N.eqb (hash e) last); [exact H|]. destruct e as [s|s|z|p q|f|re im|l]; try exact H.
    destruct (if ins then return_value (EExpr l) else None); [exact H|].
    destruct (pass_mono c n m (run c n None) (run c m None) es l Hc Hm) as [K|K].
    + intros es' e'. apply run_mono; assumption.
    + rewrite K in H. discriminate H.
    + rewrite <- K. exact H.
Qed.
(* one step and then the rest is the whole evaluation *)
Lemma advance_resume c k es t t' es' x : cfg_mono c -> advance c k es t = Ret (t', es') -> resume c k es' t' = Ret x ->
  exists n, resume c n es t = Ret x.
Proof.
  intros Hc A H. destruct t as [e|last ins e|v]; cbn [advance] in A.
  - destruct (expr_or_atom e) as [[l ->]|Ha].
    + injection A as <- <-. exists (S k). exact H.
    + change (advance c k es (TEval e) = Ret (t', es')) in A. rewrite (advance_atom c k es e Ha) in A.
      destruct (run c (S k) None es e) as [[v es1]| |] eqn:R; try discriminate A.
      cbn [obind] in A. injection A as <- <-. exists (S k). exact (eq_trans R H).
  - exists (S k). cbn [resume run]. destruct (N.eqb (hash e) last); [injection A as <- <-; exact H|].
    destruct e as [s|s|z|p q|f|re im|l]; try (injection A as <- <-; exact H).
    destruct (if ins then return_value (EExpr l) else None); [injection A as <- <-; exact H|].
    set (h := hash (EExpr l)) in *. clearbody h.
    destruct (pass c k (run c k None) es l) as [[[v|[e' b]] es1]| |]; cbn [obind] in *; try discriminate A; injection A as <- <-; exact H.
  - injection A as <- <-. exists k. exact H.
Qed.
Theorem C91_goroutine_is_eval : forall c es e v es', cfg_mono c ->
  psteps c (es, [TEval e]) (es', [TDone v]) <-> evals_to c es e v es'.
Proof.
  intros c es e v es' Hc. split.
  - intro H. enough (G : forall t, psteps c (es, [t]) (es', [TDone v]) -> exists n, resume c n es t = Ret (v, es')) by (apply (G (TEval e) H)).
    clear H. intros t H. remember (es, [t]) as s1 eqn:E1. remember (es', [TDone v]) as s2 eqn:E2. revert es t E1.
    induction H as [s|s1 s2 s3 H _ IH]; intros es t ->.
    + injection E2 as -> ->. exists 0. reflexivity.
    + remember (es, [t]) as s0 eqn:E0. destruct H as [k es0 ts1 t0 ts2 es1 t' F A]. injection E0 as -> Q1.
      destruct ts1 as [|a ts1]; [|destruct ts1; discriminate Q1].
      cbn [app] in Q1. injection Q1 as -> ->. destruct (IH E2 es1 t' eq_refl) as [n R].
      apply (advance_resume c (k + n) es t t' es1); [exact Hc| |].
      * apply (advance_mono c k); [exact Hc|lia|exact A].
      * apply (resume_mono c n); [exact Hc|lia|exact R].
  - intros [n R]. enough (G : forall n es t, resume c n es t = Ret (v, es') -> psteps c (es, [t]) (es', [TDone v])) by (apply (G n es (TEval e) R)).
    clear n e es R. induction n as [|k IH]; intros es t R.
    + destruct t as [e|last ins e|w]; try discriminate R. injection R as -> ->. apply PS_refl.
    + assert (St : forall t1 es1, finished_thread t = false -> advance c k es t = Ret (t1, es1) -> resume c k es1 t1 = Ret (v, es') -> psteps c (es, [t]) (es', [TDone v])).
      { intros t1 es1 F A Q. apply (PS_step c _ (es1, [t1])); [apply (PStep c k es [] t [] es1 t1 F A)|apply IH, Q]. }
      destruct t as [e|last ins e|w]; [| |injection R as -> ->; apply PS_refl].
      * destruct (expr_or_atom e) as [[l ->]|Ha].
        { apply (St (TLoop 0 false (EExpr l)) es); [reflexivity|reflexivity|exact R]. }
        apply (St (TDone v) es'); [reflexivity| |reflexivity]. rewrite (advance_atom c k es e Ha). cbn [resume] in R. rewrite R. reflexivity.
      * pose proof R as R0. cbn [resume] in R0. cbn [resume run] in R. destruct (N.eqb (hash e) last) eqn:Q.
        { injection R as -> ->. apply (St (TDone v) es'); [reflexivity|cbn [advance]; rewrite Q; reflexivity|reflexivity]. }
        destruct (expr_or_atom e) as [[l ->]|Ha].
        { destruct (if ins then return_value (EExpr l) else None) as [w|] eqn:V.
            - injection R as -> ->. apply (St (TDone v) es'); [reflexivity|cbn [advance]; rewrite Q, V; reflexivity|reflexivity].
            - destruct (pass c k (run c k None) es l) as [[[w|[e' b]] es1]| |] eqn:P; cbn [obind] in R; try discriminate R.
              + injection R as -> ->. apply (St (TDone v) es'); [reflexivity|cbn [advance]; rewrite Q, V, P; reflexivity|reflexivity].
              + apply (St (TLoop (hash (EExpr l)) (ins || b) e') es1); [reflexivity|cbn [advance]; rewrite Q, V, P; reflexivity|exact R]. }
        apply (St (TEval e) es); [reflexivity|apply advance_loop_atom; assumption|].
        change (run c (S k) (Some (last, ins)) es e = Ret (v, es')) in R0. rewrite (run_loop_atom c k es last ins e Ha Q) in R0. exact R0.
Qed.
Print Assumptions C91_goroutine_is_eval.

(* ---- pure bodies ---- *)
Inductive pure_run (c : cfg) (es : estate) : nat -> thread -> ex -> Prop :=
| PR_done v : pure_run c es 0 (TDone v) v
| PR_step n t t' v : finished_thread t = false -> (exists k, advance c k es t = Ret (t', es)) -> pure_run c es n t' v ->
    pure_run c es (S n) t v.
Lemma pure_loop c es : cfg_mono c -> forall n t v, (match t with TEval e | TLoop _ _ e => forall e' es', reaches c es e e' es' -> es' = es | _ => True end) ->
  resume c n es t = Ret (v, es) -> exists j, pure_run c es j t v.
Proof.
  intro Hc. induction n as [|k IH]; intros t v P R.
  - destruct t as [e|last ins e|w]; try discriminate R. injection R as ->. exists 0. constructor.
  - assert (St : forall t1, finished_thread t = false -> advance c k es t = Ret (t1, es) ->
        (match t1 with TEval e | TLoop _ _ e => forall e' es', reaches c es e e' es' -> es' = es | _ => True end) ->
        resume c k es t1 = Ret (v, es) -> exists j, pure_run c es j t v).
    { intros t1 F A Q S. destruct (IH t1 v Q S) as [j J]. exists (Datatypes.S j). apply (PR_step c es j t t1 v F (ex_intro _ k A) J). }
    destruct t as [e|last ins e|w]; [| |injection R as ->; exists 0; constructor].
    + destruct (expr_or_atom e) as [[l ->]|Ha].
      { apply (St (TLoop 0 false (EExpr l))); [reflexivity|reflexivity|exact P|exact R]. }
      apply (St (TDone v)); [reflexivity| |exact Logic.I|reflexivity]. rewrite (advance_atom c k es e Ha). cbn [resume] in R. rewrite R. reflexivity.
    + pose proof R as R0. cbn [resume] in R0. cbn [resume run] in R. destruct (N.eqb (hash e) last) eqn:Q.
      { injection R as ->. apply (St (TDone v)); [reflexivity|cbn [advance]; rewrite Q; reflexivity|exact Logic.I|reflexivity]. }
      destruct (expr_or_atom e) as [[l ->]|Ha].
      { destruct (if ins then return_value (EExpr l) else None) as [w|] eqn:V.
          - injection R as ->. apply (St (TDone v)); [reflexivity|cbn [advance]; rewrite Q, V; reflexivity|exact Logic.I|reflexivity].
          - destruct (pass c k (run c k None) es l) as [[[w|[e' b]] es1]| |] eqn:Pa; cbn [obind] in R; try discriminate R.
            + injection R as -> ->. apply (St (TDone v)); [reflexivity|cbn [advance]; rewrite Q, V, Pa; reflexivity|exact Logic.I|reflexivity].
            + assert (S1 : steps c es (EExpr l) e' es1).
              { exists l, b, k. split; [reflexivity|]. intros m Hm. apply (pass_large c k es l _ Hc Pa m Hm). }
              assert (E1 : es1 = es) by (apply (P e' es1), (RE_step c es _ e' es1 e' es1 S1), RE_refl). subst es1.
              apply (St (TLoop (hash (EExpr l)) (ins || b) e')); [reflexivity|cbn [advance]; rewrite Q, V, Pa; reflexivity| |exact R].
              intros e2 es2 R2. apply (P e2 es2), (RE_step c es _ e' es e2 es2 S1 R2). }
      apply (St (TEval e)); [reflexivity|apply advance_loop_atom; assumption|exact P|].
      change (run c (S k) (Some (last, ins)) es e = Ret (v, es)) in R0. rewrite (run_loop_atom c k es last ins e Ha Q) in R0. exact R0.
Qed.
Lemma pure_thread c es e v : cfg_mono c -> pure c es e v -> exists j, pure_run c es j (TEval e) v.
Proof. intros Hc [[n R] P]. apply (pure_loop c es Hc n); [exact P|exact R]. Qed.

Definition inv (c : cfg) (es : estate) (vs : list ex) (n : nat) (s : estate * list thread) : Prop :=
  fst s = es /\ exists js, Forall2 (fun jt v => pure_run c es (fst jt) (snd jt) v) (combine js (snd s)) vs /\ length js = length (snd s) /\ list_sum js = n.
Lemma inv_step c es vs n s s' : cfg_mono c -> inv c es vs n s -> pstep c s s' -> exists m, n = S m /\ inv c es vs m s'.
Proof.
  intros Hc [E [js [F [L Sm]]]] P. destruct P as [k es0 ts1 t ts2 es1 t' Fi A]. cbn [fst snd] in *. subst es0.
  assert (Q : exists js1 j js2, js = js1 ++ j :: js2 /\ length js1 = length ts1).
  { exists (firstn (length ts1) js), (nth (length ts1) js 0), (skipn (S (length ts1)) js). rewrite app_length in L. cbn [length] in L. split.
    - rewrite <- (skipn_nth js (length ts1) 0) by lia. symmetry. apply firstn_skipn.
    - rewrite firstn_length. lia. }
  destruct Q as (js1 & j & js2 & -> & L1).
  assert (C1 : forall x, combine (js1 ++ x :: js2) (ts1 ++ t :: ts2) = combine js1 ts1 ++ (x, t) :: combine js2 ts2) by
    (intro x; clear - L1; revert ts1 L1; induction js1 as [|a js1 IH]; intros [|b ts1] L1; cbn in *; try lia; [reflexivity|rewrite IH by lia; reflexivity]).
  assert (C2 : forall x, combine (js1 ++ x :: js2) (ts1 ++ t' :: ts2) = combine js1 ts1 ++ (x, t') :: combine js2 ts2) by
    (intro x; clear - L1; revert ts1 L1; induction js1 as [|a js1 IH]; intros [|b ts1] L1; cbn in *; try lia; [reflexivity|rewrite IH by lia; reflexivity]).
  rewrite C1 in F. apply Forall2_app_inv_l in F as (v1 & v2 & F1 & F2 & ->). inversion F2 as [|? v ? v2' R F3]; subst. cbn [fst snd] in R.
  inversion R as [w|n t0 t1 w Fi' [k' A'] R']; subst; [discriminate Fi|].
  assert (D : t1 = t' /\ es1 = es).
  { pose proof (advance_mono c k (k + k') es t _ Hc ltac:(lia) A) as B. rewrite (advance_mono c k' (k + k') es t _ Hc ltac:(lia) A') in B. injection B as -> ->. split; reflexivity. }
  destruct D as [-> ->]. exists (list_sum (js1 ++ n :: js2)). split.
  { rewrite !list_sum_app. cbn [list_sum fold_right]. change (fold_right Nat.add 0 js2) with (list_sum js2). lia. }
  split; [reflexivity|]. exists (js1 ++ n :: js2). cbn [snd]. rewrite C2. split; [|split; [|reflexivity]].
  - apply Forall2_app; [exact F1|]. constructor; [exact R'|exact F3].
  - rewrite app_length in L |- *. rewrite app_length in L |- *. cbn [length] in *. lia.
Qed.
Lemma inv_steps c es vs s s' : cfg_mono c -> psteps c s s' -> forall n, inv c es vs n s -> exists m, inv c es vs m s'.
Proof.
  intros Hc H. induction H as [s|s1 s2 s3 H _ IH]; intros n I1; [exists n; exact I1|].
  destruct (inv_step c es vs n s1 s2 Hc I1 H) as [m [_ J]]. apply (IH m J).
Qed.
Lemma inv_done c es vs n s ws : inv c es vs n s -> snd s = map TDone ws -> ws = vs /\ fst s = es.
Proof.
  intros [E [js [F [L _]]]] Q. split; [|exact E]. rewrite Q in F, L. rewrite map_length in L. clear Q E. revert js vs L F.
  induction ws as [|w ws IH]; intros [|j js] vs L F; cbn in L; try lia; cbn [combine map] in F; inversion F as [|? v ? vs' R F']; subst; [reflexivity|].
  cbn [fst snd] in R. inversion R; subst; [|discriminate]. f_equal. apply (IH js); [lia|exact F'].
Qed.
Lemma inv_progress c es vs : cfg_mono c -> forall n s, inv c es vs n s -> psteps c s (es, map TDone vs).
Proof.
  intro Hc. induction n as [|n IH]; intros [es0 ts] I1.
  - destruct I1 as [E [js [F [L Sm]]]]. cbn [fst snd] in *. subst es0.
    replace ts with (map TDone vs); [apply PS_refl|]. revert ts vs L F. induction js as [|j js IH]; intros [|t ts] vs L F; cbn in L; try lia; cbn [combine] in F; inversion F as [|? v ? vs' R F']; subst; [reflexivity|].
    cbn [list_sum fold_right] in Sm. change (fold_right Nat.add 0 js) with (list_sum js) in Sm. cbn [fst snd] in R.
    assert (J : j = 0) by lia. subst j. inversion R; subst. cbn [map]. f_equal. apply (IH ltac:(lia) ts vs'); [lia|exact F'].
  - (* some thread can move *)
    assert (X : exists ts1 t ts2 t' k, ts = ts1 ++ t :: ts2 /\ finished_thread t = false /\ advance c k es t = Ret (t', es)).
    { destruct I1 as [E [js [F [L Sm]]]]. cbn [fst snd] in *. clear IH E es0. revert ts vs L F n Sm. induction js as [|j js IHj]; intros [|t ts] vs L F n Sm; cbn in L; try lia; cbn [combine] in F; inversion F as [|? v ? vs' R F']; subst.
      - discriminate Sm.
      - cbn [fst snd] in R. inversion R as [w|n0 t0 t1 w Fi [k A] R']; subst.
        + destruct (IHj ts vs' ltac:(lia) F' n Sm) as (ts1 & t2 & ts2 & t' & k & -> & Fi & A). exists (TDone v :: ts1), t2, ts2, t', k. auto.
        + exists [], t, ts, t1, k. auto. }
    destruct X as (ts1 & t & ts2 & t' & k & -> & Fi & A).
    assert (E0 : es0 = es) by (destruct I1; assumption). subst es0.
    pose proof (PStep c k es ts1 t ts2 es t' Fi A) as P1. destruct (inv_step c es vs (S n) _ _ Hc I1 P1) as [m [Em J]]. injection Em as <-.
    apply (PS_step c _ _ _ P1), IH, J.
Qed.
Lemma inv_start c es tasks vs : cfg_mono c -> Forall2 (pure c es) tasks vs -> exists n, inv c es vs n (es, map TEval tasks).
Proof.
  intros Hc H. enough (G : exists js, Forall2 (fun jt v => pure_run c es (fst jt) (snd jt) v) (combine js (map TEval tasks)) vs /\ length js = length (map TEval tasks)).
  { destruct G as [js [G L]]. exists (list_sum js). split; [reflexivity|]. exists js. auto. }
  induction H as [|e v tasks vs P _ [js [G L]]]; [exists []; split; [constructor|reflexivity]|].
  destruct (pure_thread c es e v Hc P) as [j J]. exists (j :: js). cbn [map combine length] in *. split; [constructor; [exact J|exact G]|lia].
Qed.

(* Goroutines evaluating expressions whose evaluation does not change the state:
   however the scheduler interleaves them, each ends with the value its
   expression has; no schedule runs for ever or gets stuck. *)
Theorem C91_schedules : forall c es tasks vs, cfg_mono c -> Forall2 (pure c es) tasks vs ->
  (forall es' ws, psteps c (es, map TEval tasks) (es', map TDone ws) -> ws = vs /\ es' = es) /\
  (forall s, psteps c (es, map TEval tasks) s -> psteps c s (es, map TDone vs)) /\
  (forall f : nat -> estate * list thread, f 0 = (es, map TEval tasks) -> ~ forall i, pstep c (f i) (f (S i))).
Proof.
  intros c es tasks vs Hc H. destruct (inv_start c es tasks vs Hc H) as [n I0]. split; [|split].
  - intros es' ws P. destruct (inv_steps c es vs _ _ Hc P n I0) as [m J]. apply (inv_done c es vs m _ ws J eq_refl).
  - intros s P. destruct (inv_steps c es vs _ _ Hc P n I0) as [m J]. apply (inv_progress c es vs Hc m s J).
  - intros f F0 St. rewrite <- F0 in I0. enough (G : forall n i, inv c es vs n (f i) -> False) by (apply (G n 0 I0)).
    clear n I0. induction n as [|n IH]; intros i J; destruct (inv_step c es vs _ _ _ Hc J (St i)) as [m [E K]]; [discriminate E|].
    injection E as ->. apply (IH (S i) K).
Qed.
Print Assumptions C91_schedules.

(* ---- the bodies ---- *)
Lemma pd_set_new pm n v : ~ In n (map fst pm) -> pd_set pm n v = pm ++ [(n, v)].
Proof.
  induction pm as [|[k w] t IH]; intro N; cbn [pd_set app]; [reflexivity|]. cbn in N.
  destruct (String.eqb_spec k n) as [->|]; [exfalso; apply N; left; reflexivity|]. rewrite IH; tauto.
Qed.
Lemma current_ok its xs vss ps : at_all its xs vss ps -> forall pm, NoDup xs -> (forall x, In x xs -> ~ In x (map fst pm)) ->
  fold_left (fun pm it => pd_set pm (iter_name it) (iter_curr it)) its pm = pm ++ combine xs (tuple vss ps).
Proof.
  induction 1 as [|it x vs p its xs vss ps H L HA IH]; intros pm N F; [cbn; rewrite app_nil_r; reflexivity|].
  cbn [fold_left tuple combine]. destruct (at_var _ _ _ _ H) as [_ ->]. rewrite (at_curr _ _ _ _ H L).
  inversion N as [|? ? N1 N2]; subst. rewrite pd_set_new by (apply F; left; reflexivity). rewrite IH; [rewrite <- app_assoc; reflexivity|exact N2|].
  intros y Hy. rewrite map_app. cbn [map fst]. rewrite in_app_iff. intros [K|[<-|[]]]; [|contradiction]. apply (F y (or_intror Hy) K).
Qed.
Lemma parallel_loop_ok c body es xs vss : cfg_mono c -> arith_ready es -> NoDup xs -> forall ts its ps go,
  at_all its xs vss ps \/ go = false -> ts = (if go then remaining vss ps else []) ->
  exists n l, Forall2 (instance xs body) ts l /\
    forall m j, n <= m -> n <= j -> parallel_loop c j (run c m None) body es its go = Ret (l, es).
Proof.
  intros Hc AR ND. induction ts as [|t ts IH]; intros its ps go AL E.
  - destruct go.
    + exfalso. destruct (multi_next_ok_tuple vss ps) as [r Hr]. rewrite Hr in E. discriminate E.
    + exists 1, []. split; [constructor|]. intros m [|j] Hm Hj; [lia|]. reflexivity.
  - destruct go; [|discriminate E]. destruct AL as [AL|AL]; [|discriminate].
    destruct (multi_next_ok c 0 es its xs vss ps AR AL) as (its' & ps' & go' & E0 & AL' & G1 & G2).
    assert (MN : forall m, 6 <= m -> multi_next (run c m None) es its = Ret (its', go', es)).
    { intros m Hm. pose proof (multi_next_mono (run c 6 None) (run c m None) its) as K.
      destruct (K (fun es e => run_mono c 6 m Hc Hm None es e) es) as [K1|K1].
      - change (6 + 0) with 6 in E0. rewrite K1 in E0; discriminate E0.
      - rewrite <- K1. exact E0. }
    assert (TS : t = tuple vss ps /\ ts = (if go' then remaining vss ps' else [])).
    { destruct go'; [rewrite (G1 eq_refl) in E|rewrite (proj1 (G2 eq_refl)) in E]; injection E as -> ->; auto. }
    destruct TS as [-> TS]. destruct (IH its' ps' go' (or_introl AL') TS) as (n & l & F & K).
    exists (S (n + 6)), (replace_pd_go (current_pd its) body :: l). split.
    + constructor; [|exact F]. unfold instance. apply (proj1 (C26_replace_is_substitution _ _ _)). f_equal. symmetry.
      apply (current_ok its xs vss ps AL []); [exact ND|]. intros x _ [].
    + intros m [|j] Hm Hj; [lia|]. cbn [parallel_loop]. rewrite MN by lia. cbn [obind]. rewrite K by lia. reflexivity.
Qed.

(* One expression for every combination of values, in order, the last iterator
   varying fastest: the body with the variables replaced.  The iteration
   variables are not assigned. *)
Theorem C91_tasks : forall c es body specs xs vss es1, cfg_mono c -> specs <> [] -> NoDup xs ->
  iterators c es specs xs vss es1 -> arith_ready es1 ->
  exists tasks, Forall2 (instance xs body) (product vss) tasks /\
    exists n, forall k, n <= k -> parallel_tasks c k (run c k None) es (sys "ParallelTable" :: body :: specs) = Ret (Some tasks, es1).
Proof.
  intros c es body specs xs vss es1 Hc NE ND HI AR. destruct (specs_ok c _ _ _ _ _ Hc HI) as (n1 & its & ST & H1).
  destruct (starts_go its xs vss ST) as (ps & G1 & G2).
  destruct (parallel_loop_ok c body es1 xs vss Hc AR ND (product vss) its ps _ G1 G2) as (n2 & l & F & K).
  exists l. split; [exact F|]. exists (n1 + n2). intros k Hk. destruct specs as [|sp specs]; [contradiction|]. unfold parallel_tasks.
  rewrite H1 by lia. cbn [obind]. rewrite K by lia. reflexivity.
Qed.
Print Assumptions C91_tasks.

Lemma parallel_loop_mono c body ev1 ev2 : (forall es e, ev1 es e = More \/ ev1 es e = ev2 es e) -> forall n m es its go x, n <= m ->
  parallel_loop c n ev1 body es its go = Ret x -> parallel_loop c m ev2 body es its go = Ret x.
Proof.
  intro He. induction n as [|n IH]; intros [|m] es its go x Hm H; try lia; try discriminate H. cbn [parallel_loop] in *.
  destruct go; [|exact H]. destruct (multi_next_mono ev1 ev2 its He es) as [K|K]; [rewrite K in H; discriminate H|]. rewrite <- K.
  destruct (multi_next ev1 es its) as [[[its1 go1] es1]| |]; cbn [obind] in *; try discriminate H.
  destruct (parallel_loop c n ev1 body es1 its1 go1) as [y| |] eqn:P; cbn [obind] in H; try discriminate H.
  rewrite (IH m es1 its1 go1 y ltac:(lia) P). exact H.
Qed.
Lemma specs_mono ev1 ev2 : (forall es e, ev1 es e = More \/ ev1 es e = ev2 es e) -> forall l es x,
  specs_from_lists ev1 es l = Ret x -> specs_from_lists ev2 es l = Ret x.
Proof.
  intros He l es x H. destruct (specs_from_lists_mono ev1 ev2 l He es) as [K|K]; [rewrite K in H; discriminate H|]. rewrite <- K. exact H.
Qed.
(* ParallelTable[body, {x, ...}, ...] where the evaluation of no instance of the
   body changes the state: every schedule of the goroutines gives the list of
   the values of the instances, in order, and leaves the state alone; and every
   schedule ends. *)
Theorem C91_parallel_table : forall c es body specs xs vss es1 tasks vs, cfg_mono c -> specs <> [] -> NoDup xs ->
  iterators c es specs xs vss es1 -> arith_ready es1 ->
  Forall2 (instance xs body) (product vss) tasks -> Forall2 (pure c es1) tasks vs ->
  forall r es', parallel_gives c es (sys "ParallelTable" :: body :: specs) r es' <-> r = mkList vs /\ es' = es1.
Proof.
  intros c es body specs xs vss es1 tasks vs Hc NE ND HI AR FI FP r es'.
  destruct (C91_tasks c es body specs xs vss es1 Hc NE ND HI AR) as (tasks' & FI' & n & K).
  assert (U : forall ts l1, Forall2 (instance xs body) ts l1 -> forall l2, Forall2 (instance xs body) ts l2 -> l1 = l2).
  { induction 1 as [|t e ts l1 H1 _ IH]; intros l2 H2; inversion H2 as [|t' e' ts' l' A B]; subst; [reflexivity|]. f_equal; [|apply IH; assumption].
    exact (subst_unique _ _ _ _ H1 A). }
  pose proof (U _ _ FI' _ FI) as ->. destruct (C91_schedules c es1 tasks vs Hc FP) as (S1 & S2 & _). split.
  - intros (k & tasks2 & es2 & ws & T & P & ->).
    assert (Q : tasks2 = tasks /\ es2 = es1).
    { specialize (K (k + n) ltac:(lia)). destruct specs as [|sp specs]; [contradiction|]. unfold parallel_tasks in T, K.
      destruct (specs_from_lists (run c k None) es (sp :: specs)) as [[[its|] es3]| |] eqn:E; cbn [obind] in T; try discriminate T.
      rewrite (specs_mono _ _ (fun s e => run_mono c k (k + n) Hc ltac:(lia) None s e) _ _ _ E) in K. cbn [obind] in K.
      destruct (parallel_loop c k (run c k None) body es3 its (forallb iter_cont its)) as [[l es4]| |] eqn:L; cbn [obind] in T; try discriminate T.
      rewrite (parallel_loop_mono c body _ _ (fun s e => run_mono c k (k + n) Hc ltac:(lia) None s e) k (k + n) _ _ _ _ ltac:(lia) L) in K.
      cbn [obind] in K. injection T as <- <-. injection K as -> ->. split; reflexivity. }
    destruct Q as [-> ->]. destruct (S1 es' ws P) as [-> ->]. split; reflexivity.
  - intros [-> ->]. exists n, tasks, es1, vs. split; [apply K; lia|]. split; [|reflexivity]. apply S2. apply PS_refl.
Qed.
Print Assumptions C91_parallel_table.

(* ---- the hypotheses are met ---- *)
(* ParallelTable[{i, j, 7}, {i, 2}, {j, {a, b}}] *)
Definition par_body : ex := mkList [gl "i"; gl "j"; EInt 7].
Definition par_specs : list ex := [mkList [gl "i"; EInt 2]; mkList [gl "j"; mkList [gl "a"; gl "b"]]].
Definition par_values : list ex :=
  [mkList [EInt 1; gl "a"; EInt 7]; mkList [EInt 1; gl "b"; EInt 7]; mkList [EInt 2; gl "a"; EInt 7]; mkList [EInt 2; gl "b"; EInt 7]].
Lemma pure_value c es l : (exists n, forall m, n <= m -> pass c m (run c m None) es l = Ret (inr (EExpr l, false), es)) ->
  evals_to c es (EExpr l) (EExpr l) es -> pure c es (EExpr l) (EExpr l).
Proof.
  intros P E. split; [exact E|]. enough (G : forall s e e' s', reaches c s e e' s' -> s = es -> e = EExpr l -> s' = es) by (intros e' es' R; apply (G _ _ _ _ R); reflexivity).
  intros s e e' s' R. induction R as [s e|s e e1 s1 e2 s2 K R IH]; intros -> ->; [reflexivity|].
  destruct (pass_steps _ _ _ _ _ _ P _ _ K) as [-> ->]. apply IH; reflexivity.
Qed.
Example C91_parallel_table_ex : forall r es', parallel_gives c0 es_it (sys "ParallelTable" :: par_body :: par_specs) r es' <-> r = mkList par_values /\ es' = es_it.
Proof.
  apply (C91_parallel_table c0 es_it par_body par_specs ["Global`i"; "Global`j"]%string [[EInt 1; EInt 2]; [gl "a"; gl "b"]] es_it par_values par_values c0_mono).
  - discriminate.
  - repeat constructor; cbn; intuition discriminate.
  - eapply IT_cons with (ps' := [EInt 2]); [eapply EL_cons; [exists 2; vm_compute; reflexivity|apply EL_nil]| |exact arith_it|].
    { apply IV_max.
      - split; [reflexivity|]. intro j. cbn [length]. lia.
      - split; [quiet_tac|]. split; [quiet_tac|]. split; [hok|]. intros [|[|j]] L; cbn [length] in L; try lia; quiet_tac. }
    eapply IT_cons with (ps' := [mkList [gl "a"; gl "b"]]); [eapply EL_cons; [exists 20; vm_compute; reflexivity|apply EL_nil]|apply IV_list|exact arith_it|apply IT_nil].
  - exact arith_it.
  - cbn [product flat_map map app]. repeat (constructor; [apply (proj1 (C26_replace_is_substitution _ _ _)); reflexivity|]). constructor.
  - repeat (constructor; [apply pure_value; [exists 20; apply (pass_large c0 20 es_it); [exact c0_mono|vm_compute; reflexivity]|exists 20; vm_compute; reflexivity]|]). constructor.
Qed.

(* ---- the variables are replaced, not assigned ---- *)
(* g[1] := i: Table[g[1], {i, 2}] is {1, 2}, ParallelTable[g[1], {i, 2}] is {i, i} *)
Definition es_g : estate := after es_it (fn "SetDelayed" [uf "g" [EInt 1]; gl "i"]).
Lemma arith_g : arith_ready es_g.
Proof. split; (split; [eexists; split; [vm_compute; reflexivity|split; reflexivity]|split; vm_compute; reflexivity]). Qed.
Theorem C91_not_table_refuted :
  (exists es', evals_to c0 es_g (fn "Table" [uf "g" [EInt 1]; mkList [gl "i"; EInt 2]]) (mkList [EInt 1; EInt 2]) es') /\
  parallel_gives c0 es_g [sys "ParallelTable"; uf "g" [EInt 1]; mkList [gl "i"; EInt 2]] (mkList [gl "i"; gl "i"]) es_g.
Proof.
  split; [eexists; exists 60; vm_compute; reflexivity|].
  assert (P : pure c0 es_g (uf "g" [EInt 1]) (gl "i")).
  { split; [exists 20; vm_compute; reflexivity|].
    assert (K : exists n, forall m, n <= m -> pass c0 m (run c0 m None) es_g [gl "g"; EInt 1] = Ret (inr (gl "i", true), es_g)).
    { exists 20. apply (pass_large c0 20 es_g); [exact c0_mono|vm_compute; reflexivity]. }
    intros e' es' R. remember es_g as s eqn:Qs in R at 1. remember (uf "g" [EInt 1]) as e eqn:Qe. destruct R as [s e|s e e1 s1 e2 s2 St R]; [exact Qs|subst s e].
    destruct (pass_steps _ _ _ _ _ _ K _ _ St) as [-> ->].
    remember es_g as s eqn:Qs in R at 1. remember (gl "i") as e eqn:Qe. destruct R as [s e|s e e1 s1 e2 s2 St2 R]; [exact Qs|subst s e].
    destruct St2 as [parts [b [n [E _]]]]. discriminate E. }
  apply (C91_parallel_table c0 es_g (uf "g" [EInt 1]) [mkList [gl "i"; EInt 2]] ["Global`i"%string] [[EInt 1; EInt 2]] es_g [uf "g" [EInt 1]; uf "g" [EInt 1]] [gl "i"; gl "i"] c0_mono).
  - discriminate.
  - repeat constructor; cbn; intuition discriminate.
  - eapply IT_cons with (ps' := [EInt 2]); [eapply EL_cons; [exists 2; vm_compute; reflexivity|apply EL_nil]| |exact arith_g|apply IT_nil].
    apply IV_max.
    + split; [reflexivity|]. intro j. cbn [length]. lia.
    + split; [quiet_tac|]. split; [quiet_tac|]. split; [hok|]. intros [|[|j]] L; cbn [length] in L; try lia; quiet_tac.
  - exact arith_g.
  - cbn [product flat_map map app]. repeat (constructor; [apply (proj1 (C26_replace_is_substitution _ _ _)); reflexivity|]). constructor.
  - repeat (constructor; [exact P|]). constructor.
  - split; reflexivity.
Qed.
Print Assumptions C91_not_table_refuted.

(* ---- loops inside the goroutines race ---- *)
(* A goroutine alone goes through the statements of the loop of Table *)
Lemma loop_steps c k body : cfg_mono c -> forall n es its go acc r es',
  iter_loop c n (run c k None) (fun acc es => obind (run c k None es body) (fun '(r, es1) => Ret (acc ++ [r], false, es1))) es its go acc = Ret (r, false, es') ->
  lsteps c body (es, [if go then LDefine its acc else LDone acc]) (es', [LDone r]).
Proof.
  intro Hc. induction n as [|n IH]; intros es its go acc r es' H; [discriminate H|]. cbn [iter_loop] in H.
  destruct go; [|injection H as -> ->; apply LS_refl].
  destruct (define_current c es its) as [es1| |] eqn:D; cbn [obind] in H; try discriminate H.
  destruct (run c k None es1 body) as [[v es2]| |] eqn:R; cbn [obind] in H; try discriminate H.
  destruct (multi_next (run c k None) es2 its) as [[[its1 go1] es3]| |] eqn:M; cbn [obind] in H; try discriminate H.
  apply (LS_step c body _ (es1, [LEval its acc])). { apply (LStep c body k es [] _ [] es1); [discriminate|]. cbn [ladvance]. rewrite D. reflexivity. }
  apply (LS_step c body _ (es2, [LNext its (acc ++ [v])])). { apply (LStep c body k es1 [] _ [] es2); [discriminate|]. cbn [ladvance]. rewrite R. reflexivity. }
  apply (LS_step c body _ (es3, [if go1 then LDefine its1 (acc ++ [v]) else LDone (acc ++ [v])])).
  { apply (LStep c body k es2 [] _ [] es3); [discriminate|]. cbn [ladvance]. rewrite M. reflexivity. }
  apply (IH es3 its1 go1 (acc ++ [v]) r es' H).
Qed.
Theorem C91_goroutine_is_table_loop : forall c k n body es its acc r es', cfg_mono c ->
  iter_loop c n (run c k None) (fun acc es => obind (run c k None es body) (fun '(r, es1) => Ret (acc ++ [r], false, es1))) es its true acc = Ret (r, false, es') ->
  lsteps c body (es, [LDefine its acc]) (es', [LDone r]).
Proof. intros c k n body es its acc r es' Hc H. apply (loop_steps c k body Hc n es its true acc r es' H). Qed.
Print Assumptions C91_goroutine_is_table_loop.
(* ParallelTable[Table[j, {j, 2}], {i, 2}]: both goroutines assign the same
   variable j; {{1, 2}, {1, 2}} is one outcome, {{2, 2}, {1, 2}} another *)
Definition loop_j : lthread := LDefine [IRange (gl "j") "Global`j" (EInt 1) (EInt 2) (EInt 1) (EInt 1)] [].
(* a schedule of two goroutines: true lets the first one take a step *)
Definition one (first : bool) (s : estate * list lthread) : option (estate * list lthread) :=
  match s with
  | (es, [a; b]) => match (if first then a else b) with LDone _ => None | _ =>
      match ladvance c0 20 (gl "j") es (if first then a else b) with Ret (t', es') => Some (es', if first then [t'; b] else [a; t']) | _ => None end end
  | _ => None end.
Fixpoint many (sch : list bool) (s : estate * list lthread) : option (estate * list lthread) :=
  match sch with [] => Some s | i :: r => match one i s with Some s' => many r s' | None => None end end.
Theorem C91_inner_iterator_race_refuted :
  (exists es', lsteps c0 (gl "j") (es_it, [loop_j; loop_j]) (es', [LDone [EInt 1; EInt 2]; LDone [EInt 1; EInt 2]])) /\
  (exists es', lsteps c0 (gl "j") (es_it, [loop_j; loop_j]) (es', [LDone [EInt 2; EInt 2]; LDone [EInt 1; EInt 2]])).
Proof.
  assert (O : forall i s s', one i s = Some s' -> lstep c0 (gl "j") s s').
  { intros i [es [|a [|b [|]]]] s' H; try discriminate H. unfold one in H.
    destruct i; cbv iota in H.
    - assert (N : forall acc, a <> LDone acc) by (intros acc ->; discriminate H).
      destruct (ladvance c0 20 (gl "j") es a) as [[t' es']| |] eqn:A; [|exfalso; destruct a; discriminate H|exfalso; destruct a; discriminate H].
      replace s' with (es', [t'; b]) by (destruct a; try discriminate H; injection H as <-; reflexivity). apply (LStep c0 (gl "j") 20 es [] a [b] es' t' N A).
    - assert (N : forall acc, b <> LDone acc) by (intros acc ->; discriminate H).
      destruct (ladvance c0 20 (gl "j") es b) as [[t' es']| |] eqn:A; [|exfalso; destruct b; discriminate H|exfalso; destruct b; discriminate H].
      replace s' with (es', [a; t']) by (destruct b; try discriminate H; injection H as <-; reflexivity). apply (LStep c0 (gl "j") 20 es [a] b [] es' t' N A). }
  assert (M : forall sch s s', many sch s = Some s' -> lsteps c0 (gl "j") s s').
  { induction sch as [|i r IH]; intros s s' H; cbn [many] in H; [injection H as <-; apply LS_refl|].
    destruct (one i s) as [s1|] eqn:E; [|discriminate H]. apply (LS_step _ _ _ s1); [apply (O i), E|apply IH, H]. }
  split; eexists.
  - apply (M [true; true; true; true; true; true; false; false; false; false; false; false]). vm_compute. reflexivity.
  - apply (M [true; false; false; false; false; true; true; true; true; true; false; false]). vm_compute. reflexivity.
Qed.
Print Assumptions C91_inner_iterator_race_refuted.
