(* Property theorems: Trace (C130). *)
From Verif Require Import M_Syntax M_Hash M_Trace.
From Coq Require Import String List Lia.
Import ListNotations.
Open Scope nat_scope.

(* ---- specification ---- *)
(* what may stand in a trace: HoldForm[e], or a list of at least two entries *)
Inductive entry : ex -> Prop :=
| En_expr e : entry (EExpr [sys "HoldForm"; e])
| En_args l : 2 <= List.length l -> Forall entry l -> entry (EExpr (sys "List" :: l)).
Definition entries (tr : trace) : Prop := match tr with Some t => Forall entry t | None => True end.

(* a machine without pending exceptions, freezing, and calls of Trace *)
Inductive traceless {St Cx : Type} : prog St Cx -> Prop :=
| Tl_leave s r : traceless (Leave s r)
| Tl_go c s e : traceless (Go c s e)
| Tl_call s e k : (forall s1 r, traceless (k s1 r)) -> traceless (CallEval s e k).
Definition simple (m : machine) : Prop :=
  (forall s, thrown m s = None) /\ (forall s, frozen m s = false) /\
  (forall c s l, traceless (pre m c s l)) /\ (forall c s l, traceless (post m c s l)) /\ (forall s e, traceless (atom m s e)).

(* an expression the evaluator leaves as it is, in a state s that does not change *)
Inductive inert (m : machine) (s : mst m) : ex -> Prop :=
| In_atom e : (forall l, e <> EExpr l) -> atom m s e = Leave s e -> inert m s e
| In_expr l : (forall c, exists c1, pre m c s l = Go c1 s (EExpr l) /\ exists c2, post m c1 s l = Go c2 s (EExpr l)) ->
    (forall i x, nth_error l i = Some x -> held_part m s l i = true \/ inert m s x) -> inert m s (EExpr l).

(* ---- the result does not depend on the trace ---- *)
Definition forget {A B C : Type} (r : option (A * B * C)) : option (A * C) :=
  match r with Some (a, _, c) => Some (a, c) | None => None end.
Section transp.
  Context (m : machine).
  Notation evt := (mst m -> trace -> ex -> option (mst m * trace * ex)).
  Definition blind (ev : evt) : Prop := forall s tr tr' e, forget (ev s tr e) = forget (ev s tr' e).

  Lemma blind_some ev s tr tr' e s1 tr1 r : blind ev -> ev s tr e = Some (s1, tr1, r) ->
    exists tr1', ev s tr' e = Some (s1, tr1', r).
  Proof.
    intros B E. pose proof (B s tr tr' e) as H. rewrite E in H. cbn [forget] in H.
    destruct (ev s tr' e) as [[[s2 tr2] r2]|]; cbn [forget] in H; [|discriminate]. injection H as <- <-. eauto.
  Qed.
  Lemma blind_none ev s tr tr' e : blind ev -> ev s tr e = None -> ev s tr' e = None.
  Proof.
    intros B E. pose proof (B s tr tr' e) as H. rewrite E in H. cbn [forget] in H.
    destruct (ev s tr' e) as [[[s2 tr2] r2]|]; cbn [forget] in H; [discriminate|reflexivity].
  Qed.
  Lemma run_blind ev (B : blind ev) (p : prog (mst m) (mcx m)) : forall tr tr', forget (run_prog ev tr p) = forget (run_prog ev tr' p).
  Proof.
    induction p as [s r|c s e|s e k IH|s e k IH]; intros tr tr'; cbn [run_prog]; [reflexivity|reflexivity| |].
    - destruct (ev s tr e) as [[[s1 tr1] r]|] eqn:E.
      + destruct (blind_some _ _ _ tr' _ _ _ _ B E) as [tr1' ->]. apply IH.
      + rewrite (blind_none _ _ _ tr' _ B E). reflexivity.
    - reflexivity.
  Qed.
  Lemma args_blind ev (B : blind ev) held l : forall i s tr tr',
    forget (eval_args m ev held i s tr l) = forget (eval_args m ev held i s tr' l).
  Proof.
    induction l as [|x t IH]; intros i s tr tr'; cbn [eval_args]; [reflexivity|].
    destruct (held i).
    - specialize (IH (S i) s tr tr').
      destruct (eval_args m ev held (S i) s tr t) as [[[s1 tr1] [v|t1]]|];
        destruct (eval_args m ev held (S i) s tr' t) as [[[s2 tr2] [v2|t2]]|]; cbn [forget] in *; congruence.
    - match goal with |- forget match ev s ?a x with _ => _ end = forget match ev s ?b x with _ => _ end => set (w := a); set (w' := b) end.
      destruct (ev s w x) as [[[s1 tr1] r]|] eqn:E.
      + destruct (blind_some _ _ _ w' _ _ _ _ B E) as [tr1' ->]. destruct (thrown m s1); [reflexivity|].
        set (a := close_arg _ _ _ _). set (a' := close_arg _ _ _ _). specialize (IH (S i) s1 a a').
        destruct (eval_args m ev held (S i) s1 a t) as [[[s3 tr3] [v|t1]]|];
          destruct (eval_args m ev held (S i) s1 a' t) as [[[s2 tr2] [v2|t2]]|]; cbn [forget] in *; congruence.
      + rewrite (blind_none _ _ _ w' _ B E). reflexivity.
  Qed.
  Lemma forget_some {A B C : Type} (x y : option (A * B * C)) a b c : forget x = forget y -> x = Some (a, b, c) -> exists b', y = Some (a, b', c).
  Proof. intros H ->. destruct y as [[[a1 b1] c1]|]; cbn [forget] in H; [|discriminate]. injection H as <- <-. eauto. Qed.
  Lemma forget_none {A B C : Type} (x y : option (A * B * C)) : forget x = forget y -> x = None -> y = None.
  Proof. intros H ->. destruct y as [[[a1 b1] c1]|]; cbn [forget] in H; [discriminate|reflexivity]. Qed.
  Lemma loop_blind ev (B : blind ev) : forall j c lst s tr tr' e,
    forget (trace_loop m ev j c lst s tr e) = forget (trace_loop m ev j c lst s tr' e).
  Proof.
    induction j as [|j IH]; intros c lst s tr tr' e; cbn [trace_loop]; [reflexivity|].
    destruct (match lst with Some h => N.eqb (hash e) h | None => false end); [reflexivity|].
    assert (forall e, forget match ev s tr e with Some (s1, tr1, r) => Some (s1, log_value m s1 tr1 r, r) | None => None end =
                forget match ev s tr' e with Some (s1, tr1, r) => Some (s1, log_value m s1 tr1 r, r) | None => None end) as At.
    { intro e0. destruct (ev s tr e0) as [[[s1 tr1] r]|] eqn:E.
      - destruct (blind_some _ _ _ tr' _ _ _ _ B E) as [tr1' ->]. reflexivity.
      - rewrite (blind_none _ _ _ tr' _ B E). reflexivity. }
    destruct e as [x|x|z|n d|f|a1 a2|l]; try apply At.
    destruct (run_prog ev tr (pre m c s l)) as [[[s1 tr1] o1]|] eqn:E1.
    2:{ rewrite (forget_none _ _ (run_blind ev B _ tr tr') E1). reflexivity. }
    destruct (forget_some _ _ _ _ _ (run_blind ev B _ tr tr') E1) as [tr1' ->]. destruct o1 as [r|[c1 e1]]; [reflexivity|].
    destruct (eval_args m ev (held_part m s1 l) 0 s1 tr1 l) as [[[s2 tr2] o2]|] eqn:E2.
    2:{ rewrite (forget_none _ _ (args_blind ev B _ _ _ _ tr1 tr1') E2). reflexivity. }
    destruct (forget_some _ _ _ _ _ (args_blind ev B _ _ _ _ tr1 tr1') E2) as [tr2' ->]. destruct o2 as [r|l']; [reflexivity|].
    set (a := log_expr _ _ _ _). set (a' := log_expr _ _ _ _).
    destruct (run_prog ev a (post m c1 s2 l')) as [[[s3 tr3] o3]|] eqn:E3.
    2:{ rewrite (forget_none _ _ (run_blind ev B _ a a') E3). reflexivity. }
    destruct (forget_some _ _ _ _ _ (run_blind ev B _ a a') E3) as [tr3' ->]. destruct o3 as [r|[c3 e3]]; [reflexivity|].
    apply IH.
  Qed.
End transp.
Lemma eval_blind m : forall n, blind m (trace_eval n m).
Proof.
  induction n as [|n IH]; intros s tr tr' e; cbn [trace_eval]; [reflexivity|].
  assert (forall e, forget match run_prog (trace_eval n m) tr (atom m s e) with
             | Some (s1, tr1, inl r) => Some (s1, tr1, r) | Some (s1, tr1, inr (_, r)) => Some (s1, tr1, r) | None => None end =
          forget match run_prog (trace_eval n m) tr' (atom m s e) with
             | Some (s1, tr1, inl r) => Some (s1, tr1, r) | Some (s1, tr1, inr (_, r)) => Some (s1, tr1, r) | None => None end) as At.
  { intro e0. destruct (run_prog (trace_eval n m) tr (atom m s e0)) as [[[s1 tr1] o]|] eqn:E.
    - destruct (forget_some _ _ _ _ _ (run_blind m _ IH _ tr tr') E) as [tr1' ->]. destruct o as [r|[c r]]; reflexivity.
    - rewrite (forget_none _ _ (run_blind m _ IH _ tr tr') E). reflexivity. }
  destruct e; try apply At. apply loop_blind, IH.
Qed.

(* ---- C130 ---- *)
(* tracing changes neither the value nor the effects of an evaluation, and does
   not make it run longer: Trace[e] leaves the state that e leaves *)
Theorem C130_transparent : forall n m s e s' r tr tr',
  trace_eval n m s None e = Some (s', tr', r) -> exists tr1, trace_eval n m s tr e = Some (s', tr1, r).
Proof. intros n m s e s' r tr tr' E. apply (blind_some m _ s None tr e s' tr' r (eval_blind m n) E). Qed.
Print Assumptions C130_transparent.
Theorem C130_effects : forall n m s e s', (exists v, trace_of n m s e = Some (s', v)) <-> (exists tr r, trace_eval n m s None e = Some (s', tr, r)).
Proof.
  intros n m s e s'. unfold trace_of. split.
  - intros [v E]. destruct (trace_eval n m s (Some []) e) as [[[s1 tr1] r]|] eqn:T; [|discriminate]. injection E as <- <-.
    destruct (blind_some m _ s _ None e _ _ _ (eval_blind m n) T) as [tr1' ->]. eauto.
  - intros (tr & r & E). destruct (blind_some m _ s _ (Some []) e _ _ _ (eval_blind m n) E) as [tr1' ->]. eauto.
Qed.
Print Assumptions C130_effects.

(* an exception: the arguments are evaluated from left to right, and the first one
   that leaves an exception behind is the last thing that is evaluated *)
Inductive throws_at (m : machine) (n : nat) (held : nat -> bool) : nat -> mst m -> list ex -> ex -> mst m -> Prop :=
| TA_here i s x t tr r s1 v : held i = false -> trace_eval n m s None x = Some (s1, tr, r) -> thrown m s1 = Some v -> throws_at m n held i s (x :: t) v s1
| TA_held i s x t v s' : held i = true -> throws_at m n held (S i) s t v s' -> throws_at m n held i s (x :: t) v s'
| TA_next i s x t tr r s1 v s' : held i = false -> trace_eval n m s None x = Some (s1, tr, r) -> thrown m s1 = None ->
    throws_at m n held (S i) s1 t v s' -> throws_at m n held i s (x :: t) v s'.
Lemma throws_args m n held i s l v s' : throws_at m n held i s l v s' -> forall tr,
  exists tr', eval_args m (trace_eval n m) held i s tr l = Some (s', tr', inl v).
Proof.
  induction 1 as [i s x t tr0 r s1 v H E T|i s x t v s' H _ IH|i s x t tr0 r s1 v s' H E T _ IH]; intro tr; cbn [eval_args]; rewrite H.
  - destruct (C130_transparent n m s x s1 r (if tracing m s tr then Some [] else tr) tr0 E) as [tr1 ->]. rewrite T. eauto.
  - destruct (IH tr) as [tr' ->]. eauto.
  - destruct (C130_transparent n m s x s1 r (if tracing m s tr then Some [] else tr) tr0 E) as [tr1 ->]. rewrite T.
    destruct (IH (close_arg m s1 (if tracing m s tr then tr else tr1) tr1)) as [tr' ->]. eauto.
Qed.
Theorem C130_exception : forall n m s tr l c1 s1 e1 v s', pre m (start m (EExpr l)) s l = Go c1 s1 e1 ->
  throws_at m (S n) (held_part m s1 l) 0 s1 l v s' -> exists tr', trace_eval (S (S n)) m s tr (EExpr l) = Some (s', tr', v).
Proof.
  intros n m s tr l c1 s1 e1 v s' P T. change (trace_eval (S (S n)) m s tr (EExpr l)) with (trace_loop m (trace_eval (S n) m) (S n) (start m (EExpr l)) None s tr (EExpr l)).
  cbn [trace_loop]. rewrite P. cbn [run_prog]. destruct (throws_args m (S n) _ _ _ _ _ _ T tr) as [tr' ->]. eauto.
Qed.
Print Assumptions C130_exception.

(* ---- the form of a trace ---- *)
Lemma forall_snoc {A} (P : A -> Prop) l x : Forall P l -> P x -> Forall P (l ++ [x]).
Proof. intros H X. apply Forall_app. auto. Qed.
Section form.
  Context (m : machine).
  Definition keeps (ev : mst m -> trace -> ex -> option (mst m * trace * ex)) : Prop :=
    forall s tr e s1 tr1 r, ev s tr e = Some (s1, tr1, r) -> entries tr -> entries tr1.
  Lemma log_value_ok s tr e : entries tr -> entries (log_value m s tr e).
  Proof.
    intro H. unfold log_value. destruct (tracing m s tr); [|exact H]. destruct tr as [t|]; [|exact H].
    cbn [append_to entries] in *. apply forall_snoc; [exact H|constructor].
  Qed.
  Lemma log_expr_ok s tr e : entries tr -> entries (log_expr m s tr e).
  Proof.
    intro H. destruct tr as [t|]; [|exact H]. unfold log_expr. destruct (frozen m s); [exact H|].
    destruct (is_sameq _ _); [exact H|]. apply forall_snoc; [exact H|constructor].
  Qed.
  Lemma close_ok s bak tr : entries bak -> entries tr -> entries (close_arg m s bak tr).
  Proof.
    intros B H. destruct tr as [u|]; [|exact I]. unfold close_arg. destruct (frozen m s); [exact H|].
    destruct (Nat.leb_spec 2 (List.length u)) as [L|L]; [|exact B]. destruct bak as [t|]; [|exact I].
    cbn [append_to entries] in *. apply forall_snoc; [exact B|]. apply En_args; assumption.
  Qed.
  Lemma run_ok ev (K : keeps ev) (p : prog (mst m) (mcx m)) : forall tr s1 tr1 o, run_prog ev tr p = Some (s1, tr1, o) -> entries tr -> entries tr1.
  Proof.
    induction p as [s r|c s e|s e k IH|s e k IH]; intros tr s1 tr1 o; cbn [run_prog]; intros E H.
    - injection E as _ <- _. exact H.
    - injection E as _ <- _. exact H.
    - destruct (ev s tr e) as [[[s2 tr2] r]|] eqn:E1; [|discriminate]. apply (IH _ _ _ _ _ _ E). exact (K _ _ _ _ _ _ E1 H).
    - destruct (ev s (Some []) e) as [[[s2 tr2] r]|] eqn:E1; [|discriminate]. apply (IH _ _ _ _ _ _ E). exact Logic.I.
  Qed.
  Lemma args_ok ev (K : keeps ev) held l : forall i s tr s1 tr1 o, eval_args m ev held i s tr l = Some (s1, tr1, o) -> entries tr -> entries tr1.
  Proof.
    induction l as [|x t IH]; intros i s tr s1 tr1 o E H; cbn [eval_args] in E.
    - injection E as _ <- _. exact H.
    - destruct (held i).
      + destruct (eval_args m ev held (S i) s tr t) as [[[s2 tr2] [v|t2]]|] eqn:E1; [| |discriminate];
          injection E as _ <- _; exact (IH _ _ _ _ _ _ E1 H).
      + destruct (ev s (if tracing m s tr then Some [] else tr) x) as [[[s2 tr2] r]|] eqn:E1; [|discriminate].
        assert (entries tr2) as H2.
        { apply (K _ _ _ _ _ _ E1). destruct (tracing m s tr); [constructor|exact H]. }
        destruct (thrown m s2); [injection E as _ <- _; exact H2|].
        set (a := close_arg _ _ _ _) in E.
        assert (entries a) as HA by (apply close_ok; [destruct (tracing m s tr); assumption|exact H2]).
        destruct (eval_args m ev held (S i) s2 a t) as [[[s3 tr3] [v|t3]]|] eqn:E2; [| |discriminate];
          injection E as _ <- _; exact (IH _ _ _ _ _ _ E2 HA).
  Qed.
  Lemma loop_ok ev (K : keeps ev) : forall j c lst s tr e s1 tr1 r, trace_loop m ev j c lst s tr e = Some (s1, tr1, r) -> entries tr -> entries tr1.
  Proof.
    induction j as [|j IH]; intros c lst s tr e s1 tr1 r E H; cbn [trace_loop] in E; [discriminate|].
    destruct (match lst with Some h => N.eqb (hash e) h | None => false end); [injection E as _ <- _; exact H|].
    assert (forall e, match ev s tr e with Some (s1, tr1, r) => Some (s1, log_value m s1 tr1 r, r) | None => None end = Some (s1, tr1, r) -> entries tr1) as At.
    { intros e0 E0. destruct (ev s tr e0) as [[[s2 tr2] r2]|] eqn:E1; [|discriminate]. injection E0 as <- <- <-.
      apply log_value_ok. exact (K _ _ _ _ _ _ E1 H). }
    destruct e as [x|x|z|n d|f|a1 a2|l]; try exact (At _ E).
    destruct (run_prog ev tr (pre m c s l)) as [[[s2 tr2] [v|[c2 e2]]]|] eqn:E1; [| |discriminate];
      pose proof (run_ok ev K _ _ _ _ _ E1 H) as H1; [injection E as _ <- _; exact H1|].
    destruct (eval_args m ev (held_part m s2 l) 0 s2 tr2 l) as [[[s3 tr3] [v|l']]|] eqn:E2; [| |discriminate];
      pose proof (args_ok ev K _ _ _ _ _ _ _ _ E2 H1) as H2; [injection E as _ <- _; exact H2|].
    pose proof (log_expr_ok s3 tr3 (EExpr l') H2) as H3.
    destruct (run_prog ev (log_expr m s3 tr3 (EExpr l')) (post m c2 s3 l')) as [[[s4 tr4] [v|[c4 e4]]]|] eqn:E3; [| |discriminate];
      pose proof (run_ok ev K _ _ _ _ _ E3 H3) as H4; [injection E as _ <- _; exact H4|].
    exact (IH _ _ _ _ _ _ _ _ E H4).
  Qed.
End form.
Lemma eval_ok m : forall n, keeps m (trace_eval n m).
Proof.
  induction n as [|n IH]; intros s tr e s1 tr1 r E H; cbn [trace_eval] in E; [discriminate|].
  assert (forall e, match run_prog (trace_eval n m) tr (atom m s e) with
             | Some (s1, tr1, inl r) => Some (s1, tr1, r) | Some (s1, tr1, inr (_, r)) => Some (s1, tr1, r) | None => None end = Some (s1, tr1, r) ->
          entries tr1) as At.
  { intros e0 E0. destruct (run_prog (trace_eval n m) tr (atom m s e0)) as [[[s2 tr2] [v|[c v]]]|] eqn:E1; [| |discriminate];
      injection E0 as _ <- _; exact (run_ok m _ IH _ _ _ _ _ E1 H). }
  destruct e; try exact (At _ E). exact (loop_ok m _ IH _ _ _ _ _ _ _ _ _ E H).
Qed.
(* the value of Trace is a list of none or at least two entries, each of them
   HoldForm[...] or again such a list *)
Theorem C130_form : forall n m s e s' v, trace_of n m s e = Some (s', v) ->
  exists l, v = EExpr (sys "List" :: l) /\ Forall entry l /\ List.length l <> 1.
Proof.
  intros n m s e s' v E. unfold trace_of in E. destruct (trace_eval n m s (Some []) e) as [[[s1 tr1] r]|] eqn:T; [|discriminate].
  injection E as <- <-. pose proof (eval_ok m n _ _ _ _ _ _ T (Forall_nil _)) as H. destruct tr1 as [u|]; cbn [trace_value].
  - destruct (Nat.leb_spec 2 (List.length u)) as [L|L].
    + exists u. split; [reflexivity|]. split; [exact H|lia].
    + exists []. split; [reflexivity|]. split; [constructor|discriminate].
  - exists []. split; [reflexivity|]. split; [constructor|discriminate].
Qed.
Print Assumptions C130_form.

(* ---- without exceptions, freezing and nested calls of Trace ---- *)
Definition grows (ev : forall m : machine, mst m -> trace -> ex -> option (mst m * trace * ex)) (m : machine) : Prop :=
  forall s t e s1 tr1 r, ev m s (Some t) e = Some (s1, tr1, r) -> exists u, tr1 = Some (t ++ u).
Section more.
  Context (m : machine) (SM : simple m) (n : nat) (K : grows (trace_eval n) m).
  Let TH : forall s, thrown m s = None := proj1 SM.
  Let FR : forall s, frozen m s = false := proj1 (proj2 SM).
  Lemma run_grows (p : prog (mst m) (mcx m)) : traceless p -> forall t s1 tr1 o,
    run_prog (trace_eval n m) (Some t) p = Some (s1, tr1, o) -> exists u, tr1 = Some (t ++ u).
  Proof.
    intro T. induction T as [s r|c s e|s e k _ IH]; intros t s1 tr1 o; cbn [run_prog]; intro E.
    - injection E as _ <- _. exists []. rewrite app_nil_r. reflexivity.
    - injection E as _ <- _. exists []. rewrite app_nil_r. reflexivity.
    - destruct (trace_eval n m s (Some t) e) as [[[s2 tr2] r]|] eqn:E1; [|discriminate].
      destruct (K _ _ _ _ _ _ E1) as [u ->]. destruct (IH _ _ _ _ _ _ E) as [w ->]. exists (u ++ w). rewrite app_assoc. reflexivity.
  Qed.
  Lemma args_grows held l : forall i s t s1 tr1 o,
    eval_args m (trace_eval n m) held i s (Some t) l = Some (s1, tr1, o) -> exists u, tr1 = Some (t ++ u).
  Proof.
    induction l as [|x q IH]; intros i s t s1 tr1 o E; cbn [eval_args] in E.
    - injection E as _ <- _. exists []. rewrite app_nil_r. reflexivity.
    - destruct (held i).
      + destruct (eval_args m _ held (S i) s (Some t) q) as [[[s2 tr2] [v|t2]]|] eqn:E1; [| |discriminate];
          injection E as _ <- _; exact (IH _ _ _ _ _ _ E1).
      + unfold tracing in E. rewrite FR in E. cbn [negb] in E.
        destruct (trace_eval n m s (Some []) x) as [[[s2 tr2] r]|] eqn:E1; [|discriminate].
        rewrite TH in E. destruct (K _ _ _ _ _ _ E1) as [u U]. cbn [app] in U. subst tr2.
        assert (exists w, close_arg m s2 (Some t) (Some u) = Some (t ++ w)) as [w W].
        { unfold close_arg. rewrite FR. cbn [append_to]. destruct (2 <=? List.length u); [eauto|]. exists []. rewrite app_nil_r. reflexivity. }
        rewrite W in E.
        destruct (eval_args m _ held (S i) s2 (Some (t ++ w)) q) as [[[s3 tr3] [v|t3]]|] eqn:E2; [| |discriminate];
          injection E as _ <- _; destruct (IH _ _ _ _ _ _ E2) as [z ->]; exists (w ++ z); rewrite app_assoc; reflexivity.
  Qed.
  Lemma log_expr_grows s t e : exists u, log_expr m s (Some t) e = Some (t ++ u).
  Proof.
    unfold log_expr. rewrite FR. destruct (is_sameq _ _); [exists []; rewrite app_nil_r; reflexivity|eauto].
  Qed.
  Lemma loop_grows : forall j c lst s t e s1 tr1 r,
    trace_loop m (trace_eval n m) j c lst s (Some t) e = Some (s1, tr1, r) -> exists u, tr1 = Some (t ++ u).
  Proof.
    pose proof (proj1 (proj2 (proj2 SM))) as TPre. pose proof (proj1 (proj2 (proj2 (proj2 SM)))) as TPost.
    induction j as [|j IH]; intros c lst s t e s1 tr1 r E; cbn [trace_loop] in E; [discriminate|].
    destruct (match lst with Some h => N.eqb (hash e) h | None => false end).
    { injection E as _ <- _. exists []. rewrite app_nil_r. reflexivity. }
    assert (forall e, match trace_eval n m s (Some t) e with Some (s1, tr1, r) => Some (s1, log_value m s1 tr1 r, r) | None => None end = Some (s1, tr1, r) -> exists u, tr1 = Some (t ++ u)) as At.
    { intros e0 E0. destruct (trace_eval n m s (Some t) e0) as [[[s2 tr2] r2]|] eqn:E1; [|discriminate]. injection E0 as <- <- <-.
      destruct (K _ _ _ _ _ _ E1) as [u ->]. unfold log_value, tracing. rewrite FR. cbn [negb append_to]. exists (u ++ [hold_form r2]).
      rewrite app_assoc. reflexivity. }
    destruct e as [x|x|z|y d|f|a1 a2|l]; try exact (At _ E). clear At.
    destruct (run_prog _ (Some t) (pre m c s l)) as [[[s2 tr2] o]|] eqn:E1; [|discriminate].
    destruct (run_grows _ (TPre c s l) _ _ _ _ E1) as [u1 ->]. destruct o as [v|[c2 e2]]; [injection E as _ <- _; eauto|].
    destruct (eval_args m _ (held_part m s2 l) 0 s2 _ l) as [[[s3 tr3] o]|] eqn:E2; [|discriminate].
    destruct (args_grows _ _ _ _ _ _ _ _ E2) as [u2 ->]. destruct o as [v|l'].
    { injection E as _ <- _. rewrite <- app_assoc. eauto. }
    destruct (log_expr_grows s3 ((t ++ u1) ++ u2) (EExpr l')) as [u3 L]. rewrite L in E.
    destruct (run_prog _ (Some (((t ++ u1) ++ u2) ++ u3)) (post m c2 s3 l')) as [[[s4 tr4] o]|] eqn:E3; [|discriminate].
    destruct (run_grows _ (TPost c2 s3 l') _ _ _ _ E3) as [u4 ->]. destruct o as [v|[c4 e4]].
    { injection E as _ <- _. rewrite <- !app_assoc. eauto. }
    destruct (IH _ _ _ _ _ _ _ _ E) as [u5 ->]. rewrite <- !app_assoc. eauto.
  Qed.
End more.
(* a trace only grows at its end, and is never lost *)
Theorem C130_append_only_partial : forall n m s t e s1 tr1 r, simple m ->
  trace_eval n m s (Some t) e = Some (s1, tr1, r) -> exists u, tr1 = Some (t ++ u).
Proof.
  intros n m s t e s1 tr1 r SM. revert s t e s1 tr1 r. change (grows (trace_eval n) m).
  induction n as [|n IH]; intros s t e s1 tr1 r E; cbn [trace_eval] in E; [discriminate|].
  assert (forall e, match run_prog (trace_eval n m) (Some t) (atom m s e) with
             | Some (s1, tr1, inl r) => Some (s1, tr1, r) | Some (s1, tr1, inr (_, r)) => Some (s1, tr1, r) | None => None end = Some (s1, tr1, r) ->
          exists u, tr1 = Some (t ++ u)) as At.
  { intros e0 E0. destruct (run_prog (trace_eval n m) (Some t) (atom m s e0)) as [[[s2 tr2] [v|[c v]]]|] eqn:E1; [| |discriminate];
      injection E0 as _ <- _; exact (run_grows m n IH _ (proj2 (proj2 (proj2 (proj2 SM))) _ _) _ _ _ _ E1). }
  destruct e; try exact (At _ E). exact (loop_grows m SM n IH _ _ _ _ _ _ _ _ _ E).
Qed.
Print Assumptions C130_append_only_partial.

(* ---- nothing to trace ---- *)
Section inertness.
  Context (m : machine) (SM : simple m).
  Definition quiet_at (n : nat) (s : mst m) (e : ex) : Prop := forall t, exists u,
    trace_eval n m s (Some t) e = Some (s, Some (t ++ u), e) /\ (u = [] \/ u = [hold_form e]).
  Lemma args_inert n s l : forall held i,
    (forall j x, nth_error l j = Some x -> held (i + j) = true \/ quiet_at n s x) -> forall t,
    eval_args m (trace_eval n m) held i s (Some t) l = Some (s, Some t, inr l).
  Proof.
    induction l as [|x q IH]; intros held i H t; cbn [eval_args]; [reflexivity|].
    assert (eval_args m (trace_eval n m) held (S i) s (Some t) q = Some (s, Some t, inr q)) as Q.
    { apply IH. intros j y Y. specialize (H (S j) y Y). replace (S i + j) with (i + S j) by lia. exact H. }
    destruct (held i) eqn:Hi; [rewrite Q; reflexivity|].
    destruct (H 0 x eq_refl) as [A|A]; [rewrite Nat.add_0_r in A; congruence|].
    unfold tracing. rewrite (proj1 (proj2 SM)). cbn [negb]. destruct (A []) as (u & -> & U). cbn [app].
    rewrite (proj1 SM). cbn [close_arg]. rewrite (proj1 (proj2 SM)).
    destruct U as [-> | ->]; cbn [List.length Nat.leb]; rewrite Q; reflexivity.
  Qed.
  Lemma inert_cases s e : inert m s e -> (forall l, e <> EExpr l) /\ atom m s e = Leave s e \/ exists l, e = EExpr l /\
       (forall c, exists c1, pre m c s l = Go c1 s (EExpr l) /\ exists c2, post m c1 s l = Go c2 s (EExpr l)) /\
       (forall i x, nth_error l i = Some x -> held_part m s l i = true \/ inert m s x).
  Proof. intro H. destruct H as [e A E|l P H]; [left; auto|right; eauto]. Qed.
  Lemma inert_quiet s e : inert m s e -> exists k, forall n, k <= n -> quiet_at n s e.
  Proof.
    intro H0. assert (D : (forall l, e <> EExpr l) /\ atom m s e = Leave s e \/ exists l, e = EExpr l /\
       (forall c, exists c1, pre m c s l = Go c1 s (EExpr l) /\ exists c2, post m c1 s l = Go c2 s (EExpr l)) /\
       (forall i x, nth_error l i = Some x -> held_part m s l i = true \/ inert m s x)) by (apply inert_cases, H0).
    clear H0. revert D.
    induction e as [x|x|z|y d|f|a1 a2 _ _|l0 IH] using ex_ind'; (intros [[A E]|(l & El & P & H)];
      [exists 1; intros [|n] L t; [lia|]; exists []; rewrite app_nil_r; split; [|auto]; cbn [trace_eval];
       first [rewrite E; reflexivity|destruct (A _ eq_refl)]|try discriminate El]).
    injection El as ->.
    assert (exists k, forall n, k <= n -> forall j x, nth_error l j = Some x -> held_part m s l j = true \/ quiet_at n s x) as [k K].
      { assert (forall q i, incl q l -> (forall j x, nth_error q j = Some x -> held_part m s l (i + j) = true \/ inert m s x) ->
           exists k, forall n, k <= n -> forall j x, nth_error q j = Some x -> held_part m s l (i + j) = true \/ quiet_at n s x) as G.
        { clear P. clear H. induction q as [|x q IHq]; intros i Q H.
          - exists 0. intros n _ [|j] y Y; discriminate Y.
          - destruct (IHq (S i)) as [k1 K1]. { intros y Y. apply Q. right. exact Y. }
            { intros j y Y. replace (S i + j) with (i + S j) by lia. apply H. exact Y. }
            assert (exists k2, forall n, k2 <= n -> held_part m s l (i + 0) = true \/ quiet_at n s x) as [k2 K2].
            { destruct (H 0 x eq_refl) as [A|A]; [exists 0; auto|]. destruct (proj1 (Forall_forall _ _) IH x (Q x (or_introl eq_refl)) (inert_cases _ _ A)) as [k2 K2]. exists k2. auto. }
            exists (k1 + k2). intros n L [|j] y Y.
            + injection Y as <-. apply K2. lia.
            + replace (i + S j) with (S i + j) by lia. apply K1; [lia|exact Y]. }
        apply (G l 0); [apply incl_refl|exact H]. }
      exists (k + 3). intros [|n] L t; [lia|]. cbn [trace_eval]. destruct n as [|n]; [lia|]. cbn [trace_loop].
      destruct (P (start m (EExpr l))) as (c1 & Pr & c2 & Po). rewrite Pr. cbn [run_prog].
      rewrite (args_inert (S n) s l (held_part m s l) 0 (K (S n) ltac:(lia)) t). rewrite Po. cbn [run_prog].
      destruct n as [|n]; [lia|]. cbn [trace_loop]. rewrite N.eqb_refl. unfold log_expr. rewrite (proj1 (proj2 SM)).
      destruct (is_sameq _ _); [exists []; rewrite app_nil_r; auto|exists [hold_form (EExpr l)]; auto].
  Qed.
End inertness.
(* the trace of an expression that evaluates to itself is empty *)
Theorem C130_inert : forall m s e, simple m -> inert m s e ->
  exists k, forall n, k <= n -> trace_of n m s e = Some (s, EExpr [sys "List"]).
Proof.
  intros m s e SM H. destruct (inert_quiet m SM s e H) as [k K]. exists k. intros n L. unfold trace_of.
  destruct (K n L []) as (u & -> & U). destruct U as [-> | ->]; reflexivity.
Qed.
Print Assumptions C130_inert.

(* ---- a small machine: Plus of two integers, Trace, Throw and Catch ---- *)
Definition tiny_post (s : option ex) (l : list ex) : prog (option ex) unit :=
  match l with
  | [ESym h; EInt a; EInt b] =>
      if String.eqb h (sysname "Plus") then Go tt s (EInt (a + b)) else Go tt s (EExpr l)
  | [ESym h; e] =>
      if String.eqb h (sysname "Trace") then CallTrace s e (fun s1 v => Go tt s1 v)
      else if String.eqb h (sysname "Throw") then Go tt (Some e) (EExpr l)
      else if String.eqb h (sysname "Catch") then
        CallEval s e (fun s1 r => match s1 with Some v => Go tt None v | None => Go tt s1 r end)
      else Go tt s (EExpr l)
  | _ => Go tt s (EExpr l)
  end.
Definition tiny : machine := {|
  mst := option ex; mcx := unit; thrown := fun s => s; frozen := fun _ => false;
  held_part := fun _ l _ => match l with ESym h :: _ => String.eqb h (sysname "Trace") || String.eqb h (sysname "Catch") | _ => false end;
  start := fun _ => tt; pre := fun _ s l => Go tt s (EExpr l); post := fun _ s l => tiny_post s l; atom := fun s e => Leave s e |}.
(* the same without Trace and Throw *)
Definition calm : machine := {|
  mst := unit; mcx := unit; thrown := fun _ => None; frozen := fun _ => false; held_part := fun _ _ _ => false;
  start := fun _ => tt; pre := fun _ s l => Go tt s (EExpr l);
  post := fun _ s l => match l with
    | [ESym h; EInt a; EInt b] => if String.eqb h (sysname "Plus") then Go tt s (EInt (a + b)) else Go tt s (EExpr l)
    | _ => Go tt s (EExpr l) end;
  atom := fun s e => Leave s e |}.
Definition pl (a b : ex) : ex := EExpr [sys "Plus"; a; b].
Definition hf (e : ex) : ex := EExpr [sys "HoldForm"; e].
Definition li (l : list ex) : ex := EExpr (sys "List" :: l).
Lemma calm_simple : simple calm.
Proof.
  split; [reflexivity|]. split; [reflexivity|]. split; [intros; constructor|]. split; [|intros; constructor].
  intros c s l. cbn [post calm]. destruct l as [|[h|?|?|? ?|?|? ?|?] [|[?|?|a|? ?|?|? ?|?] [|[?|?|b|? ?|?|? ?|?] [|? ?]]]]; try constructor.
  destruct (String.eqb h (sysname "Plus")); constructor.
Qed.
(* Trace[(1 + 3) + 2] *)
Example C130_nonvacuous :
  trace_of 5 calm tt (pl (pl (EInt 1) (EInt 3)) (EInt 2)) =
    Some (tt, li [li [hf (pl (EInt 1) (EInt 3)); hf (EInt 4)]; hf (pl (EInt 4) (EInt 2)); hf (EInt 6)]) /\
  trace_eval 5 calm tt None (pl (pl (EInt 1) (EInt 3)) (EInt 2)) = Some (tt, None, EInt 6) /\
  inert calm tt (EExpr [ESym "Global`f"; EInt 1; pl (ESym "Global`a") (ESym "Global`b")]).
Proof.
  split; [vm_compute; reflexivity|]. split; [vm_compute; reflexivity|].
  assert (forall e, (forall l, e <> EExpr l) -> inert calm tt e) as At by (intros e A; apply In_atom; [exact A|reflexivity]).
  assert (forall l, (forall c, exists c1, pre calm c tt l = Go c1 tt (EExpr l) /\ exists c2, post calm c1 tt l = Go c2 tt (EExpr l)) ->
     Forall (inert calm tt) l -> inert calm tt (EExpr l)) as Ex.
  { intros l P F. apply In_expr; [exact P|]. intros i x X. right. rewrite Forall_forall in F. apply F. apply nth_error_In in X. exact X. }
  apply Ex; [intros []; exists tt; split; [reflexivity|exists tt; reflexivity]|].
  apply Forall_cons; [apply At; discriminate|]. apply Forall_cons; [apply At; discriminate|]. apply Forall_cons; [|constructor].
  apply Ex; [intros []; exists tt; split; [reflexivity|exists tt; reflexivity]|].
  repeat (apply Forall_cons; [apply At; discriminate|]). constructor.
Qed.
(* f[1, g[Throw[7]], 1 + 2]: the value is 7, with and without Trace *)
Example C130_throws : let l := [ESym "Global`f"; EInt 1; EExpr [ESym "Global`g"; EExpr [sys "Throw"; EInt 7]]; pl (EInt 1) (EInt 2)] in
  throws_at tiny 5 (held_part tiny None l) 0 None l (EInt 7) (Some (EInt 7)) /\
  (exists tr, trace_eval 6 tiny None (Some []) (EExpr l) = Some (Some (EInt 7), tr, EInt 7)).
Proof.
  cbv zeta. assert (T : throws_at tiny 5 (held_part tiny None [ESym "Global`f"; EInt 1; EExpr [ESym "Global`g"; EExpr [sys "Throw"; EInt 7]]; pl (EInt 1) (EInt 2)]) 0 None
    [ESym "Global`f"; EInt 1; EExpr [ESym "Global`g"; EExpr [sys "Throw"; EInt 7]]; pl (EInt 1) (EInt 2)] (EInt 7) (Some (EInt 7))).
  { eapply TA_next; [reflexivity|vm_compute; reflexivity|reflexivity|]. eapply TA_next; [reflexivity|vm_compute; reflexivity|reflexivity|].
    eapply TA_here; [reflexivity|vm_compute; reflexivity|reflexivity]. }
  split; [exact T|]. apply (C130_exception 4 tiny None (Some []) _ tt None (EExpr [ESym "Global`f"; EInt 1; EExpr [ESym "Global`g"; EExpr [sys "Throw"; EInt 7]]; pl (EInt 1) (EInt 2)])); [reflexivity|exact T].
Qed.
(* a call of Trace inside Trace ends the outer one: its value is {}, although the
   expression is evaluated in steps *)
Theorem C130_nested_refuted : exists m s e v, trace_of 6 m s e = Some (s, li v) /\ v <> [] /\
  trace_of 6 m s (EExpr [ESym "Global`f"; e; EExpr [sys "Trace"; e]]) = Some (s, li []).
Proof.
  exists tiny, None, (pl (EInt 1) (EInt 2)), [hf (pl (EInt 1) (EInt 2)); hf (EInt 3)].
  split; [vm_compute; reflexivity|]. split; [discriminate|]. vm_compute; reflexivity.
Qed.
Print Assumptions C130_nested_refuted.
(* an exception, though caught, loses what was traced before *)
Theorem C130_append_only_refuted : exists m t s e tr r, thrown m s = None /\ frozen m s = false /\
  trace_eval 6 m s (Some t) e = Some (s, tr, r) /\ r = EInt 5 /\ ~ exists u, tr = Some (t ++ u).
Proof.
  exists tiny, [hf (pl (EInt 1) (EInt 2))], None, (EExpr [sys "Catch"; EExpr [ESym "Global`f"; EExpr [sys "Throw"; EInt 5]]]).
  do 2 eexists. split; [reflexivity|]. split; [reflexivity|]. split; [vm_compute; reflexivity|]. split; [reflexivity|].
  intros [u U]. injection U as U. discriminate U.
Qed.
Print Assumptions C130_append_only_refuted.
