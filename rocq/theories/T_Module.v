(* C75: Module: what its local variables hold when the body starts, and what
   the body refers to. *)
From Verif Require Import M_Syntax M_Float M_Hash M_Match M_Defs S_Defs S_Match P_Hash P_MatchSound P_MatchNames P_Defs P_Defs2 P_Defs4.
Open Scope nat_scope.

Lemma snag_all_frame fl fuel : forall ls st us st', snag_all fl fuel st ls = Some (Some (us, st')) ->
  length us = length ls /\ forall s, s <> nModuleNumber -> lookup st' s = lookup st s.
Proof.
  induction ls as [|l t IH]; intros st us st' H; cbn [snag_all] in H.
  - injection H as <- <-. split; reflexivity.
  - destruct (snag_unique fl fuel st (local_sym l)) as [[[u s1]|]|] eqn:E; try discriminate.
    destruct (snag_all fl fuel s1 t) as [[[us1 s2]|]|] eqn:F; try discriminate.
    injection H as <- <-. apply IH in F. destruct F as [L G]. split; [cbn [length]; now rewrite L|].
    intros s N. rewrite (G s N). unfold snag_unique in E.
    destruct (get_sym_def st nModuleNumber) as [[| |z| | | |]|]; try discriminate.
    destruct (snag_loop fuel st (local_sym l) (wrap64 z)) as [mn|]; try discriminate.
    destruct (define fl st (ESym nModuleNumber) (EInt (mn + 1))) as [s3|] eqn:D; try discriminate.
    injection E as _ <-. apply (define_frame fl st (ESym nModuleNumber) (EInt (mn + 1)) s3 s D). intro T. inversion T. congruence.
Qed.

Lemma is_sym_rule_held u r : is_sym_rule (DVal (held (ESym u)) r 0) = true.
Proof. reflexivity. Qed.

(* what local number i holds after all initialisers have run *)
Lemma init_locals_value ev us : (forall st e u, In u us -> lookup (snd (ev st e)) u = lookup st u) ->
  forall ps st, NoDup (map snd ps) -> (forall p, In p ps -> In (snd p) us) ->
  (forall u, In u us -> ~ In u (map snd ps) -> lookup (init_locals ev st ps) u = lookup st u) /\
  forall i l u, nth_error ps i = Some (l, u) ->
    lookup (init_locals ev st ps) u = Some (match l with
      | LPlain _ => def0
      | LSet _ v => Def [DVal (held (ESym u)) (fst (ev (init_locals ev st (firstn i ps)) v)) 0] no_attrs None false
      | LDelayed _ v => Def [DVal (held (ESym u)) v 0] no_attrs None false end).
Proof.
  intro EV. induction ps as [|[l u] t IH]; intros st N I.
  - split; [reflexivity|]. intros [|i] l u; discriminate.
  - cbn [map snd] in N. inversion N as [|? ? N1 N2]; subst.
    assert (It : forall p, In p t -> In (snd p) us) by (intros p H; apply I; now right).
    assert (Iu : In u us) by (apply (I (l, u)); now left).
    assert (C : exists d st1, (forall w, In w us -> lookup st1 w = lookup st w) /\
      d = match l with
      | LPlain _ => def0
      | LSet _ v => Def [DVal (held (ESym u)) (fst (ev st v)) 0] no_attrs None false
      | LDelayed _ v => Def [DVal (held (ESym u)) v 0] no_attrs None false end /\
      (forall t', init_locals ev st ((l, u) :: t') = init_locals ev (set_def st1 u d) t')).
    { destruct l as [x|x v|x v]; cbn [init_locals].
      - exists def0, st. repeat split.
      - pose proof (EV st v) as E. destruct (ev st v) as [r s1]. cbn [fst snd] in *.
        eexists _, s1. split; [intros w; apply E|]. split; reflexivity.
      - eexists _, st. split; [reflexivity|]. split; reflexivity. }
    destruct C as (d & st1 & F & D & EQ). rewrite EQ. destruct (IH (set_def st1 u d) N2 It) as [A B]. split.
    + intros w Iw Nw. rewrite A by (auto; intro; apply Nw; now right). rewrite lookup_set_other; [apply F, Iw|].
      intros ->. apply Nw. now left.
    + intros [|i] l' u' H; cbn [nth_error] in H.
      * injection H as <- <-. rewrite A by assumption. rewrite lookup_set_same. cbn [firstn init_locals]. now rewrite D.
      * specialize (B i l' u' H). cbn [firstn]. rewrite EQ. exact B.
Qed.
Lemma nth_combine {A B} : forall (a : list A) (b : list B) i x y, nth_error a i = Some x -> nth_error b i = Some y ->
  nth_error (combine a b) i = Some (x, y).
Proof.
  induction a as [|x0 a IH]; intros [|y0 b] [|i] x y H1 H2; try discriminate; cbn in *; [congruence|auto].
Qed.
Lemma map_snd_combine {A B} : forall (a : list A) (b : list B), length b = length a -> map snd (combine a b) = b.
Proof. induction a as [|x a IH]; intros [|y b] H; try discriminate; cbn in *; [reflexivity|]. f_equal. apply IH. lia. Qed.

(* two states with the same definitions, except for the new names and
   $ModuleNumber *)
Definition agree_outside (us : list string) (a b : state) : Prop :=
  forall s, s <> nModuleNumber -> ~ In s us -> lookup a s = lookup b s.

(* Module[{x, y = v, z := w}, body]: when the body starts, a plain local has no
   value, a local with := holds its initialiser unevaluated, and a local with =
   holds the value of its initialiser; [before] is the state left by the
   initialisers to its left.  The evaluation of initialisers must not tamper
   with the generated names (nothing else can refer to them). *)
Theorem C75_locals fl ev fuel st ls body us e st' :
  module_eval fl ev fuel st ls body = Some (Some (us, e, st')) -> NoDup us ->
  (forall st e u, In u us -> lookup (snd (ev st e)) u = lookup st u) ->
  forall i l u, nth_error ls i = Some l -> nth_error us i = Some u ->
  match l with
  | LPlain _ => get_sym_def st' u = None
  | LDelayed _ v => get_sym_def st' u = Some v
  | LSet _ v => exists before, get_sym_def st' u = Some (fst (ev before v)) /\
      (i = 0 -> agree_outside us before st)
  end.
Proof.
  unfold module_eval. intros M N EV i l u Hl Hu. destruct (snag_all fl fuel st ls) as [[[us1 st1]|]|] eqn:E; try discriminate.
  injection M as -> _ <-. apply snag_all_frame in E. destruct E as [L G].
  destruct (init_locals_value ev us EV (combine ls us) st1) as [_ B].
  - now rewrite map_snd_combine.
  - intros [a b] H. apply in_combine_r in H. exact H.
  - specialize (B i l u (nth_combine ls us i l u Hl Hu)). unfold get_sym_def. destruct l as [x|x v|x v]; rewrite B; try reflexivity.
    eexists. split; [cbn [d_dvs find]; rewrite is_sym_rule_held; reflexivity|]. intros -> s Ns _. cbn [firstn init_locals]. apply G, Ns.
Qed.
Print Assumptions C75_locals.

(* the initialisers are evaluated in the scope outside the Module: when they
   have no side effects and their value does not depend on the generated names,
   every local holds the value its initialiser has before the Module *)
Theorem C75_initialisers_in_outer_scope fl ev fuel st ls body us e st' :
  module_eval fl ev fuel st ls body = Some (Some (us, e, st')) -> NoDup us ->
  (forall s v, snd (ev s v) = s) ->
  (forall a b x v, In (LSet x v) ls -> agree_outside us a b -> fst (ev a v) = fst (ev b v)) ->
  (forall i x v u, nth_error ls i = Some (LSet x v) -> nth_error us i = Some u -> get_sym_def st' u = Some (fst (ev st v))) /\
  agree_outside us st' st.
Proof.
  intros M N P V. pose proof M as M0. unfold module_eval in M. destruct (snag_all fl fuel st ls) as [[[us1 st1]|]|] eqn:E; try discriminate.
  injection M as -> _ <-. apply snag_all_frame in E. destruct E as [L G].
  assert (EV : forall s e u, In u us -> lookup (snd (ev s e)) u = lookup s u) by (intros; now rewrite P).
  assert (K : forall ps s, (forall p, In p ps -> In (snd p) us) -> agree_outside us (init_locals ev s ps) s).
  { induction ps as [|[l u] t IH]; intros s I; [intros w _ _; reflexivity|]. intros w Nm Nw.
    assert (Iu : In u us) by (apply (I (l, u)); now left). assert (w <> u) by (intros ->; auto).
    cbn [init_locals]. destruct l as [x|x v|x v].
    - rewrite (IH _ (fun p H => I p (or_intror H)) w Nm Nw). now apply lookup_set_other.
    - pose proof (P s v) as Ps. destruct (ev s v) as [r s1]. cbn [snd] in Ps. subst s1.
      rewrite (IH _ (fun p H => I p (or_intror H)) w Nm Nw). now apply lookup_set_other.
    - rewrite (IH _ (fun p H => I p (or_intror H)) w Nm Nw). now apply lookup_set_other. }
  assert (IN : forall p, In p (combine ls us) -> In (snd p) us) by (intros [a b] H; apply in_combine_r in H; exact H).
  split.
  - intros i x v u Hl Hu. destruct (init_locals_value ev us EV (combine ls us) st1) as [_ B]; [now rewrite map_snd_combine|exact IN|].
    specialize (B i _ u (nth_combine ls us i _ u Hl Hu)). cbn beta iota in B. unfold get_sym_def. rewrite B.
    cbn [d_dvs find]. rewrite is_sym_rule_held. cbn [dv_rhs]. f_equal. apply (V _ _ x); [eapply nth_error_In; eauto|].
    intros w Nm Nw. rewrite (K (firstn i (combine ls us)) st1); auto.
    intros p H. apply IN. rewrite <- (firstn_skipn i (combine ls us)). apply in_or_app. now left.
  - intros w Nm Nw. rewrite (K _ st1 IN w Nm Nw). apply G, Nm.
Qed.
Print Assumptions C75_initialisers_in_outer_scope.

(* the body: every occurrence of a local's symbol becomes the generated symbol *)
Lemma pm_get : forall ls us, length us = length ls -> NoDup (map local_sym ls) -> forall pm x,
  pd_get (fold_left (fun pm '(l, u) => pd_set pm (local_sym l) (ESym u)) (combine ls us) pm) x =
  match pd_get (combine (map local_sym ls) (map ESym us)) x with Some v => Some v | None => pd_get pm x end.
Proof.
  induction ls as [|l ls IH]; intros [|u us] L N pm x; try discriminate; cbn [combine map fold_left pd_get]; [reflexivity|].
  cbn [map] in N. inversion N as [|? ? N1 N2]; subst. rewrite IH by (auto; cbn in L; lia). rewrite pd_get_set.
  destruct (String.eqb_spec (local_sym l) x) as [<-|Ne]; [|reflexivity].
  rewrite (proj2 (pd_get_none _ _)); [reflexivity|].
  assert (LM : map fst (combine (map local_sym ls) (map ESym us)) = map local_sym ls).
  { clear - L. revert us L. induction ls as [|a ls IH]; intros [|b us] L; try discriminate; cbn in *; [reflexivity|]. f_equal. apply IH. lia. }
  now rewrite LM.
Qed.
Theorem C75_body fl ev fuel st ls body us e st' :
  module_eval fl ev fuel st ls body = Some (Some (us, e, st')) -> NoDup (map local_sym ls) ->
  subst (combine (map local_sym ls) (map ESym us)) body e.
Proof.
  unfold module_eval. intros M N. destruct (snag_all fl fuel st ls) as [[[us1 st1]|]|] eqn:E; try discriminate.
  injection M as -> <- _. apply snag_all_frame in E. destruct E as [L _]. rewrite replace_pd_go_eq.
  pose proof (pm_get ls us L N []) as Q. set (pm := fold_left _ _ _) in *. clearbody pm.
  induction body as [s|s|z|n d|f|a1 a2 IH1 IH2|l IH] using ex_ind'; cbn [replace_pd]; try (apply S_other; reflexivity).
  - rewrite Q. destruct (pd_get (combine _ _) s) as [v|] eqn:G; cbn [pd_get]; constructor; exact G.
  - constructor. induction IH as [|x l Hx _ IHl]; cbn [map]; constructor; assumption.
Qed.
Print Assumptions C75_body.

(* Module[{x = a, y, z := a}, {x, y, z, a}] where a has the value 7 *)
Definition ev7 (st : state) (e : ex) : ex * state :=
  (match e with ESym s => match get_sym_def st s with Some v => v | None => e end | _ => e end, st).
Definition st7 : state :=
  State [(nModuleNumber, Def [DVal (held (ESym nModuleNumber)) (EInt 1) 0] no_attrs None false);
         ("Global`a"%string, Def [DVal (held (ESym "Global`a")) (EInt 7) 0] no_attrs None false)] false.
Definition fl7 (e : ex) : Z := Z.of_nat (ex_size e).
Example C75_nonvacuous : exists st',
  module_eval fl7 ev7 5 st7 [LSet "x" (ESym "Global`a"); LPlain "y"; LDelayed "z" (ESym "Global`a")]
    (EExpr [sys "List"; ESym "x"; ESym "y"; ESym "z"; ESym "Global`a"]) =
  Some (Some (["x$1"; "y$2"; "z$3"], EExpr [sys "List"; ESym "x$1"; ESym "y$2"; ESym "z$3"; ESym "Global`a"], st'))%string /\
  get_sym_def st' "x$1" = Some (EInt 7) /\ get_sym_def st' "y$2" = None /\ get_sym_def st' "z$3" = Some (ESym "Global`a").
Proof. eexists. split; [vm_compute; reflexivity|]. repeat split; vm_compute; reflexivity. Qed.
(* the hypotheses on the evaluation of the initialisers hold for it *)
Example C75_hypotheses_met : (forall s v, snd (ev7 s v) = s) /\
  forall a b x v, In (LSet x v) [LSet "x"%string (ESym "Global`a"); LPlain "y"; LDelayed "z" (ESym "Global`a")] ->
    agree_outside ["x$1"; "y$2"; "z$3"]%string a b -> fst (ev7 a v) = fst (ev7 b v).
Proof.
  split; [reflexivity|]. intros a b x v [H|[H|[H|[]]]] A; try discriminate. injection H as _ <-. unfold ev7, get_sym_def. cbn [fst].
  rewrite A; [reflexivity|discriminate|]. intros [H|[H|[H|[]]]]; discriminate.
Qed.
