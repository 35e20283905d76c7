(* Property theorems: Unique, Hash, Default (C129). *)
From Verif Require Import M_Syntax M_Float M_Hash M_Match M_Defs S_Defs P_Hash P_Defs P_Defs2 P_Defs3 P_Defs4 M_Unique.
From Coq Require Import String List Lia. Import ListNotations.
Open Scope nat_scope.

Lemma append_inj_l p s t : append p s = append p t -> s = t.
Proof. induction p as [|c p IH]; cbn [append]; intro H; [exact H|]. injection H as H. apply IH, H. Qed.
Lemma unique_loop_some fuel : forall st b mn r, unique_loop fuel st b mn = Some r ->
  is_def st (append b (dec r)) = false /\ (mn <= r)%Z /\ forall k, (mn <= k < r)%Z -> is_def st (append b (dec k)) = true.
Proof.
  induction fuel as [|f IH]; intros st b mn r H; [discriminate|]. cbn [unique_loop] in H.
  destruct (is_def st (append b (dec mn))) eqn:E.
  - apply IH in H. destruct H as (A & B & C). split; [exact A|]. split; [lia|]. intros k K.
    destruct (Z.eq_dec k mn) as [->|N]; [exact E|]. apply C. lia.
  - injection H as <-. split; [exact E|]. split; [lia|]. intros; lia.
Qed.
Lemma unique_loop_none fuel : forall st b mn, unique_loop fuel st b mn = None ->
  forall k, (mn <= k < mn + Z.of_nat fuel)%Z -> is_def st (append b (dec k)) = true.
Proof.
  induction fuel as [|f IH]; intros st b mn H k K; [lia|]. cbn [unique_loop] in H.
  destruct (is_def st (append b (dec mn))) eqn:E; [|discriminate].
  destruct (Z.eq_dec k mn) as [->|N]; [exact E|]. apply (IH st b (mn + 1)%Z H). lia.
Qed.
Lemma unique_loop_total fuel st b mn : length (st_defs st) < fuel -> exists r, unique_loop fuel st b mn = Some r.
Proof.
  intro L. destruct (unique_loop fuel st b mn) as [r|] eqn:E; [eauto|]. exfalso.
  pose proof (unique_loop_none fuel st b mn E) as A.
  assert (length (map (fun i => append b (dec (mn + Z.of_nat i))) (seq 0 fuel)) <= length (map fst (st_defs st))) as X.
  { apply NoDup_incl_length.
    - apply nodup_map_inj; [|apply seq_NoDup]. intros x y H. apply append_inj_l, dec_inj in H. lia.
    - intros u I. apply in_map_iff in I. destruct I as (i & <- & I). apply in_seq in I. apply is_def_in. apply A. lia. }
  rewrite !map_length, seq_length in X. lia.
Qed.
Lemma unique_some fl fuel st args u st' : unique_fn fl fuel st args = UName u st' ->
  exists p z mn, unique_prefix args = Some p /\ get_sym_def st nModuleNumber = Some (EInt z) /\
    unique_loop fuel st (append "Global`" p) (wrap64 z) = Some mn /\
    define fl st (ESym nModuleNumber) (EInt (mn + 1)) = Some st' /\ u = append (append "Global`" p) (dec mn).
Proof.
  unfold unique_fn. destruct (unique_prefix args) as [p|]; [|discriminate].
  destruct (get_sym_def st nModuleNumber) as [[ | |z| | | | ]|]; try discriminate.
  destruct (unique_loop fuel st (append "Global`" p) (wrap64 z)) as [mn|] eqn:E; [|discriminate].
  destruct (define fl st (ESym nModuleNumber) (EInt (mn + 1))) as [s1|] eqn:D; [|discriminate].
  intro H. injection H as <- <-. exists p, z, mn. auto.
Qed.

(* ---- C129 ---- *)
(* the symbol Unique makes had no definition, begins with the prefix, and no
   definition is lost *)
Theorem C129_unique_is_new : forall fl fuel st args u st', unique_fn fl fuel st args = UName u st' ->
  is_def st u = false /\ (exists p n, unique_prefix args = Some p /\ u = append (append "Global`" p) (dec n)) /\
  (forall m, is_def st m = true -> is_def st' m = true).
Proof.
  intros fl fuel st args u st' H. apply unique_some in H. destruct H as (p & z & mn & P & _ & E & D & ->).
  apply unique_loop_some in E. destruct E as (E & _ & _). split; [exact E|]. split; [eauto|].
  apply (define_grows fl st _ _ st' D).
Qed.
Print Assumptions C129_unique_is_new.
(* in an ordinary state it always finds one, and $ModuleNumber passes the number *)
Theorem C129_unique_works : forall fl st args p z, unique_prefix args = Some p ->
  mn_state st z -> in64 z ->
  exists fuel u st' n, unique_fn fl fuel st args = UName u st' /\ u = append (append "Global`" p) (dec n) /\
    (z <= n)%Z /\ mn_state st' (n + 1).
Proof.
  intros fl st args p z P M I64.
  destruct (unique_loop_total (S (length (st_defs st))) st (append "Global`" p) z (Nat.lt_succ_diag_r _)) as [mn E].
  destruct (mn_define fl st z (mn + 1)%Z M) as (s1 & D & M1 & _ & _).
  exists (S (length (st_defs st))), (append (append "Global`" p) (dec mn)), s1, mn.
  unfold unique_fn. rewrite P, (mn_get st z M), (wrap64_id z I64), E, D. apply unique_loop_some in E. destruct E as (_ & LE & _). auto.
Qed.
Print Assumptions C129_unique_works.
(* two calls with the same prefix never give the same symbol, if $ModuleNumber
   has not been set back in between *)
Theorem C129_same_prefix_distinct : forall fl fuel1 fuel2 st1 st2 st2' st3 args1 args2 u1 u2 z1 z2,
  unique_prefix args1 = unique_prefix args2 ->
  mn_state st1 z1 -> unique_fn fl fuel1 st1 args1 = UName u1 st2 ->
  mn_state st2' z2 -> in64 z2 -> (forall n, mn_state st2 n -> (n <= z2)%Z) ->
  unique_fn fl fuel2 st2' args2 = UName u2 st3 -> u1 <> u2.
Proof.
  intros fl fuel1 fuel2 st1 st2 st2' st3 args1 args2 u1 u2 z1 z2 EP M1 H1 M2 I2 Le H2 E.
  apply unique_some in H1. destruct H1 as (p1 & y1 & n1 & P1 & _ & _ & D1 & ->).
  apply unique_some in H2. destruct H2 as (p2 & y2 & n2 & P2 & G2 & E2 & _ & ->).
  rewrite P1, P2 in EP. injection EP as ->. apply append_inj_l, dec_inj in E. subst n2.
  rewrite (mn_get st2' z2 M2) in G2. injection G2 as <-. rewrite (wrap64_id z2 I2) in E2.
  apply unique_loop_some in E2. destruct E2 as (_ & L & _).
  destruct (mn_define fl st1 z1 (n1 + 1)%Z M1) as (s1 & D & M & _ & _). rewrite D in D1. injection D1 as <-.
  specialize (Le _ M). lia.
Qed.
Print Assumptions C129_same_prefix_distinct.

Definition ust (z : Z) : state :=
  State [(nModuleNumber, Def [DVal (held (ESym nModuleNumber)) (EInt z) 0] no_attrs None false)] false.
Example C129_nonvacuous : exists st2, mn_state (ust 4) 4 /\
  unique_fn (fun _ => 0%Z) 5 (ust 4) [] = UName "Global`$4" st2 /\
  exists st3, unique_fn (fun _ => 0%Z) 5 st2 [EStr "v"] = UName "Global`v5" st3.
Proof. eexists. split; [split; [reflexivity|exists 0%Z; reflexivity]|]. split; [vm_compute; reflexivity|]. eexists. vm_compute. reflexivity. Qed.

(* the state after Unique[p] *)
Definition after_unique (p : string) (st : state) : state :=
  match unique_fn (fun _ => 0%Z) 20 st [EStr p] with UName _ st' => st' | _ => st end.
(* two prefixes can give the same symbol, with nothing but calls of Unique in
   between: the number follows the prefix without a separator, and a symbol just
   made is not yet a defined one.  Here Unique["x1"], nine times Unique["y"],
   Unique["x"] *)
Theorem C129_two_prefixes_refuted : exists p1 p2 st1 u st2 st3, p1 <> p2 /\
  unique_fn (fun _ => 0%Z) 5 st1 [EStr p1] = UName u st2 /\
  unique_fn (fun _ => 0%Z) 5 (Nat.iter 9 (after_unique "y") st2) [EStr p2] = UName u st3.
Proof.
  exists "x1"%string, "x"%string, (ust 1), "Global`x11"%string, (after_unique "x1" (ust 1)),
    (after_unique "x" (Nat.iter 9 (after_unique "y") (after_unique "x1" (ust 1)))).
  split; [discriminate|]. split; vm_compute; reflexivity.
Qed.
Print Assumptions C129_two_prefixes_refuted.
(* while the definitions are frozen, two calls give the same symbol *)
Theorem C129_frozen_refuted : exists st u st2 st3, st_frozen st = true /\
  unique_fn (fun _ => 0%Z) 5 st [] = UName u st2 /\ unique_fn (fun _ => 0%Z) 5 st2 [] = UName u st3.
Proof.
  set (s0 := State (st_defs (ust 1)) true).
  exists s0, "Global`$1"%string, (after_unique "$" s0), (after_unique "$" (after_unique "$" s0)).
  split; [reflexivity|]. split; vm_compute; reflexivity.
Qed.
Print Assumptions C129_frozen_refuted.

(* Hash tells expressions apart exactly when SameQ does; machine reals are
   compared by SameQ up to rounding *)
Theorem C129_hash_sameq : forall a b, is_flt a = false ->
  (hash_fn [a] = hash_fn [b] <-> is_sameq a b = true).
Proof.
  intros a b F. rewrite is_sameq_hash by exact F. rewrite N.eqb_eq. cbn [hash_fn]. split.
  - intro H. assert (E : Z.of_N (hash a) = Z.of_N (hash b)) by (remember (Z.of_N (hash a)); remember (Z.of_N (hash b)); congruence).
    apply N2Z.inj, E.
  - intro E. rewrite E. reflexivity.
Qed.
Print Assumptions C129_hash_sameq.

(* Default: what the symbol's definition holds as its default, nothing else *)
Theorem C129_default : forall st args d, default_fn st args = Some d <->
  exists s df, args = [ESym s] /\ lookup st s = Some df /\ d_default df = Some d.
Proof.
  intros st args d. split.
  - destruct args as [|[s|s|z|n m|f|a1 a2|l] [|? ?]]; cbn [default_fn]; try discriminate.
    destruct (lookup st s) as [df|] eqn:L; [|discriminate]. eauto.
  - intros (s & df & -> & L & D). cbn [default_fn]. rewrite L. exact D.
Qed.
Print Assumptions C129_default.
Example C129_default_nonvacuous :
  default_fn (State [("System`Plus"%string, Def [] no_attrs (Some (EInt 0)) true)] false) [ESym "System`Plus"] = Some (EInt 0).
Proof. reflexivity. Qed.
