(* Property theorems: DownValues (C60). *)
From Verif Require Import M_Syntax M_Float M_Hash M_Match M_Defs S_Defs S_Cases P_Defs T_Defs.
From Coq Require Import Permutation.
Open Scope nat_scope.

(* the definition f[...] := r as it is shown *)
Definition shown (d : ex * ex) : ex := EExpr [sys "RuleDelayed"; held (fst d); snd d].
Definition compound (e : ex) : bool := match e with EExpr _ => true | _ => false end.
Definition dv_lhs_name : string := sysname "DownValues".

Lemma down_values_filter st s rs : rules_of st s = map (fun '(l, r, z) => DVal (held l) r z) rs ->
  down_values_eval st s = mkList (map (fun '(l, r, _) => shown (l, r)) (filter (fun '(l, _, _) => compound l) rs)).
Proof.
  unfold rules_of, down_values_eval. destruct (lookup st s) as [d|]; intro H.
  - rewrite H. f_equal. clear. induction rs as [|[[l r] z] rs IH]; [reflexivity|]. cbn [map flat_map filter dv_lhs dv_rhs].
    unfold held at 1. destruct l; cbn [compound app map]; rewrite IH; reflexivity.
  - destruct rs; [reflexivity|discriminate].
Qed.

(* DownValues[f] lists the definitions stored for f[...], in the order in which
   they are tried; values of the symbol itself are not listed. *)
Theorem C60_lists_rules : forall st s rs, rules_of st s = map (fun '(l, r, z) => DVal (held l) r z) rs ->
  exists listed own, down_values_eval st s = EExpr (sys "List" :: map (fun '(l, r, _) => shown (l, r)) listed) /\
    parted (fun '(l, _, _) => compound l = true) rs listed own.
Proof.
  intros st s rs H. exists (filter (fun '(l, _, _) => compound l) rs), (filter (fun '(l, _, _) => negb (compound l)) rs).
  split; [rewrite (down_values_filter st s rs H); reflexivity|].
  clear. induction rs as [|[[l r] z] rs IH]; [constructor|]. cbn [filter]. destruct (compound l) eqn:E; cbn [negb].
  - apply pa_yes; assumption.
  - apply pa_no; [congruence|assumption].
Qed.
Print Assumptions C60_lists_rules.

Lemma filter_none {A} (f : A -> bool) l : (forall x, In x l -> f x = false) -> filter f l = [].
Proof. induction l as [|x l IH]; intro H; [reflexivity|]. cbn [filter]. rewrite (H x) by (left; reflexivity). apply IH. intros y Hy. apply H. right. exact Hy. Qed.
(* lists that agree key by key are permutations of each other *)
Lemma filter_perm {A} (k : A -> Z) : forall a b, (forall z, filter (fun x => Z.eqb (k x) z) a = filter (fun x => Z.eqb (k x) z) b) -> Permutation a b.
Proof.
  induction a as [|x a IH]; intros b H.
  - destruct b as [|y b]; [constructor|]. specialize (H (k y)). cbn [filter] in H. rewrite Z.eqb_refl in H. discriminate.
  - assert (S : exists b1 b2, b = b1 ++ x :: b2 /\ forall y, In y b1 -> k y <> k x).
    { specialize (H (k x)). cbn [filter] in H. rewrite Z.eqb_refl in H. clear IH. induction b as [|y b IHb]; [discriminate|].
      cbn [filter] in H. destruct (Z.eqb_spec (k y) (k x)) as [E|N].
      - injection H as <- _. exists [], b. split; [reflexivity|]. intros y [].
      - destruct (IHb H) as [b1 [b2 [-> Hb]]]. exists (y :: b1), b2. split; [reflexivity|]. intros z [<-|Hz]; [exact N|apply Hb, Hz]. }
    destruct S as [b1 [b2 [-> Hb]]]. apply Permutation_cons_app. apply IH. intro z. specialize (H z).
    rewrite filter_app in H |- *. cbn [filter] in H. destruct (Z.eqb_spec (k x) z) as [E|N].
    + assert (K : filter (fun x => Z.eqb (k x) z) b1 = []) by (apply filter_none; intros y Hy; apply Z.eqb_neq; rewrite <- E; apply Hb, Hy).
      rewrite K in H |- *. cbn [app] in H |- *. injection H as H. exact H.
    + exact H.
Qed.
Lemma map_perm_inj {A B} (f : A -> B) : (forall x y, f x = f y -> x = y) -> forall a b, Permutation (map f a) (map f b) -> Permutation a b.
Proof. intros Hf a b P. destruct (Permutation_map_inv f b P) as [l [E Q]].
  assert (a = l) as <-. { clear - E Hf. revert l E. induction a as [|x a IH]; intros [|y l] E; try discriminate; [reflexivity|]. injection E as E1 E2. rewrite (Hf _ _ E1), (IH _ E2). reflexivity. }
  apply Permutation_sym, Q. Qed.

(* after any sequence of definitions f[...] = r, DownValues[f] lists exactly the
   remembered definitions (for each left-hand side its latest right-hand side) *)
Theorem C60_lists_definitions_partial : forall fl n h st st',
  st_frozen st = false -> rules_of st n = [] ->
  Forall (fun p => rule_lhs (fst p) n /\ compound (fst p) = true) h ->
  (forall r1 r2, In r1 (map snd h) -> In r2 (map snd h) ->
     is_sameq (mask_non_conditional r1) (mask_non_conditional r2) = true -> (is_cond r1 <-> is_cond r2)) ->
  run fl st h = Some st' ->
  exists l, down_values_eval st' n = EExpr (sys "List" :: map shown l) /\ Permutation l (replay h).
Proof.
  intros fl n h st st' F0 R0 FA CC RUN.
  assert (FL : Forall (fun p => rule_lhs (fst p) n) h) by (eapply Forall_impl; [|exact FA]; intros p [H _]; exact H).
  destruct (C29_rules_sorted_by_specificity_partial fl n h st st' F0 R0 FL CC RUN) as [specs [SP [_ EQ]]].
  set (ky := fun p : ex * ex => rule_specificity fl (fst p) (snd p) n) in *.
  set (pr := fun d : dval => (dv_lhs d, dv_rhs d)) in *. set (hp := fun p : ex * ex => (held (fst p), snd p)) in *.
  assert (P : Permutation (map pr (rules_of st' n)) (map hp (replay h))).
  { apply (filter_perm ky). intro z. specialize (EQ z).
    transitivity (map pr (map fst (filter (fun p => Z.eqb (snd p) z) (combine (rules_of st' n) specs)))).
    - clear EQ. induction SP as [|d sp rs specs [lhs [E1 E2]] SP IH]; [reflexivity|]. cbn [map combine filter snd].
      apply specificity_unique in E2. assert (K : ky (pr d) = sp) by (unfold ky, pr; cbn [fst snd]; rewrite E1; congruence).
      rewrite K, IH. destruct (Z.eqb sp z); reflexivity.
    - rewrite EQ. clear. induction (replay h) as [|p t IH]; [reflexivity|]. cbn [map filter].
      change (ky (hp p)) with (rule_specificity fl (held (fst p)) (snd p) n).
      destruct (Z.eqb _ z); cbn [map]; rewrite IH; reflexivity. }
  assert (CR : forall p, In p (replay h) -> compound (fst p) = true).
  { assert (G : forall h1 m, (forall p, In p m -> compound (fst p) = true) -> Forall (fun p => rule_lhs (fst p) n /\ compound (fst p) = true) h1 ->
       forall p, In p (fold_left (fun m '(l, r) => remember m l r) h1 m) -> compound (fst p) = true).
    { induction h1 as [|[l r] h1 IH]; intros m Hm HF p Hp; [apply Hm, Hp|]. inversion HF as [|? ? [_ Hc] HF']; subst.
      apply (IH (remember m l r)); [|exact HF'|exact Hp]. clear - Hm Hc. cbn [fst] in Hc.
      induction m as [|[l0 r0] m IHm]; cbn [remember].
      - intros p [<-|[]]. exact Hc.
      - destruct (keyb (held l0) r0 (held l) r).
        + intros p [<-|Hp]; [apply (Hm (l0, r0)); left; reflexivity|]. apply Hm. right. exact Hp.
        + intros p [<-|Hp]; [apply (Hm (l0, r0)); left; reflexivity|]. apply IHm; [|exact Hp]. intros q Hq. apply Hm. right. exact Hq. }
    apply (G h []); [intros p []|exact FA]. }
  (* the stored rules in the shape expected by down_values_filter *)
  assert (SH : exists rs, rules_of st' n = map (fun '(l, r, z) => DVal (held l) r z) rs /\ map pr (rules_of st' n) = map hp (map fst rs)).
  { clear - SP. induction SP as [|d sp rs specs [lhs [E1 _]] SP [rs' [IH1 IH2]]]; [exists []; split; reflexivity|].
    exists ((lhs, dv_rhs d, dv_spec d) :: rs'). cbn [map]. destruct d as [dl dr ds]. cbn [dv_lhs dv_rhs dv_spec] in *. subst dl. split.
    - rewrite <- IH1. reflexivity.
    - rewrite IH2. reflexivity. }
  destruct SH as [rs [S1 S2]]. exists (map fst rs). rewrite S2 in P. apply map_perm_inj in P.
  - split; [|exact P]. rewrite (down_values_filter st' n rs S1). unfold mkList, sList. apply (f_equal (fun l => EExpr (sys "List" :: l))). rewrite map_map.
    assert (CA : forall x, In x rs -> compound (fst (fst x)) = true).
    { intros x Hx. apply CR. eapply Permutation_in; [exact P|]. apply in_map, Hx. }
    clear - CA. induction rs as [|[[l r] z] rs IH]; [reflexivity|]. cbn [filter map fst].
    assert (compound l = true) as -> by (apply (CA (l, r, z)); left; reflexivity). cbn [map].
    rewrite IH; [reflexivity|]. intros x Hx. apply CA. right. exact Hx.
  - intros [a b] [a' b'] E. unfold hp, held in E. cbn [fst snd] in E. injection E as -> ->. reflexivity.
Qed.
Print Assumptions C60_lists_definitions_partial.
Example C60_ex_definitions : exists st', run fl0 empty_state [(fx xs, EInt 20); (fx (EInt 1), EInt 10); (fx xs, EInt 30)] = Some st' /\
  down_values_eval st' "Global`f" = mkList (map shown [(fx (EInt 1), EInt 10); (fx xs, EInt 30)]) /\
  replay [(fx xs, EInt 20); (fx (EInt 1), EInt 10); (fx xs, EInt 30)] = [(fx xs, EInt 30); (fx (EInt 1), EInt 10)].
Proof. eexists. split; [vm_compute; reflexivity|]. split; vm_compute; reflexivity. Qed.

(* DownValues[f] = {l1 -> r1, ...} reads back, with :> *)
Definition rule_shape (delayed : bool) (p : ex * ex) : ex :=
  EExpr [sys (if delayed then "RuleDelayed" else "Rule"); fst p; snd p].
Lemma as_rules_shapes ds : as_rules (map (fun '(b, p) => rule_shape b p) ds) = Some (map (fun '(_, p) => DVal (fst p) (snd p) 0) ds).
Proof.
  induction ds as [|[b p] ds IH]; [reflexivity|]. cbn [map as_rules]. rewrite IH.
  destruct b; reflexivity.
Qed.
Theorem C60_round_trip : forall fl st s ds, st_frozen st = false ->
  Forall (fun '(_, p) => exists x l, fst p = held (EExpr (x :: l))) ds ->
  exists st', define fl st (EExpr [sys "DownValues"; ESym s]) (mkList (map (fun '(b, p) => rule_shape b p) ds)) = Some st' /\
    down_values_eval st' s = mkList (map (fun '(_, p) => rule_shape true p) ds) /\
    (forall m, m <> s -> lookup st' m = lookup st m) /\
    attributes_eval st' s = attributes_eval st s.
Proof.
  intros fl st s ds F H. unfold define. rewrite F. change (String.eqb (sysname "DownValues") (sysname "Attributes")) with false.
  change (String.eqb (sysname "DownValues") (sysname "DownValues")) with true. cbn [sys].
  unfold define_down_values. change (head_assertion (mkList ?l) nList) with (Some (sys "List" :: l)). cbv beta iota.
  rewrite as_rules_shapes. eexists. split; [reflexivity|]. split; [|split].
  - unfold down_values_eval. rewrite lookup_set_same. cbn [d_dvs]. f_equal.
    induction H as [|[b p] ds [x [l E]] H IH]; [reflexivity|]. cbn [map flat_map dv_lhs dv_rhs]. rewrite IH, E. cbn [held app].
    unfold rule_shape. cbn [sys]. rewrite E. reflexivity.
  - intros m N. apply lookup_set_other. congruence.
  - unfold attributes_eval. rewrite lookup_set_same. cbn [d_attrs]. destruct (lookup st s); reflexivity.
Qed.
Print Assumptions C60_round_trip.

(* DownValues[g] = DownValues[f] makes every call of g behave like the call of f:
   whatever it means for a rule to apply (as long as it depends only on the two
   sides, and rules for the bare symbol never apply), the same right-hand side
   is found.  With g = f: assigning the list back changes no call. *)
Theorem C60_copy : forall fl st f g rs, st_frozen st = false -> rules_of st f = map (fun '(l, r, z) => DVal (held l) r z) rs ->
  exists st', define fl st (EExpr [sys "DownValues"; ESym g]) (down_values_eval st f) = Some st' /\
    forall fire : ex -> ex -> option ex, (forall l r, compound l = false -> fire (held l) r = None) ->
      get_expr_def (fun d => fire (dv_lhs d) (dv_rhs d)) st' g = get_expr_def (fun d => fire (dv_lhs d) (dv_rhs d)) st f.
Proof.
  intros fl st f g rs F H. rewrite (down_values_filter st f rs H). unfold define. rewrite F.
  change (String.eqb (sysname "DownValues") (sysname "Attributes")) with false.
  change (String.eqb (sysname "DownValues") (sysname "DownValues")) with true. cbn [sys].
  unfold define_down_values. change (head_assertion (mkList ?l) nList) with (Some (sys "List" :: l)). cbv beta iota.
  set (sel := filter (fun '(l, _, _) => compound l) rs).
  assert (A : as_rules (map (fun '(l, r, _) => shown (l, r)) sel) = Some (map (fun '(l, r, _) => DVal (held l) r 0) sel)).
  { clear. clearbody sel. induction sel as [|[[l r] z] t IH]; [reflexivity|]. cbn [map as_rules]. rewrite IH. reflexivity. }
  rewrite A. eexists. split; [reflexivity|]. intros fire Hf. unfold get_expr_def. rewrite lookup_set_same. cbn [d_dvs].
  unfold rules_of in H.
  assert (B : first_rule (fun d => fire (dv_lhs d) (dv_rhs d)) (map (fun '(l, r, _) => DVal (held l) r 0%Z) sel)
            = first_rule (fun d => fire (dv_lhs d) (dv_rhs d)) (map (fun '(l, r, z) => DVal (held l) r z) rs)).
  { subst sel. clear A H. induction rs as [|[[l r] z] rs IH]; [reflexivity|]. cbn [filter]. destruct (compound l) eqn:E.
    - cbn [map first_rule dv_lhs dv_rhs]. rewrite IH. reflexivity.
    - cbn [map first_rule dv_lhs dv_rhs]. rewrite (Hf l r E). exact IH. }
  rewrite B. destruct (lookup st f) as [d|]; [rewrite H; reflexivity|]. destruct rs; [reflexivity|discriminate].
Qed.
Print Assumptions C60_copy.

(* but a value of the symbol itself is lost: x = 5; DownValues[x] = DownValues[x] *)
Theorem C60_own_value_lost_refuted : exists st st', get_sym_def st "Global`x" = Some (EInt 5) /\
  define fl0 st (EExpr [sys "DownValues"; ESym "Global`x"]) (down_values_eval st "Global`x") = Some st' /\
  get_sym_def st' "Global`x" = None.
Proof.
  exists (State [("Global`x"%string, Def [DVal (held (ESym "Global`x")) (EInt 5) 0] no_attrs None false)] false).
  eexists. repeat split; vm_compute; reflexivity.
Qed.
Print Assumptions C60_own_value_lost_refuted.

Example C60_ex : rules_of gst "Global`f" = map (fun '(l, r, z) => DVal (held l) r z) [(fx (EInt 1), EInt 10, 0%Z); (fx xs, EInt 20, 0%Z)] /\
  down_values_eval gst "Global`f" = mkList [shown (fx (EInt 1), EInt 10); shown (fx xs, EInt 20)].
Proof. split; reflexivity. Qed.
