(* Property theorems: Part, set operations, list surgery, padding, Flatten
   (C41-C45). *)
From Verif Require Import M_Syntax M_Float M_Hash M_Order M_Sort M_Compare M_Match M_List
  S_Syntax S_Order S_Sort S_Comb S_List P_Hash P_Order P_OrderTrans P_OrderZero P_Sort P_List.
From Coq Require Import Permutation.
Open Scope nat_scope.

Local Definition a := ESym "Global`a".
Local Definition b := ESym "Global`b".
Local Definition c := ESym "Global`c".
Local Definition f := ESym "Global`f".

(* C41 *)
(* e[[i]], 0 <= i <= n: part number i of h[a1,...,an] *)
Theorem C41_integer_index : forall h args i p,
  (i <= length args) -> in_int64 (Z.of_nat i) -> nth_error (h :: args) i = Some p ->
  part_eval [EExpr (h :: args); EInt (Z.of_nat i)] = Some p.
Proof.
  intros h args i p Hi I N. 
  assert (F : Forall index_ok [EInt (Z.of_nat i)]) by (constructor; [exact I|constructor]).
  apply (part_iff _ F (EExpr (h :: args)) p). econstructor; [eassumption|constructor].
Qed.
Print Assumptions C41_integer_index.

(* every other machine-sized index leaves the expression unevaluated *)
Theorem C41_out_of_range : forall h args z,
  in_int64 z -> (z < 0 \/ Z.of_nat (length args) < z)%Z ->
  part_eval [EExpr (h :: args); EInt z] = None.
Proof.
  intros h args z I O. cbn [part_eval apply_index].
  destruct (validate_index (EInt z) (length (h :: args))) as [k|] eqn:V; [|reflexivity].
  apply validate_some in V; [|assumption]. cbn [length] in V. lia.
Qed.
Print Assumptions C41_out_of_range.

(* e[[All]] with nested indices maps over the arguments; ranges and nesting *)
Theorem C41_part : forall ix e x, Forall index_ok ix ->
  (part_eval (e :: ix) = Some x <-> part_of ix e x).
Proof. intros ix e x H. exact (part_iff ix H e x). Qed.
Print Assumptions C41_part.

Example C41_nonvacuous :
  let m := mkList [mkList [a; b]; mkList [EInt 7; c]] in
  part_eval [m; EInt 2; EInt 1] = Some (EInt 7) /\
  part_eval [m; ESym "System`All"; EInt 2] = Some (mkList [b; c]) /\
  part_eval [EExpr [f; a; b; c]; EExpr [ESym "System`Span"; EInt 2; EInt 3]] = Some (EExpr [f; b; c]) /\
  Forall index_ok [ESym "System`All"; EExpr [ESym "System`Span"; EInt 2; EInt 3]; EInt 2].
Proof. repeat split; try reflexivity. repeat constructor; unfold in_int64; cbn; lia. Qed.

(* negative indices are not supported *)
Theorem C41_negative_refuted : exists h x y,
  part_eval [EExpr [h; x; y]; EInt (-1)] = None.
Proof. exists (sys "List"), a, b. reflexivity. Qed.
Print Assumptions C41_negative_refuted.

(* {a,b}[[18446744073709551617]] is a *)
Theorem C41_huge_index_refuted : exists h args z p,
  (Z.of_nat (length args) < z)%Z /\ part_eval [EExpr (h :: args); EInt z] = Some p.
Proof. exists (sys "List"), [a; b], (2 ^ 64 + 1)%Z, a. split; [cbn; lia|reflexivity]. Qed.
Print Assumptions C41_huge_index_refuted.

(* f[a,b][[0;;1]] contains the head as an element: f[f, a] *)
Theorem C41_span_head_refuted : exists h x y,
  part_eval [EExpr [h; x; y]; EExpr [ESym "System`Span"; EInt 0; EInt 1]] = Some (EExpr [h; h; x]).
Proof. exists f, a, b. reflexivity. Qed.
Print Assumptions C41_span_head_refuted.

(* C42 *)
Theorem C42_delete_duplicates : forall h l,
  exists l', delete_duplicates_eval [EExpr (h :: l)] = Some (EExpr (h :: l')) /\ first_occurrences l l'.
Proof. intros h l. exists (keep_new (fun _ => true) [] l). split; [reflexivity|apply keep_new_all]. Qed.
Print Assumptions C42_delete_duplicates.

Theorem C42_delete_duplicates_set : forall h l, hash_faithful l ->
  exists l', delete_duplicates_eval [EExpr (h :: l)] = Some (EExpr (h :: l')) /\
    NoDup l' /\ (forall x, In x l' <-> In x l).
Proof.
  intros h l F. destruct (C42_delete_duplicates h l) as (l' & E & FO). exists l'. split; [assumption|].
  apply fo_faithful; assumption.
Qed.
Print Assumptions C42_delete_duplicates_set.

Local Lemma wf_all h l : wf (EExpr (h :: l)) = true -> all_wf l.
Proof. intros W x Hx. apply (wf_expr _ W). right. assumption. Qed.

Local Lemma fo_all_wf l l' : first_occurrences l l' -> all_wf l -> all_wf l'.
Proof. intros H W x Hx. apply W. apply (proj1 (fo_facts _ _ H)). assumption. Qed.

(* Complement[l, l1, ..., lk] = the elements of l in none of the others, once
   each, sorted *)
Theorem C42_complement : forall h l ls,
  wf (EExpr (h :: l)) = true -> hash_faithful (concat (l :: ls)) ->
  exists r, complement_eval (map (fun l => EExpr (h :: l)) (l :: ls)) = Some (EExpr (h :: r)) /\
    NoDup r /\ adjacent_ordered r /\
    forall x, In x r <-> In x l /\ forall l', In l' ls -> ~ In x l'.
Proof.
  intros h l ls W F. unfold complement_eval. rewrite headed_complete. eexists. split; [reflexivity|].
  rewrite keep_new_filter. set (ok := fun x : ex => negb (existsb (N.eqb (hash x)) (map hash (concat ls)))).
  assert (Hok : forall x, In x l -> ok x = true <-> ~ In x (concat ls)).
  { intros x Hx. unfold ok. rewrite negb_true_iff, existsb_N_false. split; intros N K; apply N.
    - apply in_map. assumption.
    - apply in_map_iff in K. destruct K as (y & E & Hy). rewrite (F x y); [assumption| | |congruence];
        cbn [concat]; apply in_app_iff; auto. }
  pose proof (keep_new_all (filter ok l)) as FO.
  set (k := keep_new (fun _ => true) [] (filter ok l)) in *.
  assert (Wk : all_wf k).
  { intros x Hx. apply (wf_all h l W). apply (proj1 (fo_facts _ _ FO)) in Hx. apply filter_In in Hx. tauto. }
  assert (FF : hash_faithful (filter ok l)).
  { intros x y Hx Hy. apply filter_In in Hx. apply filter_In in Hy. apply F; cbn [concat]; apply in_app_iff; tauto. }
  destruct (fo_faithful _ _ FF FO) as [ND IN].
  pose proof (insertion_sort_perm k Wk) as P. split; [|split].
  - apply (Permutation_NoDup P ND).
  - apply insertion_sort_adjacent. assumption.
  - intro x. split.
    + intro H. apply (Permutation_in _ (Permutation_sym P)) in H. apply IN in H. apply filter_In in H.
      destruct H as [H1 H2]. split; [assumption|]. apply (Hok x H1) in H2. intros l' Hl K. apply H2.
      apply in_concat. exists l'. split; assumption.
    + intros [H1 H2]. apply (Permutation_in _ P). apply IN. apply filter_In. split; [assumption|].
      apply (Hok x H1). intro K. apply in_concat in K. destruct K as (l' & K1 & K2). apply (H2 l'); assumption.
Qed.
Print Assumptions C42_complement.

(* Intersection: the elements of the first that are in all, once each, sorted *)
Theorem C42_intersection : forall h l ls,
  wf (EExpr (h :: l)) = true -> hash_faithful (concat (l :: ls)) ->
  exists r, intersection_eval (map (fun l => EExpr (h :: l)) (l :: ls)) = Some (EExpr (h :: r)) /\
    NoDup r /\ adjacent_ordered r /\
    forall x, In x r <-> forall l', In l' (l :: ls) -> In x l'.
Proof.
  intros h l ls W F. unfold intersection_eval. rewrite headed_complete. eexists. split; [reflexivity|].
  rewrite keep_new_filter, map_length.
  set (ok := fun x : ex => Nat.eqb (hash_count (l :: ls) (hash x)) (length (l :: ls))).
  assert (Hok : forall x, In x l -> ok x = true <-> forall l', In l' (l :: ls) -> In x l').
  { intros x Hx. unfold ok. rewrite Nat.eqb_eq, hash_count_all. split; intros N l' Hl.
    - specialize (N l' Hl). apply in_map_iff in N. destruct N as (y & E & Hy).
      rewrite (F x y); [assumption| |apply in_concat; exists l'; split; assumption|congruence].
      cbn [concat]. apply in_app_iff. left. assumption.
    - apply in_map. apply N. assumption. }
  pose proof (keep_new_all (filter ok l)) as FO.
  set (k := keep_new (fun _ => true) [] (filter ok l)) in *.
  assert (Wk : all_wf k).
  { intros x Hx. apply (wf_all h l W). apply (proj1 (fo_facts _ _ FO)) in Hx. apply filter_In in Hx. tauto. }
  assert (FF : hash_faithful (filter ok l)).
  { intros x y Hx Hy. apply filter_In in Hx. apply filter_In in Hy. apply F; cbn [concat]; apply in_app_iff; tauto. }
  destruct (fo_faithful _ _ FF FO) as [ND IN].
  pose proof (insertion_sort_perm k Wk) as P. split; [|split].
  - apply (Permutation_NoDup P ND).
  - apply insertion_sort_adjacent. assumption.
  - intro x. split.
    + intro H. apply (Permutation_in _ (Permutation_sym P)) in H. apply IN in H. apply filter_In in H.
      destruct H as [H1 H2]. apply (Hok x H1). assumption.
    + intro H. apply (Permutation_in _ P). apply IN. apply filter_In. split; [apply H; left; reflexivity|].
      apply Hok; [apply H; left; reflexivity|assumption].
Qed.
Print Assumptions C42_intersection.

(* Union.  Full statement: no condition on the elements besides faithfulness.
   Proved for elements on which the order is antisymmetric and transitive. *)
Theorem C42_union_partial : forall h l ls,
  (forall x, In x (concat (l :: ls)) -> settled x = true /\ tidy x = true) ->
  sameq_faithful (concat (l :: ls)) ->
  exists r, union_eval (map (fun l => EExpr (h :: l)) (l :: ls)) = Some (EExpr (h :: r)) /\
    NoDup r /\ all_ordered r /\
    forall x, In x r <-> exists l', In l' (l :: ls) /\ In x l'.
Proof.
  intros h l ls W F. unfold union_eval. cbn [map]. change (EExpr (h :: l) :: map (fun l => EExpr (h :: l)) ls) with (map (fun l => EExpr (h :: l)) (l :: ls)).
  rewrite headed_complete. eexists. split; [reflexivity|].
  set (all := concat (l :: ls)) in *.
  assert (Wa : all_wf all) by (intros x Hx; apply settled_wf; apply W; assumption).
  pose proof (insertion_sort_perm all Wa) as P.
  assert (W' : forall x, In x (insertion_sort all) -> In x all).
  { intros x Hx. apply (Permutation_in _ (Permutation_sym P) Hx). }
  assert (O : all_ordered (insertion_sort all)).
  { apply adjacent_all; [|apply insertion_sort_adjacent; assumption].
    intros x Hx. apply W' in Hx. split; [apply Wa; assumption|apply W; assumption]. }
  destruct (drop_repeats_none (insertion_sort all)) as [N I].
  - intros x y Hx Hy. apply F; apply W'; assumption.
  - intros x y Hx Hy. apply settled_antisym; apply W; apply W'; assumption.
  - assumption.
  - split; [assumption|]. split; [apply drop_repeats_ordered; assumption|].
    intro x. rewrite I. split.
    + intro H. apply W' in H. apply in_concat in H. destruct H as (l' & H1 & H2). exists l'. auto.
    + intros (l' & H1 & H2). apply (Permutation_in _ P). apply in_concat. exists l'. auto.
Qed.
Print Assumptions C42_union_partial.

(* Union[{Hold[x], Hold[1*x], Hold[x]}] keeps Hold[x] twice *)
Theorem C42_union_refuted : exists x y,
  union_eval [mkList [x; y; x]] = Some (mkList [x; y; x]) /\ x <> y /\ wf x = true /\ wf y = true.
Proof.
  exists (EExpr [sys "Hold"; a]), (EExpr [sys "Hold"; EExpr [sys "Times"; EInt 1; a]]).
  repeat split; try (vm_compute; reflexivity). discriminate.
Qed.
Print Assumptions C42_union_refuted.

(* all of them need equal heads *)
Theorem C42_different_heads : forall h l h' l' rest,
  is_sameq h h' = false ->
  let args := EExpr (h :: l) :: EExpr (h' :: l') :: rest in
  union_eval args = None /\ complement_eval args = None /\ intersection_eval args = None /\ join_eval args = None.
Proof.
  intros h l h' l' rest N args. unfold union_eval, complement_eval, intersection_eval, join_eval, args, headed_lists.
  cbn [same_heads]. rewrite N. repeat split; reflexivity.
Qed.
Print Assumptions C42_different_heads.

Example C42_nonvacuous :
  let l1 := [c; a; b; a] in let l2 := [b; EInt 3; b] in
  hash_faithful (concat [l1; l2]) /\ sameq_faithful (concat [l1; l2]) /\
  (forall x, In x (concat [l1; l2]) -> settled x = true /\ tidy x = true) /\
  delete_duplicates_eval [mkList l1] = Some (mkList [c; a; b]) /\
  union_eval [mkList l1; mkList l2] = Some (mkList [EInt 3; a; b; c]) /\
  intersection_eval [mkList l1; mkList l2] = Some (mkList [b]) /\
  complement_eval [mkList l1; mkList l2] = Some (mkList [a; c]).
Proof.
  assert (H : forallb (fun x => forallb (fun y => ex_eqb x y || negb (N.eqb (hash x) (hash y)) && negb (is_sameq x y)) [c; a; b; a; b; EInt 3; b]) [c; a; b; a; b; EInt 3; b] = true)
    by (vm_compute; reflexivity).
  rewrite forallb_forall in H.
  assert (K : forall x y, In x [c; a; b; a; b; EInt 3; b] -> In y [c; a; b; a; b; EInt 3; b] -> hash x = hash y \/ is_sameq x y = true -> x = y).
  { intros x y Hx Hy E. specialize (H x Hx). rewrite forallb_forall in H. specialize (H y Hy).
    apply orb_true_iff in H. destruct H as [H|H]; [apply ex_eqb_eq; assumption|].
    apply andb_true_iff in H. destruct H as [H1 H2]. apply negb_true_iff in H1. apply negb_true_iff in H2.
    destruct E as [E|E]; [apply N.eqb_neq in H1; contradiction|congruence]. }
  cbv zeta. change (concat [[c; a; b; a]; [b; EInt 3; b]]) with [c; a; b; a; b; EInt 3; b].
  split; [intros x y Hx Hy E; apply K; auto|]. split; [intros x y Hx Hy E; apply K; auto|].
  split; [intros z Hz; repeat (destruct Hz as [<-|Hz]; [split; vm_compute; reflexivity|]); destruct Hz|].
  repeat split; vm_compute; reflexivity.
Qed.

(* C43 *)
Theorem C43_join : forall h ls, ls <> [] ->
  join_eval (map (fun l => EExpr (h :: l)) ls) = Some (EExpr (h :: concat ls)).
Proof.
  intros h [|l ls] N; [contradiction|]. unfold join_eval. cbn [map].
  change (EExpr (h :: l) :: map (fun l => EExpr (h :: l)) ls) with (map (fun l => EExpr (h :: l)) (l :: ls)).
  rewrite headed_complete. reflexivity.
Qed.
Print Assumptions C43_join.

(* Join changes nothing unless all heads are the same *)
Theorem C43_join_only_same_heads : forall args e, join_eval args = Some e -> args <> [] ->
  exists h ls, e = EExpr (h :: concat ls) /\ 
    Forall2 (fun x l => exists h', is_sameq h h' = true /\ x = EExpr (h' :: l)) args ls.
Proof.
  intros args e H N. unfold join_eval in H. destruct args as [|x t]; [contradiction|].
  unfold headed_lists in H. destruct x as [| | | | | |[|h l]]; try discriminate.
  destruct (same_heads h t) as [ls|] eqn:S; [|discriminate]. injection H as <-.
  exists h, (l :: ls). split; [reflexivity|]. constructor; [exists h; split; [apply sameq_refl|reflexivity]|].
  apply same_heads_ok. assumption.
Qed.
Print Assumptions C43_join_only_same_heads.

Theorem C43_reverse : forall h l i x, i < length l -> nth_error l (length l - 1 - i) = Some x ->
  exists l', reverse_eval [EExpr (h :: l)] = Some (EExpr (h :: l')) /\ length l' = length l /\ nth_error l' i = Some x.
Proof.
  intros h l i x Hi N. exists (rev l). split; [reflexivity|]. split; [apply rev_length|].
  rewrite <- (rev_length l) in Hi.
  destruct (nth_error (rev l) i) as [y|] eqn:E; [|apply nth_error_None in E; lia].
  rewrite rev_length in Hi. f_equal.
  apply (nth_error_nth _ _ x) in E. apply (nth_error_nth _ _ x) in N. rewrite <- E.
  rewrite rev_nth by assumption. replace (length l - S i) with (length l - 1 - i) by lia. exact N.
Qed.
Print Assumptions C43_reverse.

Theorem C43_reverse_involution : forall e e', reverse_eval [e] = Some e' -> reverse_eval [e'] = Some e.
Proof.
  intros [| | | | | |[|h l]] e' H; try discriminate. injection H as <-. cbn. rewrite rev_involutive. reflexivity.
Qed.
Print Assumptions C43_reverse_involution.

Theorem C43_append_prepend : forall h l x,
  append_eval [EExpr (h :: l); x] = Some (EExpr ((h :: l) ++ [x])) /\
  prepend_eval [EExpr (h :: l); x] = Some (EExpr ([h] ++ [x] ++ l)).
Proof. intros. split; reflexivity. Qed.
Print Assumptions C43_append_prepend.

(* Length of the results *)
Theorem C43_lengths : forall h ls l x, ls <> [] ->
  (exists e, join_eval (map (fun l => EExpr (h :: l)) ls) = Some e /\
     length_eval [e] = Some (EInt (fold_right Z.add 0%Z (map (fun l => Z.of_nat (length l)) ls)))) /\
  (exists e, append_eval [EExpr (h :: l); x] = Some e /\ length_eval [e] = Some (EInt (Z.of_nat (length l) + 1))) /\
  (exists e, prepend_eval [EExpr (h :: l); x] = Some e /\ length_eval [e] = Some (EInt (Z.of_nat (length l) + 1))) /\
  (exists e, reverse_eval [EExpr (h :: l)] = Some e /\ length_eval [e] = length_eval [EExpr (h :: l)]).
Proof.
  intros h ls l x N. split; [|split; [|split]].
  - eexists. split; [apply C43_join; assumption|]. cbn [length_eval]. f_equal. f_equal. cbn [length].
    clear N. induction ls as [|m t IH]; [reflexivity|]. cbn [concat map fold_right]. rewrite app_length. lia.
  - eexists. split; [reflexivity|]. cbn [length_eval length]. f_equal. f_equal. rewrite app_length. cbn [length]. lia.
  - eexists. split; [reflexivity|]. cbn [length_eval length]. f_equal. f_equal. lia.
  - eexists. split; [reflexivity|]. cbn [length_eval length]. rewrite rev_length. reflexivity.
Qed.
Print Assumptions C43_lengths.

Example C43_nonvacuous :
  join_eval [EExpr [f; a]; EExpr [f; b; c]] = Some (EExpr [f; a; b; c]) /\
  reverse_eval [mkList [a; b; c]] = Some (mkList [c; b; a]).
Proof. split; vm_compute; reflexivity. Qed.

(* C44 *)
Theorem C44_pad_right : forall h l (n : nat) x, in_int64 (Z.of_nat n) ->
  exists l', pad_right_eval [EExpr (h :: l); EInt (Z.of_nat n); x] = Some (EExpr (h :: l')) /\
    length l' = n /\
    forall i, i < n -> nth_error l' i = if i <? length l then nth_error l i else Some x.
Proof.
  intros h l n x I. unfold pad_right_eval, pad_params. rewrite (wrap64_small _ I), Nat2Z.id.
  eexists. split; [reflexivity|]. split; [rewrite map_length, seq_length; reflexivity|].
  intros i Hi. rewrite nth_error_map.
  assert (E : nth_error (seq 0 n) i = Some i).
  { rewrite (nth_error_nth' _ 0) by (rewrite seq_length; assumption). rewrite seq_nth by assumption. reflexivity. }
  rewrite E. cbn [option_map]. destruct (Nat.ltb_spec i (length l)).
  - symmetry. apply nth_error_nth'. assumption.
  - rewrite nth_overflow by assumption. reflexivity.
Qed.
Print Assumptions C44_pad_right.

(* aligned on the right: counted from the end *)
Theorem C44_pad_left : forall h l (n : nat) x, in_int64 (Z.of_nat n) ->
  exists l', pad_left_eval [EExpr (h :: l); EInt (Z.of_nat n); x] = Some (EExpr (h :: l')) /\
    length l' = n /\
    forall i, i < n -> nth_error (rev l') i = if i <? length l then nth_error (rev l) i else Some x.
Proof.
  intros h l n x I. unfold pad_left_eval, pad_params. rewrite (wrap64_small _ I), Nat2Z.id.
  eexists. split; [reflexivity|]. split; [rewrite map_length, seq_length; reflexivity|].
  intros i Hi. 
  set (g := fun i0 : nat => _).
  assert (L : length (rev (map g (seq 0 n))) = n) by (rewrite rev_length, map_length, seq_length; reflexivity).
  rewrite (nth_error_nth' _ x) by lia. rewrite rev_nth by (rewrite map_length, seq_length; lia).
  rewrite map_length, seq_length. rewrite (nth_indep _ x (g 0)) by (rewrite map_length, seq_length; lia).
  rewrite map_nth, seq_nth by lia. unfold g. cbn zeta.
  destruct (Nat.ltb_spec i (length l)).
  - destruct (Z.ltb_spec (Z.of_nat (0 + (n - S i))) (Z.of_nat n - (Z.of_nat (length l) + 1) + 1)); [lia|].
    rewrite (nth_error_nth' _ x) by (rewrite rev_length; lia). rewrite rev_nth by lia. f_equal. f_equal. lia.
  - destruct (Z.ltb_spec (Z.of_nat (0 + (n - S i))) (Z.of_nat n - (Z.of_nat (length l) + 1) + 1)); [reflexivity|lia].
Qed.
Print Assumptions C44_pad_left.

(* without the third argument the padding is 0 *)
Theorem C44_default_padding : forall e n,
  pad_right_eval [e; EInt n] = pad_right_eval [e; EInt n; EInt 0] /\
  pad_left_eval [e; EInt n] = pad_left_eval [e; EInt n; EInt 0].
Proof. intros [| | | | | |[|h l]] n; split; reflexivity. Qed.
Print Assumptions C44_default_padding.

Example C44_nonvacuous :
  pad_right_eval [mkList [a; b]; EInt 4; c] = Some (mkList [a; b; c; c]) /\
  pad_left_eval [mkList [a; b]; EInt 3; c] = Some (mkList [c; a; b]) /\
  pad_left_eval [mkList [a; b; c]; EInt 2] = Some (mkList [b; c]) /\
  pad_right_eval [mkList [a; b; c]; EInt 2] = Some (mkList [a; b]).
Proof. repeat split; vm_compute; reflexivity. Qed.

(* PadRight[{a}, 2^64 + 2] has length 2 *)
Theorem C44_huge_refuted : exists n, (2 < n)%Z /\
  exists x y, pad_right_eval [mkList [x]; EInt n; y] = Some (mkList [x; y]).
Proof. exists (2 ^ 64 + 2)%Z. split; [lia|]. exists a, b. reflexivity. Qed.
Print Assumptions C44_huge_refuted.

(* C45 *)
(* the result is what single removals of nested heads reach, none being left
   within the allowed depth; and every such sequence of removals gives it *)
Theorem C45_flatten_depth : forall h l z, in_int64 z -> head_faithful h l ->
  exists r, flatten_eval [EExpr (h :: l); EInt z] = Some (EExpr (h :: map fst r)) /\
    unnests h (map (fun x => (x, z)) l) r /\
    (forall x d, In (x, d) r -> (d <= 0)%Z \/ forall t, x <> EExpr (h :: t)).
Proof.
  intros h l z I F. cbn [flatten_eval]. rewrite (wrap64_small z I).
  destruct (flatten_unnests h z l F) as (r & R1 & R2 & R3). exists r. rewrite R3. auto.
Qed.
Print Assumptions C45_flatten_depth.

Theorem C45_flatten_unique : forall h l z r, in_int64 z -> head_faithful h l ->
  unnests h (map (fun x => (x, z)) l) r ->
  (forall x d, In (x, d) r -> (d <= 0)%Z \/ forall t, x <> EExpr (h :: t)) ->
  head_faithful h (map fst r) ->
  flatten_eval [EExpr (h :: l); EInt z] = Some (EExpr (h :: map fst r)).
Proof.
  intros h l z r I F U S FR. cbn [flatten_eval]. rewrite (wrap64_small z I). f_equal. f_equal. f_equal.
  pose proof (flat_value_steps h _ _ U) as V. unfold flat_value in V.
  rewrite flat_map_concat_map, map_map in V. cbn [fst snd] in V. unfold flatten_args.
  rewrite flat_map_concat_map. etransitivity; [exact V|]. clear V U F.
  induction r as [|[x d] t IH]; [reflexivity|]. cbn [flat_map map fst snd].
  rewrite IH.
  - destruct x as [| | | | | |[|h' u]]; try reflexivity. cbn [flat_arg].
    destruct (Z.ltb_spec 0 d); [|reflexivity]. destruct (is_sameq h h') eqn:E; [|reflexivity]. exfalso.
    assert (h' = h) as -> by (apply FR; [cbn; left; reflexivity|assumption]).
    destruct (S (EExpr (h :: u)) d (or_introl eq_refl)) as [K|K]; [lia|]. apply (K u). reflexivity.
  - intros y dy Hy. apply S. right. assumption.
  - intros h' Hh. apply FR. cbn [map flat_map]. apply in_app_iff. right. assumption.
Qed.
Print Assumptions C45_flatten_unique.

(* Flatten[e]: no argument with the head of e is left, and it is idempotent.
   The depth limit 999999999999 of the code is a hypothesis. *)
Theorem C45_flatten_complete : forall h l, head_faithful h l ->
  (forall x, In x l -> (depth x <= 999999999999)%Z) ->
  exists l', flatten_eval [EExpr (h :: l)] = Some (EExpr (h :: l')) /\
    (forall x t, In x l' -> x <> EExpr (h :: t)) /\
    flatten_eval [EExpr (h :: l')] = Some (EExpr (h :: l')).
Proof.
  intros h l F D. exists (flatten_args h 999999999999 l). split; [reflexivity|].
  pose proof (flatten_no_head h 999999999999 l F D) as N. split; [exact N|].
  cbn [flatten_eval]. f_equal. f_equal. f_equal. apply flatten_fixed; [apply flatten_faithful; assumption|exact N].
Qed.
Print Assumptions C45_flatten_complete.

Example C45_nonvacuous :
  let e := mkList [a; mkList [b; mkList [c]]; EExpr [f; mkList [a]]] in
  flatten_eval [e] = Some (mkList [a; b; c; EExpr [f; mkList [a]]]) /\
  flatten_eval [e; EInt 1] = Some (mkList [a; b; mkList [c]; EExpr [f; mkList [a]]]) /\
  head_faithful (sys "List") [a; mkList [b; mkList [c]]; EExpr [f; mkList [a]]].
Proof.
  cbv zeta. split; [vm_compute; reflexivity|]. split; [vm_compute; reflexivity|].
  intros h' Hh E.
  assert (K : In h' [sys "List"; f]).
  { cbn in Hh. repeat (destruct Hh as [<-|Hh]; [cbn; auto|]). destruct Hh. }
  clear Hh. destruct K as [<-|[<-|[]]]; [reflexivity|]. vm_compute in E. discriminate.
Qed.
