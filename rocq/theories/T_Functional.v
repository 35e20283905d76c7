(* C46: mapping at levels.  C55: FoldList, NestList, Array. *)
From Verif Require Import M_Syntax M_Float M_Hash M_Compare M_Match M_Functional S_Functional S_List P_Functional.
Open Scope Z_scope.

Lemma level_apply_pure (g : ex -> list Z -> ex) u e :
  spec_ok u -> shallow e -> exact u e ->
  fst (level_apply (fun x p (s : unit) => (g x p, s)) (lspec_of u) e tt) = map_at (selected u) g [] e.
Proof. intros H1 H2 H3. rewrite level_apply_exact by assumption. rewrite node_pure. reflexivity. Qed.

(* Map[f, e, levels]: f is wrapped around exactly the selected subexpressions *)
Theorem C46_map_partial f e u : spec_ok u -> shallow e -> exact u e ->
  map_eval [f; e; level_ex u] = Some (map_at (selected u) (fun x _ => EExpr [f; x]) [] e).
Proof.
  intros H1 H2 H3. unfold map_eval. rewrite parse_ok by assumption. f_equal.
  apply (level_apply_pure (fun x _ => EExpr [f; x])); assumption.
Qed.
Print Assumptions C46_map_partial.

(* MapIndexed also gets the position *)
Theorem C46_map_indexed_partial f e u : spec_ok u -> shallow e -> exact u e ->
  map_indexed_eval [f; e; level_ex u] = Some (map_at (selected u) (fun x p => EExpr [f; x; mkList (map EInt p)]) [] e).
Proof.
  intros H1 H2 H3. unfold map_indexed_eval. rewrite parse_ok by assumption. f_equal.
  apply (level_apply_pure (fun x p => EExpr [f; x; mkList (map EInt p)])); assumption.
Qed.
Print Assumptions C46_map_indexed_partial.

(* Apply replaces the heads of the selected compound subexpressions *)
Definition new_head (f x : ex) : ex := match x with EExpr (_ :: l) => EExpr (f :: l) | _ => x end.
Theorem C46_apply_partial f e u : spec_ok u -> shallow e -> exact u e ->
  apply_eval [f; e; level_ex u] = Some (map_at (selected u) (fun x _ => new_head f x) [] e).
Proof.
  intros H1 H2 H3. unfold apply_eval. rewrite parse_ok by assumption.
  replace (match f with ESym _ => match e with EExpr (_ :: _) => _ | _ => _ end | _ => _ end)
    with (Some (fst (level_apply (apply_head_cb f) (lspec_of u) e tt))) by (destruct f; try reflexivity; destruct e as [| | | | | |[|]]; reflexivity).
  f_equal. apply (level_apply_pure (fun x _ => new_head f x)); assumption.
Qed.
Print Assumptions C46_apply_partial.

(* Count[e, pattern, levels]: the number of selected subexpressions that match *)
Theorem C46_count_partial env e pat u : spec_ok u -> shallow e -> exact u e ->
  count_eval env [e; pat; level_ex u] =
  Some (EInt (Z.of_nat (length (filter (fun q => selected u (fst q) (snd q) && matchq_eval env (snd q) pat) (subexprs 0 e))))).
Proof.
  intros H1 H2 H3. unfold count_eval. rewrite parse_ok by assumption.
  rewrite level_apply_exact by assumption. unfold count_cb.
  rewrite (node_count (selected u) (fun x => matchq_eval env x pat) e [] 0). reflexivity.
Qed.
Print Assumptions C46_count_partial.

Lemma go_id (F : list Z -> ex -> ex) path args : Forall (fun x => forall i, F (path ++ [i]) x = x) args -> forall i,
  (fix go (i : Z) (args : list ex) : list ex := match args with [] => [] | x :: t => F (path ++ [i]) x :: go (i + 1) t end) i args = args.
Proof. induction 1 as [|x t Hx Ht IH]; intros i; [reflexivity|]. rewrite Hx, IH. reflexivity. Qed.
(* the optimised two-argument forms agree with the general ones *)
Lemma map_at_one g e :
  map_at (selected (Exactly (Lv 1))) g [] e =
  match e with EExpr (h :: args) => EExpr (h :: (fix go i l := match l with [] => [] | x :: t => g x [i] :: go (i + 1) t end) 1 args) | _ => e end.
Proof.
  assert (D : forall path x, (2 <= length path)%nat -> map_at (selected (Exactly (Lv 1))) g path x = x).
  { intros path x. revert path. induction x as [s0|s0|z|n d|f|a1 a2 IH1 IH2|l IH] using ex_ind'; intros path Hp;
      (assert (S0 : forall y, selected (Exactly (Lv 1)) (length path) y = false);
       [intros y; unfold selected; cbn [low high above below]; cbn [Z.ltb Z.compare]; apply andb_false_intro2; apply Z.leb_gt; lia|]);
      try (cbn [map_at]; rewrite S0; reflexivity).
    destruct l as [|h args]; [cbn [map_at]; rewrite S0; reflexivity|].
    cbn [map_at]. rewrite S0. do 2 f_equal. inversion IH as [|? ? _ IHa]; subst. clear IH S0.
    apply (go_id (map_at _ _) path). eapply Forall_impl; [|exact IHa]. intros x Hx i. apply Hx. rewrite app_length. cbn. lia. }
  destruct e as [| | | | | |[|h args]]; try reflexivity.
  cbn [map_at length]. replace (selected (Exactly (Lv 1)) 0 (EExpr (h :: args))) with false by reflexivity.
  cbv zeta. do 2 f_equal.
  assert (G : forall i, (fix go (i : Z) (args0 : list ex) : list ex := match args0 with [] => [] | x :: t => map_at (selected (Exactly (Lv 1))) g ([] ++ [i]) x :: go (i + 1) t end) i args
     = (fix go i l := match l with [] => [] | x :: t => g x [i] :: go (i + 1) t end) i args); [|apply G].
  induction args as [|x t IHt]; intros i; [reflexivity|].
  rewrite IHt. f_equal. cbn [app].
  destruct x as [| | | | | |[|h' args']]; try reflexivity.
  cbn [map_at length]. replace (selected (Exactly (Lv 1)) 1 (EExpr (h' :: args'))) with true by reflexivity.
  cbv zeta. f_equal. do 2 f_equal. apply (go_id (map_at _ _) [i]). apply Forall_forall. intros y _ j. apply D. cbn. lia.
Qed.
Theorem C46_map_two_arguments f e :
  map_eval [f; e] = Some (map_at (selected (Exactly (Lv 1))) (fun x _ => EExpr [f; x]) [] e).
Proof.
  unfold map_eval, map_two. f_equal. rewrite map_at_one.
  destruct e as [| | | | | |[|h args]]; try reflexivity. do 2 f_equal.
  assert (G : forall i, map (fun x => EExpr [f; x]) args = (fix go (i : Z) l := match l with [] => [] | x :: t => EExpr [f; x] :: go (i + 1) t end) i args); [|apply G].
  induction args as [|x t IHt]; intros i; [reflexivity|]. cbn [map]. rewrite (IHt (i + 1)). reflexivity.
Qed.
Print Assumptions C46_map_two_arguments.

Theorem C46_apply_two_arguments_partial f e :
  apply_eval [ESym f; e] = Some (map_at (selected (Exactly (Lv 0))) (fun x _ => new_head (ESym f) x) [] e).
Proof.
  assert (D : forall path x, (1 <= length path)%nat -> map_at (selected (Exactly (Lv 0))) (fun x _ => new_head (ESym f) x) path x = x).
  { intros path x. revert path. induction x as [s0|s0|z|n d|f0|a1 a2 IH1 IH2|l IH] using ex_ind'; intros path Hp;
      (assert (S0 : forall y, selected (Exactly (Lv 0)) (length path) y = false);
       [intros y; unfold selected; cbn [low high above below]; cbn [Z.ltb Z.compare]; apply andb_false_intro2; apply Z.leb_gt; lia|]);
      try (cbn [map_at]; rewrite S0; reflexivity).
    destruct l as [|h args]; [cbn [map_at]; rewrite S0; reflexivity|].
    cbn [map_at]. rewrite S0. do 2 f_equal. inversion IH as [|? ? _ IHa]; subst. clear IH S0.
    apply (go_id (map_at _ _) path). eapply Forall_impl; [|exact IHa]. intros x Hx i. apply Hx. rewrite app_length. cbn. lia. }
  unfold apply_eval. f_equal. destruct e as [| | | | | |[|h args]]; try reflexivity.
  cbn [map_at length]. replace (selected (Exactly (Lv 0)) 0 (EExpr (h :: args))) with true by reflexivity.
  cbv zeta. cbn [new_head]. f_equal. f_equal. symmetry. f_equal.
  apply (go_id (map_at _ _) []). apply Forall_forall. intros y _ j. apply D. cbn. lia.
Qed.
Print Assumptions C46_apply_two_arguments_partial.

(* ---- non-trivial cases *)
Definition g_ (s : string) (l : list ex) : ex := EExpr (ESym s :: l).
Definition v_ (s : string) : ex := ESym s.
(* a[b[c, d], e] *)
Definition tree1 : ex := g_ "a" [g_ "b" [v_ "c"; v_ "d"]; v_ "e"].
Example C46_case_levels : spec_ok (Upto (Lv 2)) /\ shallow tree1 /\ exact (Upto (Lv 2)) tree1 /\
  map_eval [v_ "f"; tree1; EInt 2] =
  Some (g_ "a" [g_ "f" [g_ "b" [g_ "f" [v_ "c"]; g_ "f" [v_ "d"]]]; g_ "f" [v_ "e"]]).
Proof.
  split; [split; cbn; lia|]. split; [vm_compute; reflexivity|]. split; [|vm_compute; reflexivity].
  left. cbn. repeat split; try lia. intros [_ H]. discriminate H.
Qed.
Example C46_case_depth : spec_ok (Between (Lv (-2)) PInf) /\ exact (Between (Lv (-2)) PInf) tree1 /\
  map_eval [v_ "f"; tree1; level_ex (Between (Lv (-2)) PInf)] =
  Some (g_ "a" [g_ "f" [g_ "b" [g_ "f" [v_ "c"]; g_ "f" [v_ "d"]]]; g_ "f" [v_ "e"]]).
Proof.
  split; [split; cbn; lia|]. split; [|vm_compute; reflexivity].
  right. split; [reflexivity|]. right. right. cbn. unfold by_depth. cbn. split; [lia|]. split; [exact Logic.I|]. right; reflexivity.
Qed.
Example C46_case_indexed :
  map_indexed_eval [v_ "f"; tree1; level_ex (Exactly (Lv 2))] =
  Some (g_ "a" [g_ "b" [g_ "f" [v_ "c"; mkList [EInt 1; EInt 1]]; g_ "f" [v_ "d"; mkList [EInt 1; EInt 2]]]; v_ "e"]).
Proof. vm_compute. reflexivity. Qed.

(* ---- where the code deviates *)
(* level 0 (that is, {1, 0}) selects nothing, but f is mapped at level 1 *)
Theorem C46_level_zero_refuted : exists f e, spec_ok (Upto (Lv 0)) /\ shallow e /\
  map_eval [f; e; EInt 0] <> Some (map_at (selected (Upto (Lv 0))) (fun x _ => EExpr [f; x]) [] e).
Proof.
  exists (v_ "f"), (g_ "a" [v_ "b"]). split; [split; cbn; lia|]. split; [vm_compute; reflexivity|]. vm_compute. discriminate.
Qed.
Print Assumptions C46_level_zero_refuted.
(* {2, -1}: an atom at level 1 is treated as if it were at level 2 *)
Theorem C46_mixed_levels_refuted : exists f e u, spec_ok u /\ shallow e /\
  map_eval [f; e; level_ex u] <> Some (map_at (selected u) (fun x _ => EExpr [f; x]) [] e).
Proof.
  exists (v_ "f"), (g_ "a" [v_ "b"; g_ "c" [v_ "d"]]), (Between (Lv 2) (Lv (-1))).
  split; [split; cbn; lia|]. split; [vm_compute; reflexivity|]. vm_compute. discriminate.
Qed.
Print Assumptions C46_mixed_levels_refuted.
(* MapIndexed[f, e] forgets the indices *)
Theorem C46_map_indexed_two_arguments_refuted : exists f e,
  map_indexed_eval [f; e] <> map_indexed_eval [f; e; level_ex (Exactly (Lv 1))].
Proof. exists (v_ "f"), (g_ "a" [v_ "b"]). vm_compute. discriminate. Qed.
Print Assumptions C46_map_indexed_two_arguments_refuted.
(* Apply[f, e] ignores an f that is not a symbol *)
Theorem C46_apply_two_arguments_refuted : exists f e,
  apply_eval [f; e] <> apply_eval [f; e; level_ex (Exactly (Lv 0))].
Proof. exists (g_ "g" [v_ "x"]), (g_ "a" [v_ "b"]). vm_compute. discriminate. Qed.
Print Assumptions C46_apply_two_arguments_refuted.

(* ------------------------------------------------------------------- C55 *)
Lemma fold_list_values f l : forall x, fold_values f x l (x :: fold_list_loop f x l).
Proof. induction l as [|y t IH]; intros x; cbn; constructor. apply IH. Qed.
Theorem C55_fold_list f x h l : exists r,
  fold_list_eval [f; x; EExpr (h :: l)] = Some (EExpr (h :: r)) /\ fold_values f x l r.
Proof. eexists. split; [reflexivity|]. apply fold_list_values. Qed.
Print Assumptions C55_fold_list.
(* the specification determines the result: one more element than the list *)
Theorem C55_fold_list_length f x l r : fold_values f x l r -> length r = S (length l).
Proof. induction 1; cbn; [reflexivity|]. rewrite IHfold_values. reflexivity. Qed.
Print Assumptions C55_fold_list_length.

Lemma nest_loop_spec f n : forall e, nest_loop f e n = map (nested f e) (seq 1 n).
Proof.
  assert (C : forall k e, nested f (EExpr [f; e]) k = nested f e (S k)).
  { induction k as [|k IHk]; intros e; [reflexivity|]. unfold nested in *. cbn [Nat.iter nat_rect] in *. f_equal. f_equal. f_equal. apply IHk. }
  induction n as [|n IH]; intros e; [reflexivity|].
  cbn [nest_loop seq map]. f_equal. rewrite IH.
  rewrite <- (seq_shift n 1), map_map. apply map_ext. intros k. apply C.
Qed.
Theorem C55_nest_list_partial f x z : 0 <= z < 2 ^ 63 ->
  nest_list_eval [f; x; EInt z] = Some (mkList (map (nested f x) (seq 0 (S (Z.to_nat z))))).
Proof.
  intros H. unfold nest_list_eval. rewrite wrap64_id by lia.
  replace (z <? 0) with false by (symmetry; apply Z.ltb_ge; lia).
  rewrite nest_loop_spec. reflexivity.
Qed.
Print Assumptions C55_nest_list_partial.
Theorem C55_array_partial f z : 0 <= z < 2 ^ 63 -> exists l,
  array_eval [f; EInt z] = Some (mkList l) /\ length l = Z.to_nat z /\
  forall i, 1 <= i <= z -> nth_error l (Z.to_nat i - 1) = Some (EExpr [f; EInt i]).
Proof.
  intros H. eexists. split; [reflexivity|]. rewrite wrap64_id by lia. split; [rewrite map_length, seq_length; reflexivity|].
  intros i Hi. rewrite nth_error_map, (nth_error_nth' _ 0%nat) by (rewrite seq_length; lia).
  rewrite seq_nth by lia. cbn [option_map]. replace (Z.of_nat (1 + (Z.to_nat i - 1))) with i by lia. reflexivity.
Qed.
Print Assumptions C55_array_partial.
(* counts outside the machine range are truncated: Array[f, 2^64 + 1] *)
Theorem C55_array_refuted : exists f z l, 0 <= z /\ array_eval [f; EInt z] = Some (mkList l) /\ Z.of_nat (length l) <> z.
Proof.
  exists (v_ "f"), (2 ^ 64 + 1), [g_ "f" [EInt 1]]. split; [lia|]. split; [vm_compute; reflexivity|]. cbn. lia.
Qed.
Print Assumptions C55_array_refuted.
Example C55_case : fold_list_eval [v_ "f"; v_ "x"; mkList [EInt 1; EInt 2]] =
  Some (mkList [v_ "x"; g_ "f" [v_ "x"; EInt 1]; g_ "f" [g_ "f" [v_ "x"; EInt 1]; EInt 2]])
  /\ nest_list_eval [v_ "f"; v_ "x"; EInt 2] = Some (mkList [v_ "x"; g_ "f" [v_ "x"]; g_ "f" [g_ "f" [v_ "x"]]]).
Proof. vm_compute. split; reflexivity. Qed.
