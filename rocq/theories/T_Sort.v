(* Property theorems: Sort and Orderless (C08). *)
From Verif Require Import M_Syntax M_Float M_Order M_Sort S_Syntax S_Order S_Sort
  P_Order P_OrderTrans P_OrderZero P_Sort.
From Coq Require Import Permutation.
Open Scope Z_scope.

Theorem C08_sort_ordered_permutation : forall h args,
  wf (EExpr (h :: args)) = true ->
  exists args', sort_expr (EExpr (h :: args)) = EExpr (h :: args') /\
    Permutation args args' /\ adjacent_ordered args'.
Proof.
  intros h args W. exists (insertion_sort args).
  assert (Wa : all_wf args) by (intros x Hx; apply (wf_expr _ W); right; exact Hx).
  split; [reflexivity|]. split; [exact (insertion_sort_perm args Wa)|exact (insertion_sort_adjacent args Wa)].
Qed.
Print Assumptions C08_sort_ordered_permutation.

Theorem C08_sort_all_pairs_ordered_partial : forall h args,
  wf (EExpr (h :: args)) = true -> (forall x, In x args -> tidy x = true) ->
  exists args', sort_expr (EExpr (h :: args)) = EExpr (h :: args') /\ all_ordered args'.
Proof.
  intros h args W T. exists (insertion_sort args). split; [reflexivity|].
  assert (Wa : all_wf args) by (intros x Hx; apply (wf_expr _ W); right; exact Hx).
  apply adjacent_all; [|exact (insertion_sort_adjacent args Wa)].
  intros x Hx. pose proof (Permutation_in _ (Permutation_sym (insertion_sort_perm args Wa)) Hx). auto.
Qed.
Print Assumptions C08_sort_all_pairs_ordered_partial.

Theorem C08_sort_idempotent : forall e, wf e = true -> sort_expr (sort_expr e) = sort_expr e.
Proof.
  intros e W. destruct e as [| | | | | |[|h args]]; try reflexivity. cbn [sort_expr]. f_equal. f_equal.
  apply insertion_sort_idem. intros x Hx. apply (wf_expr _ W). right. exact Hx.
Qed.
Print Assumptions C08_sort_idempotent.

(* Orderless: the result does not depend on the order of the arguments.  The
   first form is about the modelled sort, the second about every algorithm
   that meets the sort.Sort contract. *)
Theorem C08_orderless_canonical_partial : forall h args args',
  (forall x, In x args -> settled x = true /\ tidy x = true) -> Permutation args args' ->
  sort_expr (EExpr (h :: args)) = sort_expr (EExpr (h :: args')).
Proof.
  intros h args args' W P. cbn [sort_expr]. f_equal. f_equal.
  apply (contract_unique args _ _ args' P W); apply insertion_contract; intros x Hx; apply settled_wf.
  - apply W; assumption.
  - apply W. apply (Permutation_in _ (Permutation_sym P) Hx).
Qed.
Print Assumptions C08_orderless_canonical_partial.

Theorem C08_any_sort_canonical_partial : forall args args' l1 l2,
  (forall x, In x args -> settled x = true /\ tidy x = true) -> Permutation args args' ->
  sort_contract args l1 -> sort_contract args' l2 -> l1 = l2.
Proof. intros args args' l1 l2 W P. exact (contract_unique args l1 l2 args' P W). Qed.
Print Assumptions C08_any_sort_canonical_partial.

(* without the hypothesis that order 0 means identical, two orders of the same
   arguments of an Orderless function stay different *)
Theorem C08_orderless_canonical_refuted : exists h x y,
  wf x = true /\ wf y = true /\
  sort_expr (EExpr [h; x; y]) <> sort_expr (EExpr [h; y; x]).
Proof.
  exists (sys "Plus"), (ECplx (EInt 1) (EInt 2)), (ECplx (EInt 1) (EInt 3)).
  repeat split. vm_compute. discriminate.
Qed.
Print Assumptions C08_orderless_canonical_refuted.

Example C08_nonvacuous :
  let x := ESym "Global`x" in let y := ESym "Global`y" in
  let p := EExpr [sys "Power"; x; EInt 2] in
  (forall z, In z [y; p; EInt 3; x] -> settled z = true /\ tidy z = true) /\
  sort_expr (EExpr [sys "Plus"; y; p; EInt 3; x]) = EExpr [sys "Plus"; EInt 3; x; p; y].
Proof.
  split; [|vm_compute; reflexivity].
  intros z Hz. repeat (destruct Hz as [<-|Hz]; [split; reflexivity|]). destruct Hz.
Qed.
