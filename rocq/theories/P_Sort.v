From Verif Require Import M_Syntax M_Float M_Order M_Sort S_Syntax S_Order S_Sort
  P_Order P_OrderTrans P_OrderZero.
From Coq Require Import Permutation.
Open Scope Z_scope.

(* reverse version: list is descending *)
Fixpoint adj_rev (l : list ex) : Prop :=
  match l with
  | x :: ((y :: _) as t) => 0 <= ex_order y x /\ adj_rev t
  | _ => True
  end.

Definition all_wf (l : list ex) : Prop := forall x, In x l -> wf x = true.

Lemma less_false x y : wf x = true -> wf y = true -> less x y = false -> 0 <= ex_order y x.
Proof.
  unfold less. intros Hx Hy H. apply Z.eqb_neq in H.
  destruct (order_anti_range x y Hx Hy). lia.
Qed.
Lemma less_true x y : less x y = true -> 0 <= ex_order x y.
Proof. unfold less. intro H. apply Z.eqb_eq in H. lia. Qed.

Lemma sift_perm x rp : Permutation (x :: rp) (sift x rp).
Proof.
  induction rp as [|h t IH]; cbn; [reflexivity|].
  destruct (less x h); [|reflexivity].
  rewrite perm_swap. constructor. exact IH.
Qed.

Lemma sift_adj x rp : wf x = true -> all_wf rp -> adj_rev rp -> adj_rev (sift x rp).
Proof.
  intros Wx. induction rp as [|h t IH]; intros Wr Hr; cbn [sift]; [exact I|].
  destruct (less x h) eqn:E.
  - assert (IH' : adj_rev (sift x t)).
    { apply IH; [intros y Hy; apply Wr; right; assumption|]. destruct t; [exact I|apply Hr]. }
    destruct t as [|h2 t2]; cbn [sift] in *.
    + split; [apply less_true; assumption|exact I].
    + destruct (less x h2); cbn [adj_rev] in *.
      * split; [apply Hr|exact IH'].
      * split; [apply less_true; assumption|exact IH'].
  - cbn [adj_rev]. split; [|exact Hr]. apply less_false; auto. apply Wr; left; reflexivity.
Qed.

Lemma sift_fold l : forall rp, all_wf rp -> all_wf l -> adj_rev rp ->
  adj_rev (fold_left (fun rp x => sift x rp) l rp) /\
  Permutation (rp ++ l) (fold_left (fun rp x => sift x rp) l rp).
Proof.
  induction l as [|x t IH]; intros rp Wr Wl Hr; cbn [fold_left].
  - split; [assumption|rewrite app_nil_r; reflexivity].
  - assert (Wx : wf x = true) by (apply Wl; left; reflexivity).
    destruct (IH (sift x rp)) as [A B].
    + intros y Hy. pose proof (Permutation_in _ (Permutation_sym (sift_perm x rp)) Hy) as [<-|H]; auto.
    + intros y Hy. apply Wl; right; assumption.
    + apply sift_adj; assumption.
    + split; [assumption|]. rewrite <- B. rewrite <- (sift_perm x rp).
      symmetry. apply Permutation_middle.
Qed.

Lemma adj_rev_app l : forall x, adj_rev (l ++ [x]) -> adj_rev l.
Proof.
  induction l as [|a t IH]; intros x H; [exact I|].
  destruct t as [|b t']; [exact I|]. cbn [app adj_rev] in *. destruct H as [H1 H2].
  split; [assumption|]. apply (IH x). exact H2.
Qed.

Lemma adj_ordered_snoc l : forall x y, adjacent_ordered (l ++ [x]) -> 0 <= ex_order x y ->
  adjacent_ordered (l ++ [x; y]).
Proof.
  induction l as [|a t IH]; intros x y H Hxy; [cbn; auto|].
  destruct t as [|b t'].
  - cbn in *. tauto.
  - cbn [app adjacent_ordered] in *. destruct H as [H1 H2]. split; [assumption|].
    apply (IH x y H2 Hxy).
Qed.

Lemma adj_rev_ordered l : adj_rev l -> adjacent_ordered (rev l).
Proof.
  induction l as [|x t IH]; intro H; [exact I|].
  cbn [rev]. destruct t as [|y t']; [exact I|].
  destruct H as [H1 H2]. specialize (IH H2). cbn [rev] in *.
  rewrite <- app_assoc. cbn [app]. apply adj_ordered_snoc; assumption.
Qed.

Lemma insertion_sort_perm l : all_wf l -> Permutation l (insertion_sort l).
Proof.
  intro H. unfold insertion_sort. rewrite <- Permutation_rev.
  apply (sift_fold l []); [intros x []|assumption|exact I].
Qed.

Lemma insertion_sort_adjacent l : all_wf l -> adjacent_ordered (insertion_sort l).
Proof.
  intro H. unfold insertion_sort. apply adj_rev_ordered.
  apply (sift_fold l []); [intros x []|assumption|exact I].
Qed.

(* sorting a list in order changes nothing *)
Lemma fold_sift_ordered l : forall rp, all_wf rp -> all_wf l -> adjacent_ordered (rev rp ++ l) ->
  fold_left (fun rp x => sift x rp) l rp = rev l ++ rp.
Proof.
  induction l as [|x t IH]; intros rp Wr Wl H; [reflexivity|].
  cbn [fold_left].
  assert (Es : sift x rp = x :: rp).
  { destruct rp as [|h t']; [reflexivity|]. cbn [sift].
    assert (Hx : 0 <= ex_order h x).
    { cbn [rev] in H. rewrite <- app_assoc in H. cbn [app] in H.
      clear - H. induction (rev t') as [|z u IHu]; [cbn [app adjacent_ordered] in H; tauto|].
      apply IHu. destruct u; exact (proj2 H). }
    unfold less. assert (W1 : wf h = true) by (apply Wr; left; reflexivity).
    assert (W2 : wf x = true) by (apply Wl; left; reflexivity).
    destruct (order_anti_range h x W1 W2). destruct (Z.eqb_spec (ex_order x h) 1); [lia|reflexivity]. }
  rewrite Es. rewrite IH.
  - cbn [rev]. rewrite <- app_assoc. reflexivity.
  - intros y [<-|Hy]; [apply Wl; left; reflexivity|auto].
  - intros y Hy. apply Wl; right; assumption.
  - cbn [rev]. rewrite <- app_assoc. exact H.
Qed.

Lemma insertion_sort_id l : all_wf l -> adjacent_ordered l -> insertion_sort l = l.
Proof.
  intros W H. unfold insertion_sort. rewrite (fold_sift_ordered l []); auto; [|intros x []].
  rewrite app_nil_r. apply rev_involutive.
Qed.

Lemma perm_wf l l' : Permutation l l' -> all_wf l -> all_wf l'.
Proof. intros P H x Hx. apply H. apply (Permutation_in _ (Permutation_sym P) Hx). Qed.

Lemma insertion_sort_idem l : all_wf l -> insertion_sort (insertion_sort l) = insertion_sort l.
Proof.
  intro W. apply insertion_sort_id; [|apply insertion_sort_adjacent; assumption].
  apply (perm_wf l); [apply insertion_sort_perm|]; assumption.
Qed.

Lemma contract_adjacent l l' : all_wf l -> sort_contract l l' -> adjacent_ordered l'.
Proof.
  intros W [P H]. pose proof (perm_wf _ _ P W) as W'. clear P W.
  revert H W'. induction l' as [|x t IH]; intros H W'; [exact I|].
  destruct t as [|y u]; [exact I|]. split.
  - assert (W1 : wf x = true) by (apply W'; cbn; auto). assert (W2 : wf y = true) by (apply W'; cbn; auto).
    pose proof (H [] x y u eq_refl). destruct (order_anti_range x y W1 W2). lia.
  - apply IH; [|intros z Hz; apply W'; right; assumption].
    intros pre a b post E. apply (H (x :: pre) a b post). cbn. f_equal. exact E.
Qed.

Lemma adjacent_contract l' : all_wf l' -> adjacent_ordered l' ->
  forall pre x y post, l' = pre ++ x :: y :: post -> ex_order y x <> 1.
Proof.
  intros W H pre x y post E. subst l'.
  assert (W1 : wf x = true) by (apply W, in_or_app; cbn; auto).
  assert (W2 : wf y = true) by (apply W, in_or_app; cbn; auto).
  assert (0 <= ex_order x y).
  { clear W. induction pre as [|z u IHu]; [cbn [app adjacent_ordered] in H; tauto|].
    apply IHu. destruct u; exact (proj2 H). }
  destruct (order_anti_range x y W1 W2). lia.
Qed.

Lemma insertion_contract l : all_wf l -> sort_contract l (insertion_sort l).
Proof.
  intro W. split; [apply insertion_sort_perm; assumption|].
  apply adjacent_contract; [|apply insertion_sort_adjacent; assumption].
  apply (perm_wf l); [apply insertion_sort_perm|]; assumption.
Qed.

Lemma adjacent_all l : (forall x, In x l -> wf x = true /\ tidy x = true) ->
  adjacent_ordered l -> all_ordered l.
Proof.
  induction l as [|x t IH]; intros W H; [exact I|].
  assert (IHt : all_ordered t).
  { apply IH; [intros; apply W; right; assumption|]. destruct t; [exact I|apply H]. }
  split; [|exact IHt].
  destruct t as [|y u]; [intros y []|]. destruct H as [H1 H2].
  intros z [<-|Hz]; [exact H1|].
  destruct (W x) as [? ?]; [cbn; auto|]. destruct (W y) as [? ?]; [cbn; auto|].
  destruct (W z) as [? ?]; [cbn; auto|].
  apply (order_trans x y z); auto. apply IHt. exact Hz.
Qed.

Lemma all_ordered_unique l : forall l', Permutation l l' ->
  (forall x y, In x l -> In y l -> 0 <= ex_order x y -> 0 <= ex_order y x -> x = y) ->
  all_ordered l -> all_ordered l' -> l = l'.
Proof.
  induction l as [|x t IH]; intros l' P A H H'.
  - apply Permutation_nil in P. congruence.
  - destruct l' as [|y u]; [symmetry in P; apply Permutation_nil in P; discriminate|].
    assert (x = y) as <-.
    { pose proof (Permutation_in y (Permutation_sym P) (or_introl eq_refl)) as Hy.
      pose proof (Permutation_in x P (or_introl eq_refl)) as Hx.
      destruct Hy as [->|Hy]; [reflexivity|]. destruct Hx as [->|Hx]; [reflexivity|].
      apply A; [cbn; auto|cbn; auto|apply H; assumption|apply H'; assumption]. }
    apply Permutation_cons_inv in P. f_equal. apply IH; auto.
    + intros a b Ha Hb. apply A; right; assumption.
    + apply H.
    + apply H'.
Qed.

Lemma settled_antisym x y : settled x = true -> settled y = true ->
  0 <= ex_order x y -> 0 <= ex_order y x -> x = y.
Proof.
  intros Hx Hy H1 H2. apply order_zero_eq; auto.
  destruct (order_anti_range x y (settled_wf x Hx) (settled_wf y Hy)). lia.
Qed.

Lemma contract_unique l l1 l2 l' : Permutation l l' ->
  (forall x, In x l -> settled x = true /\ tidy x = true) ->
  sort_contract l l1 -> sort_contract l' l2 -> l1 = l2.
Proof.
  intros P W S1 S2.
  assert (Wl : forall m, Permutation l m -> forall x, In x m -> settled x = true /\ tidy x = true).
  { intros m Pm x Hx. apply W. apply (Permutation_in _ (Permutation_sym Pm) Hx). }
  assert (Wwf : forall m, Permutation l m -> all_wf m).
  { intros m Pm x Hx. apply settled_wf. apply (Wl m Pm x Hx). }
  assert (P1 : Permutation l l1) by apply S1.
  assert (P2 : Permutation l l2) by (rewrite P; apply S2).
  apply all_ordered_unique.
  - rewrite <- P1. exact P2.
  - intros x y Hx Hy. apply settled_antisym; apply (Wl l1 P1); assumption.
  - apply adjacent_all; [intros x Hx; split; [apply (Wwf l1 P1)|apply (Wl l1 P1)]; assumption|].
    apply (contract_adjacent l); [apply Wwf; reflexivity|assumption].
  - apply adjacent_all; [intros x Hx; split; [apply (Wwf l2 P2)|apply (Wl l2 P2)]; assumption|].
    apply (contract_adjacent l'); [apply Wwf; assumption|assumption].
Qed.
