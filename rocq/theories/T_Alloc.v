(* Property theorems: the enumerators of the matcher (C21, C22). *)
From Verif Require Import M_Syntax M_Alloc S_Alloc P_Alloc.
From Coq Require Import Permutation.

(* ---- C21 ---- *)
(* Calling next() on the sequence allocator until it returns false terminates
   and produces exactly the valid block sizes, each once. *)
Theorem C21_allocations_exact : forall forms n, forms <> [] ->
  exists L f0, (forall fuel, f0 <= fuel -> acollect fuel forms (ainit n forms) = Some L) /\
  NoDup L /\ forall sizes, In sizes L <-> valid_sizes forms n sizes.
Proof.
  intros forms n N. destruct (alloc_collect forms n) as [f0 F]. exists (allocs forms n), f0.
  split; [exact F|]. split; [apply allocs_nodup|apply allocs_in, N].
Qed.
Print Assumptions C21_allocations_exact.

(* the assignments tried for an ordered head: all splits into consecutive
   blocks, each once *)
Theorem C21_ordered_splits_exact : forall forms fm n, forms <> [] ->
  exists L f0, (forall fuel, f0 <= fuel -> ncollect fuel forms fm false (ninit n forms) = Some L) /\
  NoDup L /\ forall blocks, In blocks L <-> valid_split forms n blocks.
Proof.
  intros forms fm n N. destruct (assn_collect forms fm false n N) as [f0 F].
  exists (assignments forms fm false n), f0. split; [exact F|].
  split; [apply ordered_nodup, N|apply ordered_in, N].
Qed.
Print Assumptions C21_ordered_splits_exact.

(* With no forms at all the allocator claims a (length 0) solution for any
   number of expressions. *)
Theorem C21_no_forms_refuted : forall n, ~ valid_sizes [] (S n) [] /\
  exists f0, forall fuel, f0 <= fuel -> acollect fuel [] (ainit (S n) []) = Some [[]].
Proof.
  intro n. split; [intros [_ H]; cbn in H; lia|]. destruct (alloc_collect [] (S n)) as [f0 F]. exists f0. exact F.
Qed.
Print Assumptions C21_no_forms_refuted.

Definition seq_form (lo : nat) (hi : option nat) : pform := PForm lo hi (sys "Blank") false false false None None.
Example C21_ex : acollect 100 [seq_form 0 None; seq_form 1 (Some 1); seq_form 0 (Some 2)] (ainit 3 [seq_form 0 None; seq_form 1 (Some 1); seq_form 0 (Some 2)])
  = Some [[0; 1; 2]; [1; 1; 1]; [2; 1; 0]].
Proof. reflexivity. Qed.

(* ---- C22 ---- *)
Theorem C22_orderless_assignments_exact : forall forms fm n, forms <> [] ->
  exists L f0, (forall fuel, f0 <= fuel -> ncollect fuel forms fm true (ninit n forms) = Some L) /\
  NoDup L /\ forall blocks, In blocks L <-> valid_distribution forms fm n blocks.
Proof.
  intros forms fm n N. destruct (assn_collect forms fm true n N) as [f0 F].
  exists (assignments forms fm true n), f0. split; [exact F|].
  split; [apply orderless_nodup, N|apply orderless_in, N].
Qed.
Print Assumptions C22_orderless_assignments_exact.

Example C22_ex : ncollect 100 [seq_form 1 (Some 1); seq_form 0 None] (fun f i => negb ((f =? 0) && (i =? 1))) true
    (ninit 3 [seq_form 1 (Some 1); seq_form 0 None])
  = Some [[[0]; [1; 2]]; [[2]; [0; 1]]].
Proof. reflexivity. Qed.
