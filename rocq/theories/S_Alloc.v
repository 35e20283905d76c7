(* What the enumerators of the matcher have to produce. *)
From Verif Require Import M_Syntax M_Alloc.
From Coq Require Import Permutation.

Definition lsum (l : list nat) : nat := fold_right plus 0 l.

(* block sizes: one per form, within the bounds of the form, adding up to n *)
Definition valid_sizes (forms : list pform) (n : nat) (sizes : list nat) : Prop :=
  Forall2 (fun f k => pf_start f <= k /\ match pf_end f with None => True | Some m => k <= m end) forms sizes /\
  lsum sizes = n.

Fixpoint strictly_increasing (l : list nat) : Prop :=
  match l with x :: ((y :: _) as t) => x < y /\ strictly_increasing t | _ => True end.

(* consecutive blocks covering 0 .. n-1 *)
Definition valid_split (forms : list pform) (n : nat) (blocks : list (list nat)) : Prop :=
  valid_sizes forms n (map (@length nat) blocks) /\ concat blocks = seq 0 n.

(* every position used exactly once, positions inside a block increasing, and
   position x may go to form i only if fm i x *)
Definition valid_distribution (forms : list pform) (fm : nat -> nat -> bool) (n : nat) (blocks : list (list nat)) : Prop :=
  valid_sizes forms n (map (@length nat) blocks) /\
  Permutation (concat blocks) (seq 0 n) /\
  Forall strictly_increasing blocks /\
  (forall i b x, nth_error blocks i = Some b -> In x b -> fm i x = true).
