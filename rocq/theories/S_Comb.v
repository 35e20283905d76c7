(* Specification vocabulary: partitions of a number, lexicographic order. *)
From Verif Require Import M_Syntax M_Hash.
Open Scope Z_scope.

Definition nsum (p : list nat) : nat := fold_right plus 0%nat p.
Fixpoint nonincreasing (p : list nat) : Prop :=
  match p with x :: ((y :: _) as t) => (y <= x)%nat /\ nonincreasing t | _ => True end.

(* p is a partition of n into at most k positive parts *)
Definition is_partition (n k : nat) (p : list nat) : Prop :=
  nsum p = n /\ (forall i, In i p -> (1 <= i)%nat) /\ nonincreasing p /\ (length p <= k)%nat.

(* p comes strictly before q in lexicographic order *)
Inductive lex_lt : list nat -> list nat -> Prop :=
| lex_nil y q : lex_lt [] (y :: q)
| lex_head x y p q : (x < y)%nat -> lex_lt (x :: p) (y :: q)
| lex_tail x p q : lex_lt p q -> lex_lt (x :: p) (x :: q).

(* every element of the list is lexicographically greater than all later ones *)
Fixpoint lex_decreasing (l : list (list nat)) : Prop :=
  match l with [] => True | p :: t => (forall q, In q t -> lex_lt q p) /\ lex_decreasing t end.

(* SameQ distinguishes the members of l: no two different members have the
   same hash *)
Definition sameq_faithful (l : list ex) : Prop :=
  forall a b, In a l -> In b l -> is_sameq a b = true -> a = b.
