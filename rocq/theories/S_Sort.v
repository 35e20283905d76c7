(* What a sorted argument list is. *)
From Verif Require Import M_Syntax M_Float M_Order.
From Coq Require Import Permutation.
Open Scope Z_scope.

(* every adjacent pair is in canonical order *)
Fixpoint adjacent_ordered (l : list ex) : Prop :=
  match l with
  | x :: ((y :: _) as t) => 0 <= ex_order x y /\ adjacent_ordered t
  | _ => True
  end.

(* every earlier element is in order with every later one *)
Fixpoint all_ordered (l : list ex) : Prop :=
  match l with
  | [] => True
  | x :: t => (forall y, In y t -> 0 <= ex_order x y) /\ all_ordered t
  end.

(* the contract of sort.Sort: a rearrangement in which no element is Less than
   its predecessor *)
Definition sort_contract (l l' : list ex) : Prop :=
  Permutation l l' /\
  forall pre x y post, l' = pre ++ x :: y :: post -> ex_order y x <> 1.
