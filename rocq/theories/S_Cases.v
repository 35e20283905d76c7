(* What MemberQ, Cases, DeleteCases, Length, LeafCount, Depth, SameQ and
   UnsameQ should answer. *)
From Verif Require Import M_Syntax.
Open Scope nat_scope.

(* [parted P l yes no]: yes are the elements of l with property P and no the
   other ones, both in the order of l *)
Inductive parted {A} (P : A -> Prop) : list A -> list A -> list A -> Prop :=
| pa_nil : parted P [] [] []
| pa_yes x l yes no : P x -> parted P l yes no -> parted P (x :: l) (x :: yes) no
| pa_no x l yes no : ~ P x -> parted P l yes no -> parted P (x :: l) yes (x :: no).

(* A position in an expression: the index of a part (0 is the head), the index
   of a part of that part, ... *)
Fixpoint at_path (e : ex) (p : list nat) : option ex :=
  match p with
  | [] => Some e
  | k :: p' => match e with
               | EExpr l => match nth_error l k with Some x => at_path x p' | None => None end
               | _ => None
               end
  end.
Definition atomic (e : ex) : Prop := match e with EExpr _ => False | _ => True end.
(* positions of leaves *)
Definition leaf_position (e : ex) (p : list nat) : Prop := exists a, at_path e p = Some a /\ atomic a.
(* positions that go through arguments only; the last index may be the head's *)
Definition arg_position (e : ex) (p : list nat) : Prop :=
  at_path e p <> None /\ forall k, In k (removelast p) -> k <> 0.

(* every two elements at different positions are related *)
Definition pairwise {A} (R : A -> A -> Prop) (l : list A) : Prop :=
  forall i j x y, i <> j -> nth_error l i = Some x -> nth_error l j = Some y -> R x y.

(* no empty EExpr anywhere (the Go program never builds one) *)
Fixpoint headed (e : ex) : bool :=
  match e with
  | EExpr [] => false
  | EExpr l => forallb headed l
  | _ => true
  end.
Definition bare_real (e : ex) : bool := match e with EFlt _ => true | _ => false end.
