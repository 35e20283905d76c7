(* What Solve is about: parts of expressions, and products in which the variable
   has no vanishing coefficient. *)
From Verif Require Import M_Syntax M_LibCalc S_Complex.
From Coq Require Import Reals List.
Import ListNotations.

Inductive part : ex -> ex -> Prop :=
| part_self e : part e e
| part_arg e a l : part e a -> In a l -> part e (EExpr l).
(* in every product containing v, the factors free of v are not 0 *)
Definition coefficients_nonzero (v : string) (z : ex -> cplx) (e : ex) : Prop :=
  forall l f, part (cTimes l) e -> occurs (ESym v) (cTimes l) = true -> In f l -> freeq (ESym v) f -> cval z f <> real 0%R.
(* v is no System symbol such as Plus *)
Definition user_symbol (v : string) : Prop := forall n, v <> sysname n.
(* v occurs on one side only *)
Definition one_sided (v : string) (l r : ex) : Prop :=
  (occurs (ESym v) l = true /\ freeq (ESym v) r) \/ (freeq (ESym v) l /\ occurs (ESym v) r = true).
