From Verif Require Import M_Syntax.
From Coq Require Import Znumtheory.
Open Scope Z_scope.

Definition zprod (l : list Z) : Z := fold_right Z.mul 1 l.
(* product of p^k over a tally *)
Definition powprod (l : list (Z * N)) : Z := fold_right (fun '(p, k) r => p ^ Z.of_N k * r) 1 l.
Fixpoint nondecreasing (l : list Z) : Prop :=
  match l with x :: ((y :: _) as t) => x <= y /\ nondecreasing t | _ => True end.
Fixpoint increasing (l : list Z) : Prop :=
  match l with x :: ((y :: _) as t) => x < y /\ increasing t | _ => True end.
