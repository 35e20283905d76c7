(* Value of an expression under an assignment of rational numbers to
   everything that is not a number, a sum or a product. *)
From Verif Require Import M_Syntax S_Num.
From Coq Require Import QArith.
Open Scope Z_scope.

Fixpoint ev (v : ex -> Q) (e : ex) : Q :=
  match e with
  | EInt _ | ERat _ _ => qval0 e
  | EExpr (ESym s :: args) =>
      if String.eqb s (sysname "Plus") then
        (fix go (l : list ex) : Q := match l with [] => 0%Q | x :: t => (ev v x + go t)%Q end) args
      else if String.eqb s (sysname "Times") then
        (fix go (l : list ex) : Q := match l with [] => 1%Q | x :: t => (ev v x * go t)%Q end) args
      else v e
  | _ => v e
  end.

(* no machine real or Complex (and no n/0) as an argument, nor as the first
   factor of a product *)
Definition exact_arg (e : ex) : bool :=
  match e with
  | EExpr (_ :: x :: _) => negb (numberQ x) || exact_real x
  | _ => negb (numberQ e) || exact_real e
  end.
