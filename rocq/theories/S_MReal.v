(* Sums and products in which machine reals take part: the exact value, and how
   far a computed machine real may be from it. *)
From Verif Require Import M_Syntax S_Num S_N.
From Coq Require Import QArith Qabs List.
Open Scope Q_scope.

(* the rational number an integer, a rational or a finite machine real stands for *)
Definition rval (e : ex) : option Q := match e with EFlt f => flt_q f | _ => qval e end.
Definition is_flt (e : ex) : bool := match e with EFlt _ => true | _ => false end.

(* [values l qs]: every element of l is a real number, and qs are their values *)
Definition values (l : list ex) (qs : list Q) : Prop := Forall2 (fun e q => rval e = Some q) l qs.
Definition total (qs : list Q) : Q := fold_right Qplus 0 qs.
Definition prod (qs : list Q) : Q := fold_right Qmult 1 qs.
(* the sum of the absolute values *)
Definition size (qs : list Q) : Q := fold_right (fun q s => Qabs q + s) 0 qs.

(* what k roundings to 53 bits can do: a relative change of (1 + 2^-53)^k - 1 *)
Definition drift (k : nat) : Q := (1 + (2 # 1) ^ (-53)) ^ Z.of_nat k - 1.

(* f is a machine real within [err] of x *)
Definition within (f : flt) (err x : Q) : Prop := exists y, flt_q f = Some y /\ Qabs (y - x) <= err.
