(* Specification vocabulary: positional numerals, coprime counting, Fibonacci
   numbers, divisibility of rationals. *)
From Coq Require Import ZArith List QArith Znumtheory.
Import ListNotations.
Open Scope Z_scope.

(* the number written with the digits ds, most significant first *)
Definition numeral (base : Z) (ds : list Z) : Z := fold_left (fun v d => v * base + d) ds 0.
Definition digits_ok (base : Z) (ds : list Z) : Prop := forall d, In d ds -> 0 <= d < base.
Definition no_leading_zero (ds : list Z) : Prop := match ds with d :: _ => d <> 0 | [] => True end.

(* how many of 1, ..., n have no common factor with n *)
Definition coprime_count (n : Z) : Z :=
  Z.of_nat (length (filter (fun k => Z.gcd (Z.of_nat k) n =? 1) (seq 1 (Z.to_nat n)))).

Fixpoint fib (n : nat) : Z :=
  match n with O => 0 | S m => match m with O => 1 | S k => fib m + fib k end end.

(* x is an integer multiple of g *)
Definition rdivides (g x : Q) : Prop := exists k : Z, (x == inject_Z k * g)%Q.

(* the rational number with the prime factors l: product of p^k, k may be
   negative *)
Definition factor_value (l : list (Z * Z)) : Q :=
  fold_right (fun pk v => Qpower (inject_Z (fst pk)) (snd pk) * v)%Q 1%Q l.
