(* Specification: counting primes. *)
From Coq Require Import ZArith List Znumtheory QArith.
Import ListNotations.
Open Scope Z_scope.

(* n is the number of primes q with P q *)
Definition primes_with (P : Z -> Prop) (n : Z) : Prop :=
  exists l, NoDup l /\ (forall q, In q l <-> prime q /\ P q) /\ Z.of_nat (length l) = n.

(* p is the n-th prime: a prime, and exactly n primes do not exceed it *)
Definition nth_prime (n p : Z) : Prop := prime p /\ primes_with (fun q => q <= p) n.

(* a list of all the primes up to N, in increasing order *)
Definition ascending (l : list Z) : Prop := forall i j x y, (i < j)%nat ->
  nth_error l i = Some x -> nth_error l j = Some y -> x < y.
Definition primes_to (N : Z) (l : list Z) : Prop :=
  ascending l /\ forall q, In q l <-> prime q /\ q <= N.
