(* PrimeQ, PrimePi, Prime and PowerMod.
   builtin_numbertheory.go 120-213, qfunctions.go 90-98, numbertheory.m 231.
   The library functions prime.Primes and prime.SieveOfEratosthenes
   (github.com/kavehmz/prime), big.Int.ProbablyPrime and the floating point
   bound of builtin_numbertheory.go 191-192 are arguments of the model. *)
From Verif Require Import M_Syntax M_Float M_Num M_NumTheory M_LibNum.
From Coq Require Import QArith Qreduction.
Open Scope Z_scope.

(* qfunctions.go 90-98; [probably] is big.Int.ProbablyPrime(16) *)
Definition prime_q (probably : Z -> bool) (e : ex) : bool :=
  match e with EInt z => probably (Z.abs z) | _ => false end.

(* math/big Float.Int64: truncation towards zero, saturating *)
Definition flt_int64 (f : flt) : Z :=
  match f with
  | FInf true => - 2 ^ 63
  | FInf false => 2 ^ 63 - 1
  | FFin s m e _ =>
      Z.max (- 2 ^ 63) (Z.min (2 ^ 63 - 1) (Z.quot (smant s m * 2 ^ Z.max e 0) (2 ^ Z.max (- e) 0)))
  end.

(* builtin_numbertheory.go 124-150; [primes n] is prime.Primes(n); None: the
   call is returned unevaluated.  big.Int.Int64 keeps the low 64 bits. *)
Definition prime_pi (primes : Z -> list Z) (args : list ex) : option ex :=
  match args with
  | [a] =>
      match (match a with EInt z => Some (wrap64 z) | EFlt f => Some (flt_int64 f) | _ => None end) with
      | None => None
      | Some n =>
          Some (EInt (if n <=? 0 then 0
                      else if n =? 1 then 1
                      else Z.of_nat (length (primes n))))
      end
  | _ => None
  end.

(* what a call does: an unevaluated call, a value, or a Go panic *)
Inductive prime_outcome := PUneval | PValue (e : ex) | PPanic.

(* builtin_numbertheory.go 174-205; [bound n] is uint64 of the upper bound of
   line 192, [sieve n] is prime.SieveOfEratosthenes(n); p[n-1] beyond the end
   of the list is an index panic; the conversion to int64 wraps *)
Definition prime_fn (bound : Z -> Z) (sieve : Z -> list Z) (args : list ex) : prime_outcome :=
  match args with
  | [EInt z] =>
      let n := wrap64 z in
      if n <=? 0 then PUneval
      else if 211642827166041848 <? n then PUneval
      else
        let upper := if n <? 6 then 11 else bound n in
        match nth_error (sieve (upper + 1)) (Z.to_nat (n - 1)) with
        | Some p => PValue (EInt (wrap64 p))
        | None => PPanic
        end
  | _ => PUneval
  end.

(* Mod of the value of a power: builtin_numbertheory.go 103-119 for an Integer,
   numbertheory.m 96 for a Rational; anything else is left as a Mod call *)
Definition mod_value (e : ex) (m : Z) : ex :=
  match e with
  | EInt a => if m =? 0 then sys "Indeterminate" else EInt (big_mod a m)
  | ERat n d => let r := Qred (mod_rat (n # Z.to_pos d) m) in
                if QDen r =? 1 then EInt (Qnum r) else ERat (Qnum r) (QDen r)
  | _ => EExpr [sys "Mod"; e; EInt m]
  end.

(* numbertheory.m 231: PowerMod[x, y, m] := Mod[x^y, m], on Integers *)
Definition power_mod (x y m : Z) : ex := mod_value (eval_rational_call (power_int x y)) m.
