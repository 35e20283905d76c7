(* Polynomial division and greatest common divisors as written in the language
   itself: resources/power.m (PolynomialQuotientRemainder, PolySubresultantGCD,
   SquareFreeQ).
   Simplification: a polynomial in the variable is an element of {poly F} for
   the field F of its coefficients (mathcomp), instead of an expression; Expand,
   Exponent and Coefficient are taken to compute the expanded form, the degree
   and the coefficients (the value of Expand is the subject of C76).
   Exponent[0, x] is -Infinity, for which the comparisons with integers in
   these loops are not True. *)
From mathcomp Require Import all_ssreflect all_algebra.
Set Implicit Arguments.
Unset Strict Implicit.
Unset Printing Implicit Defensive.
Import GRing.Theory.
Local Open Scope ring_scope.

Section model.
  Variable F : fieldType.

  (* Exponent[p, x] for p different from 0 *)
  Definition exponent (p : {poly F}) : nat := (size p).-1.

  (* power.m 517-528: the While loop of PolynomialQuotientRemainder; b is the
     divisor, d = Exponent[b, x], c = Coefficient[b, x^d]; [k] is 20 - i *)
  Fixpoint qr_loop (k : nat) (b : {poly F}) (d : nat) (c : F) (q r : {poly F}) : {poly F} * {poly F} :=
    match k with
    | 0%N => (q, r)
    | k'.+1 =>
        if (r != 0) && (d <= exponent r)%N then
          let s := (r`_(exponent r) / c) *: 'X^(exponent r - d) in
          qr_loop k' b d c (q + s) (r - s * b)
        else (q, r)
    end.
  (* i = 1; While[... && i < 20, ...; i = i + 1] *)
  Definition rounds : nat := 19.
  (* power.m 508-529; the divisor is not 0 *)
  Definition poly_quotient_remainder (a b : {poly F}) : {poly F} * {poly F} :=
    let d := exponent b in
    if d == 0%N then (b`_0^-1 *: a, 0)   (* pow === 1 *)
    else qr_loop rounds b d b`_d 0 a.
  (* power.m 532-537 *)
  Definition poly_quotient a b := (poly_quotient_remainder a b).1.
  Definition poly_remainder a b := (poly_quotient_remainder a b).2.

  (* x^delta for an integer delta *)
  Definition zpow (x : F) (m n : nat) : F := if (n <= m)%N then x ^+ (m - n) else x ^- (n - m).
  (* power.m 715-731: the While loop of PolySubresultantGCD.  The second
     component tells whether the loop ended because v is 0.
     Simplification: if beta is 0 the program goes on with ComplexInfinity or
     Indeterminate; here the division gives 0. *)
  Fixpoint gcd_loop (k : nat) (u v : {poly F}) (h : F) : {poly F} * bool :=
    match k with
    | 0%N => (u, v == 0)
    | k'.+1 =>
        if v == 0 then (u, true)
        else
          let ue := exponent u in let ve := exponent v in
          let beta := (if odd (ue + ve).+1 then -1 else 1) * ue%:R * zpow h ue ve in
          let h' := h * zpow (ve%:R / h) ue ve in
          gcd_loop k' v (beta^-1 *: poly_remainder u v) h'
    end.
  (* power.m 732: If[Exponent[u, x] == 0, 1, u] *)
  Definition finish (u : {poly F}) : {poly F} := if exponent u == 0%N then 1 else u.
  Definition poly_gcd (a b : {poly F}) : {poly F} := finish (gcd_loop rounds a b 1).1.
  (* power.m 749-756: SquareFreeQ of an expanded polynomial in one variable
     compares PolynomialGCD[f, f'] with 1.  FactorTermsList[...][[2]]
     (power.m 735-737) divides by a constant, which does not matter here *)
  Definition squarefree_q (f : {poly F}) : bool := poly_gcd f f^`() == 1.
End model.
