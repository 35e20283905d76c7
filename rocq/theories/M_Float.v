(* 53-bit floating point values: conversion from exact numbers, comparison,
   float64 bit patterns. *)
From Verif Require Import M_Syntax.
Open Scope Z_scope.

(* Go math/big Float with prec 53, ToNearestEven.  [fround n d] is the
   correctly rounded value of n/d for d > 0: what
   big.NewFloat(0).SetInt (d = 1) and SetRat compute.
   Used by atoms/ex_real.go 76-86 (IntegerToFlt, RationalToFlt).
   e is chosen with 2^52 <= n/d / 2^e < 2^53. *)

(* floor(log2 (a/b)) for a,b > 0 *)
Definition flog2q (a b : Z) : Z :=
  let g := Z.log2 a - Z.log2 b in
  (* 2^g * b <= a ? *)
  if (Z.leb (b * 2 ^ (Z.max g 0)) (a * 2 ^ (Z.max (- g) 0))) then g else g - 1.

(* round a/b (b>0, a>=0) to the nearest integer, ties to even *)
Definition rne (a b : Z) : Z :=
  let q := a / b in
  let r := a mod b in
  match Z.compare (2 * r) b with
  | Lt => q
  | Gt => q + 1
  | Eq => if Z.even q then q else q + 1
  end.

(* scaled numerator and denominator of (a/b)/2^e *)
Definition scale_num (a e : Z) : Z := a * 2 ^ (Z.max (- e) 0).
Definition scale_den (b e : Z) : Z := b * 2 ^ (Z.max e 0).

Definition fround_pos (a b : Z) : Z * Z (* mantissa, exponent *) :=
  let e := flog2q a b - 52 in
  (rne (scale_num a e) (scale_den b e), e).

Definition acc_of (neg : bool) (c : comparison) : Z :=
  match c, neg with
  | Eq, _ => 0
  | Lt, false => -1 | Lt, true => 1
  | Gt, false => 1 | Gt, true => -1
  end.

Definition fround (n d : Z) : flt :=
  if n =? 0 then FFin false 0 0 0
  else
    let a := Z.abs n in
    let '(m, e) := fround_pos a d in
    let acc := acc_of (n <? 0) (Z.compare (m * scale_den d e) (scale_num a e)) in
    if m =? 2 ^ 53 then FFin (n <? 0) (Z.to_N (2 ^ 52)) (e + 1) acc
    else FFin (n <? 0) (Z.to_N m) e acc.

(* atoms/ex_real.go 76-80 *)
Definition int_to_flt (i : Z) : flt := fround i 1.

(* atoms/ex_real.go 82-86 with ex_rational.go 62-65 (asBigRat: SetFrac moves the
   sign to the numerator and reduces).  A zero denominator panics in Go
   (SetFrac); the model then returns +Inf and theorems exclude it. *)
Definition rat_to_flt (n d : Z) : flt :=
  if d =? 0 then FInf false
  else fround (Z.sgn d * n) (Z.abs d).

(* signed mantissa *)
Definition smant (neg : bool) (m : N) : Z := if neg then - Z.of_N m else Z.of_N m.

(* math/big Float.Cmp, as used in atoms/order.go 90: -1, 0, +1 *)
Definition fcmp (x y : flt) : comparison :=
  match x, y with
  | FInf a, FInf b =>
      match a, b with true, false => Lt | false, true => Gt | _, _ => Eq end
  | FInf a, FFin _ _ _ _ => if a then Lt else Gt
  | FFin _ _ _ _, FInf b => if b then Gt else Lt
  | FFin s m e _, FFin s' m' e' _ =>
      let k := Z.min e e' in
      Z.compare (smant s m * 2 ^ (e - k)) (smant s' m' * 2 ^ (e' - k))
  end.

Definition cmp2z (c : comparison) : Z := match c with Lt => -1 | Eq => 0 | Gt => 1 end.

(* math/big Float.Float64 followed by math.Float64bits: None for overflow to
   infinity, otherwise the bit pattern as a signed 64-bit integer
   (atoms/sameq.go 19-20, 30). *)
Definition f64_mag (m : N) (e : Z) : option Z :=
  if (m =? 0)%N then Some 0
  else
    let E := e + 52 in (* exponent of the leading bit of a normalised mantissa *)
    if 1023 <? E then None
    else if -1022 <=? E then Some ((E + 1022) * 2 ^ 52 + Z.of_N m)
    else Some (rne (scale_num (Z.of_N m) (-1074 - e)) (scale_den 1 (-1074 - e))).

Definition f64_bits (x : flt) : option Z :=
  match x with
  | FInf _ => None
  | FFin neg m e _ =>
      match f64_mag m e with
      | None => None
      | Some b => Some (if neg then b - 2 ^ 63 else b)
      end
  end.

(* numeric equality of float64s given by patterns: only +0/-0 share a value *)
Definition f64_eq (a b : Z) : bool :=
  (a =? b) || ((a =? 0) && (b =? - 2 ^ 63)) || ((b =? 0) && (a =? - 2 ^ 63)).

(* two's complement wrap of a signed 64-bit subtraction *)
Definition wrap64 (z : Z) : Z := (z + 2 ^ 63) mod 2 ^ 64 - 2 ^ 63.

(* atoms/sameq.go 29-32 *)
Definition almost_equal (ai bi : Z) : bool :=
  f64_eq ai bi || ((-1 <=? wrap64 (ai - bi)) && (wrap64 (ai - bi) <=? 1)).
