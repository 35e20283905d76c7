(* Complex numbers other than 0 in polar form, with principal powers: z is
   (|z|, Arg z) with -pi < Arg z <= pi, and z^p = exp (p (ln |z| + i Arg z)) for a
   real exponent p. *)
From Verif Require Import M_Syntax M_LibCalc S_Real S_Trig.
From Coq Require Import Reals List.
Import ListNotations.
Open Scope R_scope.

Definition polar : Type := R * R.
Definition in_range (t : R) : Prop := - PI < t <= PI.
Definition proper (z : polar) : Prop := 0 < fst z /\ in_range (snd z).
(* the angle in (-pi, pi] that differs from t by a multiple of 2 pi *)
Definition princ (t : R) : R := t - 2 * PI * IZR (1 - up ((PI - t) / (2 * PI))).
Definition pmul (z w : polar) : polar := (fst z * fst w, princ (snd z + snd w)).
Definition ppow (z : polar) (p : R) : polar := (exp (p * ln (fst z)), princ (p * snd z)).
Definition pone : polar := (1, 0).
Definition pprod (l : list polar) : polar := fold_right pmul pone l.
(* a real number other than 0 *)
Definition pnum (x : R) : polar := if Rlt_dec 0 x then (x, 0) else (- x, PI).
(* x + i y *)
Definition carg (x y : R) : R :=
  if Rle_dec 0 y then acos (x / sqrt (x * x + y * y)) else - acos (x / sqrt (x * x + y * y)).
Definition pcart (x y : R) : polar := (sqrt (x * x + y * y), carg x y).
(* real and imaginary part *)
Definition pre (z : polar) : R := fst z * cos (snd z).
Definition pim (z : polar) : R := fst z * sin (snd z).

(* The value of an expression: numbers, products and powers with a real exponent;
   [z] gives the values of the symbols and of all other expressions, [r] the
   (real) values of the symbols in exponents. *)
Fixpoint pval (r : var -> R) (z : ex -> polar) (e : ex) : polar :=
  match e with
  | EInt n => pnum (IZR n)
  | ERat n d => pnum (IZR n / IZR d)
  | ECplx a b => pcart (val r a) (val r b)
  | EExpr (ESym h :: args) =>
      if is_fn h "Times" then pprod (List.map (pval r z) args)
      else if is_fn h "Power" then match args with [a; b] => ppow (pval r z a) (val r b) | _ => z e end
      else if is_fn h "Sqrt" then match args with [a] => ppow (pval r z a) (1 / 2) | _ => z e end
      else z e
  | _ => z e
  end.
(* no 0 where a power or product is taken *)
Inductive nonzero (z : ex -> polar) : ex -> Prop :=
| NZ_int n : n <> 0%Z -> nonzero z (EInt n)
| NZ_rat n d : n <> 0%Z -> (0 < d)%Z -> nonzero z (ERat n d)
| NZ_cplx a b : ~ (val (fun _ => 0) a = 0 /\ val (fun _ => 0) b = 0) -> exact_number a -> exact_number b -> nonzero z (ECplx a b)
| NZ_times l : Forall (nonzero z) l -> nonzero z (cTimes l)
| NZ_power a b : nonzero z a -> nonzero z (cPower a b)
| NZ_sqrt a : nonzero z a -> nonzero z (app1 "Sqrt" a)
| NZ_other e : (forall l, e <> cTimes l) -> (forall a b, e <> cPower a b) -> (forall a, e <> app1 "Sqrt" a) ->
    (forall n, e <> EInt n) -> (forall n d, e <> ERat n d) -> (forall a b, e <> ECplx a b) ->
    proper (z e) -> nonzero z e.
