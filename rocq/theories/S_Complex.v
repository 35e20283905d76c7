(* Complex values of expressions: pairs (real part, imaginary part), with the
   principal branch of the logarithm. *)
From Verif Require Import M_Syntax M_LibCalc S_Real S_Trig S_Polar.
From Coq Require Import Reals List.
Import ListNotations.
Open Scope R_scope.

Definition cplx : Type := R * R.
Definition real (x : R) : cplx := (x, 0).
Definition ci : cplx := (0, 1).
Definition cadd (z w : cplx) : cplx := (fst z + fst w, snd z + snd w).
Definition cmul (z w : cplx) : cplx := (fst z * fst w - snd z * snd w, fst z * snd w + snd z * fst w).
Definition cabs (z : cplx) : R := sqrt (fst z * fst z + snd z * snd z).
Definition cconj (z : cplx) : cplx := (fst z, - snd z).
Definition cinv (z : cplx) : cplx :=
  (fst z / (fst z * fst z + snd z * snd z), - snd z / (fst z * fst z + snd z * snd z)).
Fixpoint cpow_nat (z : cplx) (n : nat) : cplx := match n with O => real 1 | S k => cmul z (cpow_nat z k) end.
Definition cpow_Z (z : cplx) (n : Z) : cplx :=
  match n with Z0 => real 1 | Zpos p => cpow_nat z (Pos.to_nat p) | Zneg p => cinv (cpow_nat z (Pos.to_nat p)) end.
Definition cexp (z : cplx) : cplx := (exp (fst z) * cos (snd z), exp (fst z) * sin (snd z)).
Definition clog (z : cplx) : cplx := (ln (cabs z), carg (fst z) (snd z)).
Definition ccos (z : cplx) : cplx := (cos (fst z) * cosh (snd z), - (sin (fst z) * sinh (snd z))).
Definition csin (z : cplx) : cplx := (sin (fst z) * cosh (snd z), cos (fst z) * sinh (snd z)).
(* the principal power; 0 to a power is 0 (of interest for Re w > 0 only) *)
Definition cpowc (z w : cplx) : cplx :=
  if Req_EM_T (fst z) 0 then if Req_EM_T (snd z) 0 then real 0 else cexp (cmul w (clog z))
  else cexp (cmul w (clog z)).
Definition csum (l : list cplx) : cplx := fold_right cadd (real 0) l.
Definition cprod (l : list cplx) : cplx := fold_right cmul (real 1) l.

(* [z] gives the values of the symbols and of the functions not listed here. *)
Definition fn1 (h : string) (w : cplx) : option cplx :=
  if is_fn h "Re" then Some (real (fst w))
  else if is_fn h "Im" then Some (real (snd w))
  else if is_fn h "Abs" then Some (real (cabs w))
  else if is_fn h "Arg" then Some (real (carg (fst w) (snd w)))
  else if is_fn h "Conjugate" then Some (cconj w)
  else if is_fn h "Log" then Some (clog w)
  else if is_fn h "Sin" then Some (csin w)
  else if is_fn h "Cos" then Some (ccos w)
  else if is_fn h "Exp" then Some (cexp w)
  else if is_fn h "Sqrt" then Some (cpowc w (real (1 / 2)))
  else if is_fn h "ArcTan" then Some (real (atan (fst w)))   (* for real arguments *)
  else None.
Fixpoint cval (z : ex -> cplx) (e : ex) : cplx :=
  match e with
  | EInt n => real (IZR n)
  | ERat n d => real (IZR n / IZR d)
  | ECplx a b => cadd (cval z a) (cmul ci (cval z b))
  | ESym s => if is_fn s "Pi" then real PI else if is_fn s "E" then real (exp 1) else z e
  | EExpr (ESym h :: args) =>
      if is_fn h "Plus" then csum (List.map (cval z) args)
      else if is_fn h "Times" then cprod (List.map (cval z) args)
      else match args with
           | [a] => match fn1 h (cval z a) with Some v => v | None => z e end
           | [a; b] =>
               if is_fn h "Power" then
                 match b with
                 | EInt n => cpow_Z (cval z a) n
                 | _ => cpowc (cval z a) (cval z b)
                 end
               else z e
           | _ => z e
           end
  | _ => z e
  end.

(* products and real powers of positive numbers *)
Inductive positive (z : ex -> cplx) : ex -> Prop :=
| Pos_int n : (0 < n)%Z -> positive z (EInt n)
| Pos_rat n d : (0 < n)%Z -> (0 < d)%Z -> positive z (ERat n d)
| Pos_sym s v : cval z (ESym s) = real v -> 0 < v -> positive z (ESym s)
| Pos_times l : Forall (positive z) l -> positive z (cTimes l)
| Pos_power a b y : positive z a -> cval z b = real y -> positive z (cPower a b).
