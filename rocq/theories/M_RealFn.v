(* Numeric functions of machine reals: builtin_trig.go 11-30, builtin_power.go
   13-31 and the machine-real part of Power (195-413).  mathbigext (an external
   module) and Go's math functions are parameters. *)
From Verif Require Import M_Syntax M_Float M_NumTheory.
From Coq Require Import String.
Open Scope Z_scope.

(* what a call of a builtin can do: return a new expression, return the
   expression it was given, or stop the whole program with a Go panic *)
Inductive outcome := Done (e : ex) | Same | Crash.

(* math/big Float.Float64 is Exact: infinities, zero, and values with an
   exponent and trailing zeros that fit a float64 *)
Definition is_f64 (f : flt) : bool :=
  match f with
  | FInf _ => true
  | FFin _ m e _ => (m =? 0)%N || ((e + 52 <=? 1023) && (Z.of_N m mod 2 ^ (Z.max 0 (-1074 - e)) =? 0))
  end.

(* builtin_trig.go 11-30: mathFnOneParam.  [fn] is the float64 function, None for
   NaN, on which big.NewFloat panics (ErrNaN). *)
Definition math_fn (fn : flt -> option flt) (args : list ex) : outcome :=
  match args with
  | [EFlt f] => if is_f64 f then match fn f with Some r => Done (EFlt r) | None => Crash end else Same
  | _ => Same
  end.

Definition flt0 : flt := FFin false 0 0 0.
Definition flt1 : flt := int_to_flt 1.
Definition flt_m1 : flt := int_to_flt (-1).

(* builtin_power.go 13-31: bigMathFnOneParam *)
Definition big_fn (fn : flt -> flt) (only_pos : bool) (args : list ex) : outcome :=
  match args with
  | [EFlt f] =>
      if negb only_pos || match fcmp f flt0 with Gt => true | _ => false end then Done (EFlt (fn f)) else Same
  | _ => Same
  end.

(* builtin_trig.go 35-62: Cot is 1 / math.Tan(x); [tan] as above, [recip] is
   float64 division into 1 *)
Definition cot_fn (tan recip : flt -> option flt) (f : flt) : option flt :=
  match tan f with Some t => recip t | None => None end.

(* math/big Float.IsInt *)
Definition flt_is_int (f : flt) : bool :=
  match f with
  | FInf _ => false
  | FFin _ m e _ => (m =? 0)%N || (0 <=? e) || (Z.of_N m mod 2 ^ (- e) =? 0)
  end.

(* builtin_power.go 217-230: sign of the power and of the base; None is -2 *)
Definition sign_of (e : ex) : option comparison :=
  match e with
  | EFlt f => Some (fcmp f flt0)
  | EInt z => Some (z ?= 0)
  | _ => None
  end.

Definition flt_of (e : ex) : option flt := match e with EFlt f => Some f | _ => None end.
Notation s_ n := (sys n).

(* builtin_power.go 238-316: a negative base and a machine-real power.  [ev] is
   es.Eval.  A base that is not a Flt leaves baseFlt nil, and DeepCopy of nil
   panics; a value that is not a Flt fails the type assertion, which panics. *)
Definition power_negative (pow : flt -> flt -> flt) (ev : ex -> ex) (b : ex) (p : flt) : outcome :=
  match fcmp p flt_m1, b with
  | Eq, EInt z => Done (EFlt (pow (int_to_flt z) p))
  | Eq, EFlt f => Done (EFlt (pow f p))
  | _, EFlt f =>
      let coeff := ev (EExpr [s_ "Power"; EExpr [s_ "Power"; EFlt f; EInt 2]; EExpr [s_ "Times"; EFlt p; ERat 1 2]]) in
      match flt_of coeff with
      | None => Crash
      | Some c =>
        match flt_of (ev (EExpr [s_ "Times"; EFlt p; EExpr [s_ "Arg"; EFlt f]])) with
        | None => Crash
        | Some inner =>
          match flt_of (ev (EExpr [s_ "Times"; EFlt c; EExpr [s_ "Cos"; EFlt inner]])) with
          | None => Crash
          | Some re =>
            if flt_is_int p then Done (EFlt re)
            else match flt_of (ev (EExpr [s_ "Times"; EFlt c; EExpr [s_ "Sin"; EFlt inner]])) with
                 | None => Crash
                 | Some im => Done (ECplx (EFlt re) (EFlt im))
                 end
          end
        end
      end
  | _, _ => Crash
  end.

(* builtin_power.go 195-413: Power of two arguments.  The exact cases are
   power_int and power_rat (M_NumTheory). *)
Definition power_fn (pow : flt -> flt -> flt) (ev : ex -> ex) (fuel : nat) (args : list ex) : outcome :=
  match args with
  | [b; p] =>
      let one := match p with EFlt f => match fcmp f flt1 with Eq => true | _ => false end | EInt z => z =? 1 | _ => false end in
      if one then Done b
      else match sign_of p, sign_of b with
      | Some Eq, Some Eq => Done (sys "Indeterminate")
      | Some Eq, Some _ => Done (EInt 1)
      | Some Gt, Some Eq => Done b
      | _, sb =>
        match b, p, sb with
        | _, EFlt f, Some Lt => power_negative pow ev b f
        | EInt x, EInt y, _ => Done (power_int x y)
        | EFlt x, EInt y, _ => Done (EFlt (pow x (int_to_flt y)))
        | EInt x, EFlt y, _ => Done (EFlt (pow (int_to_flt x) y))
        | EFlt x, EFlt y, _ => Done (EFlt (pow x y))
        | EInt x, ERat m n, _ => match power_rat fuel x m n with Some e => Done e | None => Same end
        | _, _, _ => Same
        end
      end
  | _ => Same
  end.
