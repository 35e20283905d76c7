(* Real values of expressions (standard library reals). *)
From Verif Require Import M_Syntax M_LibCalc.
From Coq Require Import Reals List.
Import ListNotations.
Open Scope R_scope.

Inductive var := VSym (s : string) | VSlot.
Definition var_ex (x : var) : ex := match x with VSym s => ESym s | VSlot => slot1 end.
Definition var_eqb (x y : var) : bool :=
  match x, y with VSym s, VSym t => String.eqb s t | VSlot, VSlot => true | _, _ => false end.
Definition upd (r : var -> R) (x : var) (t : R) : var -> R := fun y => if var_eqb x y then t else r y.

Definition rsum (l : list R) : R := fold_right Rplus 0 l.
Definition rprod (l : list R) : R := fold_right Rmult 1 l.
Definition rsign (x : R) : R := if Rlt_dec x 0 then -1 else if Rlt_dec 0 x then 1 else 0.
Definition int_lit (e : ex) : option Z := match e with EInt n => Some n | _ => None end.

(* the value of a function applied to values; [lits]: which arguments are
   literal integers.  The value of a power with a literal integer exponent is
   the repeated product, of any other power exp(b log a), of interest only
   where a > 0.  [fn] gives any meaning to the other functions. *)
Definition fval (fn : string -> list R -> R) (h : string) (lits : list (option Z)) (vs : list R) : R :=
  if String.eqb h (sysname "Plus") then rsum vs
  else if String.eqb h (sysname "Times") then rprod vs
  else if String.eqb h (sysname "Power") then
    match lits, vs with
    | [_; Some n], x :: _ => powerRZ x n
    | [_; None], [x; y] => exp (y * ln x)
    | _, _ => fn h vs
    end
  else match vs with
       | [x] => if String.eqb h (sysname "Log") then ln x
                else if String.eqb h (sysname "Sin") then sin x
                else if String.eqb h (sysname "Cos") then cos x
                else if String.eqb h (sysname "Abs") then Rabs x
                else fn h vs
       | _ => fn h vs
       end.

Fixpoint den (fn : string -> list R -> R) (r : var -> R) (e : ex) : R :=
  match e with
  | EInt z => IZR z
  | ERat n d => IZR n / IZR d
  | ESym s => r (VSym s)
  | EExpr l =>
      if ex_eqb slot1 (EExpr l) then r VSlot
      else match l with
           | ESym h :: args => fval fn h (List.map int_lit args) (List.map (den fn r) args)
           | [h; a] => if ex_eqb h (EExpr [EExpr [sys "Derivative"; EInt 1]; sys "Abs"]) then rsign (den fn r a) else 0
           | _ => 0
           end
  | _ => 0
  end.

(* where the formulas of the rules make sense: logarithms of positive numbers,
   positive bases (or an integer exponent and a base that is not 0), Abs only
   of the variable itself and not at 0 *)
Inductive regular (fn : string -> list R -> R) (r : var -> R) (x : var) : ex -> Prop :=
| reg_free e : freeq (var_ex x) e -> regular fn r x e
| reg_var : regular fn r x (var_ex x)
| reg_plus l : (forall a, In a l -> regular fn r x a) -> regular fn r x (cPlus l)
| reg_times l : (forall a, In a l -> regular fn r x a) -> regular fn r x (cTimes l)
| reg_power a b : regular fn r x a -> regular fn r x b -> 0 < den fn r a -> regular fn r x (cPower a b)
| reg_power_int a n : regular fn r x a -> den fn r a <> 0 -> regular fn r x (cPower a (EInt n))
| reg_log a : regular fn r x a -> 0 < den fn r a -> regular fn r x (app1 "Log" a)
| reg_sin a : regular fn r x a -> regular fn r x (app1 "Sin" a)
| reg_cos a : regular fn r x a -> regular fn r x (app1 "Cos" a)
| reg_abs : r x <> 0 -> regular fn r x (app1 "Abs" (var_ex x)).
