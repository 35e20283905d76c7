(* How arithmetic text is read, and what expressions mean.
   Specification for C65. *)
From Verif Require Import M_Syntax M_Hash M_InputForm.
Open Scope nat_scope.

(* ---- reading ----
   The operators of the language with their usual priorities:
     sum  ::= prod { + prod or - prod }    (left to right)
     prod ::= fac { * fac or / fac }      (left to right)
     fac  ::= - fac | prim [ ^ fac ]
     prim ::= digits | name | name [ sum , ... ] | { sum , ... } | ( sum )
   a - b is a + (-1)*b, - a is (-1)*a, a / b is a * b^(-1). *)
Definition e_plus (a b : ex) : ex := EExpr [sys "Plus"; a; b].
Definition e_times (a b : ex) : ex := EExpr [sys "Times"; a; b].
Definition e_pow (a b : ex) : ex := EExpr [sys "Power"; a; b].
Definition e_neg (a : ex) : ex := e_times (EInt (-1)) a.

(* what is being read: a whole sum, the rest of a sum after a, ... *)
Inductive phase : Type :=
| PSum | PSumRest (a : ex) | PProd | PProdRest (a : ex) | PFac | PPrim
| PArgs (close : tok) (head : ex) (args : list ex)      (* first argument, or the closing bracket *)
| PArgsRest (close : tok) (head : ex) (args : list ex). (* a comma or the closing bracket *)

Definition is_close (close t : tok) : bool :=
  match close, t with TRB, TRB => true | TRC, TRC => true | _, _ => false end.

Fixpoint rd (fuel : nat) (ph : phase) (ts : list tok) : option (ex * list tok) :=
  match fuel with
  | O => None
  | S n =>
    match ph with
    | PSum => match rd n PProd ts with Some (a, r) => rd n (PSumRest a) r | None => None end
    | PSumRest a =>
        match ts with
        | TPlus :: r => match rd n PProd r with Some (b, r') => rd n (PSumRest (e_plus a b)) r' | None => None end
        | TMinus :: r => match rd n PProd r with Some (b, r') => rd n (PSumRest (e_plus a (e_neg b))) r' | None => None end
        | _ => Some (a, ts)
        end
    | PProd => match rd n PFac ts with Some (a, r) => rd n (PProdRest a) r | None => None end
    | PProdRest a =>
        match ts with
        | TTimes :: r => match rd n PFac r with Some (b, r') => rd n (PProdRest (e_times a b)) r' | None => None end
        | TDiv :: r => match rd n PFac r with Some (b, r') => rd n (PProdRest (e_times a (e_pow b (EInt (-1))))) r' | None => None end
        | _ => Some (a, ts)
        end
    | PFac =>
        match ts with
        | TMinus :: r => match rd n PFac r with Some (a, r') => Some (e_neg a, r') | None => None end
        | _ => match rd n PPrim ts with
               | Some (a, TPow :: r) => match rd n PFac r with Some (b, r') => Some (e_pow a b, r') | None => None end
               | Some (a, r) => Some (a, r)
               | None => None
               end
        end
    | PPrim =>
        match ts with
        | TInt k :: r => Some (EInt (Z.of_N k), r)
        | TName s :: TLB :: r => rd n (PArgs TRB (ESym s) []) r
        | TName s :: r => Some (ESym s, r)
        | TLC :: r => rd n (PArgs TRC (sys "List") []) r
        | TLP :: r => match rd n PSum r with Some (a, TRP :: r') => Some (a, r') | _ => None end
        | _ => None
        end
    | PArgs c h args =>
        match ts with
        | t :: r => if is_close c t then Some (EExpr (h :: args), r)
                    else match rd n PSum ts with Some (a, r') => rd n (PArgsRest c h (args ++ [a])) r' | None => None end
        | [] => None
        end
    | PArgsRest c h args =>
        match ts with
        | TComma :: r => match rd n PSum r with Some (a, r') => rd n (PArgsRest c h (args ++ [a])) r' | None => None end
        | t :: r => if is_close c t then Some (EExpr (h :: args), r) else None
        | [] => None
        end
    end
  end.

(* spaces separate tokens and have no other meaning; "--" (no space) is another
   operator, so a text containing it is not arithmetic *)
Definition is_space (t : tok) : bool := match t with TSpace => true | _ => false end.
Fixpoint double_minus (ts : list tok) : bool :=
  match ts with
  | TMinus :: ((TMinus :: _) as r) => true
  | _ :: r => double_minus r
  | [] => false
  end.
(* the text ts is read as the expression t *)
Definition reads (ts : list tok) (t : ex) : Prop :=
  double_minus ts = false /\ exists n, rd n PSum (filter (fun t => negb (is_space t)) ts) = Some (t, []).

(* ---- meaning ---- *)
(* A way to give values to expressions: a commutative ring with reciprocals and
   powers, values for symbols and for the other functions. *)
Record interp : Type := Interp {
  R : Type;
  r0 : R; r1 : R; radd : R -> R -> R; rmul : R -> R -> R; rneg : R -> R;
  rinv : R -> R; rpow : R -> R -> R;
  rint : Z -> R;
  rsym : string -> R; rfun : string -> list R -> R;
  add_comm : forall a b, radd a b = radd b a;
  add_assoc : forall a b c, radd a (radd b c) = radd (radd a b) c;
  add_0 : forall a, radd r0 a = a;
  add_neg : forall a, radd a (rneg a) = r0;
  mul_comm : forall a b, rmul a b = rmul b a;
  mul_assoc : forall a b c, rmul a (rmul b c) = rmul (rmul a b) c;
  mul_1 : forall a, rmul r1 a = a;
  distr : forall a b c, rmul (radd a b) c = radd (rmul a c) (rmul b c);
  int_1 : rint 1 = r1;
  int_add : forall x y, rint (x + y) = radd (rint x) (rint y);
  inv_mul : forall a b, rinv (rmul a b) = rmul (rinv a) (rinv b);
  pow_inv : forall a, rpow a (rint (-1)) = rinv a;
  pow_sqrt : forall a, rpow a (rmul r1 (rinv (rint 2))) = rfun (sysname "Sqrt") [a];
  pow_rsqrt : forall a, rpow a (rmul (rint (-1)) (rinv (rint 2))) = rinv (rfun (sysname "Sqrt") [a])
}.

Section Value.
  Variable I : interp.
  Definition sum_of (l : list (R I)) : R I := fold_right (radd I) (r0 I) l.
  Definition prod_of (l : list (R I)) : R I := fold_right (rmul I) (r1 I) l.
  (* numbers, Plus, Times and Power have their arithmetical meaning; strings and
     the like, which do not occur in arithmetic, get 0 *)
  Fixpoint value (e : ex) : R I :=
    match e with
    | ESym s => rsym I s
    | EInt z => rint I z
    | ERat n d => rmul I (rint I n) (rinv I (rint I d))
    | EExpr (ESym h :: args) =>
        let vs := map value args in
        if String.eqb h (sysname "Plus") then sum_of vs
        else if String.eqb h (sysname "Times") then prod_of vs
        else match vs with
             | [a; b] => if String.eqb h (sysname "Power") then rpow I a b else rfun I h vs
             | _ => rfun I h vs
             end
    | _ => r0 I
    end.
End Value.

(* Arithmetic expressions that are printed faithfully: built from integers,
   rationals, symbols, Plus, Times, Power, List and functions without a print
   form of their own, such that
   - in a product, only the first argument is a number (true of every evaluated
     product), and no argument is itself a product with a denominator;
   - the base of a power is not a negative integer, and neither base nor
     exponent is a product with a denominator;
   - no numerator or exponent is confused with 1 or -1 by its low 64 bits, and
     no exponent has the hash of 1/2, -1/2 or -1 by accident. *)
Definition number (e : ex) : Prop := (exists z, e = EInt z) \/ (exists n d, e = ERat n d).
Definition negative (e : ex) : Prop := exists z, e = EInt z /\ (z < 0)%Z.
(* x contributes a denominator when it is an argument of Times *)
Definition fraction_factor (x : ex) : Prop := (exists n d, x = ERat n d) \/ (exists b, x = EExpr [sys "Power"; b; EInt (-1)]).
Definition fraction (e : ex) : Prop := exists args x, e = EExpr (sys "Times" :: args) /\ In x args /\ fraction_factor x.
Definition low64 (z : Z) : Z := (z mod 2 ^ 64)%Z.
Definition no_collision (x : ex) : Prop := forall y, In y [ERat 1 2; ERat (-1) 2; EInt (-1)] -> is_sameq x y = true -> x = y.

Inductive faithful : ex -> Prop :=
| f_sym s : faithful (ESym s)
| f_int z : faithful (EInt z)
| f_rat n d : (low64 n = 1%Z -> n = 1%Z) -> faithful (ERat n d)
| f_plus args : Forall faithful args -> faithful (EExpr (sys "Plus" :: args))
| f_times args : Forall faithful args -> Forall (fun x => ~ fraction x) args -> Forall (fun x => ~ number x) (tl args) ->
    faithful (EExpr (sys "Times" :: args))
| f_pow b x : faithful b -> faithful x -> ~ negative b -> ~ fraction b -> ~ fraction x ->
    (forall z, x = EInt z -> low64 z = low64 (-1) -> z = (-1)%Z) -> no_collision x -> faithful (EExpr [sys "Power"; b; x])
| f_call h args : Forall faithful args -> ~ In h special -> h <> sysname "Plus" -> h <> sysname "Times" -> h <> sysname "Power" ->
    faithful (EExpr (ESym h :: args)).
