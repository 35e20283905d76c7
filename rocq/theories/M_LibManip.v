(* Numerator, Denominator and Together (manip.m 1-19, 71-91), and
   ExpreduceFactorConstant (power.m 566-568, 627-634).
   Products and sums are written down as the rules build them, before Times,
   Plus and Power simplify them: what those keep is the value (C04, C85). *)
From Verif Require Import M_Syntax M_Num M_NumTheory M_LibExpand.
From Coq Require Import Permutation Lia.

(* comparison.m 267: Negative, on the kinds of numbers *)
Definition negative_num (e : ex) : bool :=
  match e with
  | EInt z => (z <? 0)%Z
  | ERat n d => (n * d <? 0)%Z
  | EFlt (FInf s) => s
  | EFlt (FFin s m _ _) => s && negb (m =? 0)%N
  | _ => false
  end.
(* -n for such a number, and for Times[-1, symbol] *)
Definition negated (e : ex) : ex :=
  match e with
  | EInt z => EInt (- z)
  | ERat n d => ERat (- n) d
  | EFlt (FInf s) => EFlt (FInf (negb s))
  | EFlt (FFin s m x a) => EFlt (FFin (negb s) m x (- a))
  | EExpr [h; EInt z; s] => s
  | _ => e
  end.
(* manip.m 72: denPattern, b_^n_?Negative | b_^(n : (-_Symbol)) *)
Definition den_exponent (n : ex) : bool :=
  negative_num n ||
  match n with
  | EExpr [ESym h; EInt z; ESym _] => String.eqb h (sysname "Times") && (z =? -1)%Z
  | _ => false
  end.
Definition den_factor (e : ex) : option (ex * ex) :=
  match e with
  | EExpr [ESym h; b; n] => if String.eqb h (sysname "Power") && den_exponent n then Some (b, n) else None
  | _ => None
  end.

Definition is_none {A : Type} (o : option A) : bool := match o with None => true | Some _ => false end.
(* manip.m 73: Times @@ Cases[prod, Except[denPattern]] *)
Definition num_factors (l : list ex) : list ex := filter (fun e => is_none (den_factor e)) l.
(* manip.m 87: Times @@ Cases[prod, denPattern -> b^(-n)] *)
Fixpoint den_factors (l : list ex) : list ex :=
  match l with
  | [] => []
  | e :: t => match den_factor e with
              | Some (b, n) => xPower b (negated n) :: den_factors t
              | None => den_factors t
              end
  end.

(* manip.m 73-75; the argument is not a List (Numerator is Listable) *)
Definition numerator (e : ex) : ex :=
  match e with
  | EExpr (ESym h :: l) => if String.eqb h (sysname "Times") then xTimes (num_factors l) else e
  | ERat n d => EInt n
  | _ => e
  end.
(* manip.m 87-89 *)
Definition denominator (e : ex) : ex :=
  match e with
  | EExpr (ESym h :: l) => if String.eqb h (sysname "Times") then xTimes (den_factors l) else EInt 1
  | ERat n d => EInt d
  | _ => EInt 1
  end.

(* manip.m 1-2 *)
Definition distribute_multiply (e m : ex) : ex :=
  match e with
  | EExpr (ESym h :: l) => if String.eqb h (sysname "Plus") then xPlus (map (fun x => xTimes [x; m]) l)
                           else xTimes [e; m]
  | _ => xTimes [e; m]
  end.

Definition sum_of (l : list ex) : ex := match l with [x] => x | _ => xPlus l end.
Definition rec_power (d : ex) : ex := xPower d (EInt (-1)).
Definition imaginary_unit : ex := ECplx (EInt 0) (EInt 1).

(* c_.*x on a term t: t is x itself (c is 1), or a product with x among its
   factors, c standing for the others *)
Inductive coefficient_of (x : ex) : ex -> ex -> Prop :=
| co_one : coefficient_of x x (EInt 1)
| co_times fs cs : Permutation fs (x :: cs) -> cs <> [] -> coefficient_of x (xTimes fs) (factor_of cs).

(* manip.m 7-18, ExpreduceTogether[e] gives r.  [ev] is evaluation of the
   arithmetic built by a rule, [expand] is Expand.  Plus and Times are Flat and
   Orderless, hence the permutations. *)
Inductive together (ev expand : ex -> ex -> Prop) : ex -> ex -> Prop :=
| tg_product args l bs a' :
    Permutation args (xPlus l :: bs) -> bs <> [] -> together ev expand (xPlus l) a' ->
    together ev expand (xTimes args) (xTimes [a'; factor_of bs])                       (* line 7 *)
| tg_power e p e' :
    together ev expand e e' -> together ev expand (xPower e p) (xPower e' p)           (* line 8 *)
| tg_denominator args t rest c d x y r :
    Permutation args (t :: rest) -> rest <> [] -> coefficient_of (rec_power d) t c ->
    expand (distribute_multiply (sum_of rest) d) x ->
    ev (xTimes [xPlus [c; x]; rec_power d]) y -> together ev expand y r ->
    together ev expand (xPlus args) r                                                  (* line 11 *)
| tg_rational args t rest c n d x y r :
    Permutation args (t :: rest) -> rest <> [] -> coefficient_of (ERat n d) t c ->
    expand (xTimes [sum_of rest; EInt d]) x ->
    ev (xTimes [xPlus [xTimes [c; EInt n]; x]; rec_power (EInt d)]) y -> together ev expand y r ->
    together ev expand (xPlus args) r                                                  (* line 15 *)
| tg_complex args t rest c n d x y r :
    Permutation args (t :: rest) -> rest <> [] -> coefficient_of (ECplx (EInt 0) (ERat n d)) t c ->
    expand (xTimes [sum_of rest; EInt d]) x ->
    ev (xTimes [xPlus [xTimes [imaginary_unit; c; EInt n]; x]; rec_power (EInt d)]) y -> together ev expand y r ->
    together ev expand (xPlus args) r                                                  (* line 16 *)
| tg_same e : together ev expand e e.                                                  (* line 18 *)

(* power.m 628-632: c * Distribute[e/c] *)
Definition factor_out (c : ex) (l : list ex) : ex :=
  xTimes [c; xPlus (map (fun x => xTimes [x; rec_power c]) l)].
(* power.m 629-631 on integer constant terms: GCD @@ cTerms, negated when the
   last one is negative *)
Definition factor_const (zs : list Z) : Z :=
  let g := fold_left Z.gcd zs 0%Z in
  if (last zs 0 <? 0)%Z then (- g)%Z else g.
