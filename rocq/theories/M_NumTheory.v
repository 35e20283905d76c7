(* GCD, Mod, prime factors, integer powers and roots.
   builtin_numbertheory.go 11-62, 71-120; builtin_power.go 32-127, 318-415. *)
From Verif Require Import M_Syntax M_Num.
Open Scope Z_scope.

Fixpoint all_ints (l : list ex) : option (list Z) :=
  match l with
  | [] => Some []
  | EInt z :: t => match all_ints t with Some r => Some (z :: r) | None => None end
  | _ :: _ => None
  end.

(* builtin_numbertheory.go 71-99: zeros are dropped, signs removed, then a
   left fold of big.Int GCD; None: returned unevaluated *)
Definition gcd_eval (args : list ex) : option ex :=
  match all_ints args with
  | None => None
  | Some zs =>
      match map Z.abs (filter (fun z => negb (z =? 0)) zs) with
      | [] => Some (EInt 0)
      | g :: t => Some (EInt (fold_left Z.gcd t g))
      end
  end.

(* math/big Int.Mod: Euclidean remainder *)
Definition big_mod (x y : Z) : Z := x mod (Z.abs y).

(* builtin_numbertheory.go 103-119 *)
Definition mod_eval (x y : ex) : option ex :=
  match x, y with
  | EInt a, EInt b => Some (if b =? 0 then sys "Indeterminate" else EInt (big_mod a b))
  | _, _ => None
  end.

(* builtin_numbertheory.go 27-29: the inner loop; None when it has not found a
   divisor after [fuel] steps *)
Fixpoint find_div (fuel : nat) (i n : Z) : option Z :=
  match fuel with
  | O => None
  | S k => if big_mod n i =? 0 then Some i else find_div k (i + 1) n
  end.

(* math/big Int.Div: Euclidean quotient; the divisor is >= 2 here *)
Definition big_div (n i : Z) : Z := n / i.

(* builtin_numbertheory.go 26-35.  numbertheory.m 159-169 (FactorInteger) runs
   the same loop with Mod and exact division. *)
Fixpoint factor_loop (fuel : nat) (n : Z) : option (list Z) :=
  match fuel with
  | O => None
  | S k =>
      if n =? 1 then Some []
      else match find_div fuel 2 n with
           | None => None
           | Some i => match factor_loop k (big_div n i) with
                       | None => None
                       | Some l => Some (i :: l)
                       end
           end
  end.

(* builtin_numbertheory.go 13-37 with at most [fuel] iterations of each loop *)
Definition prime_factors (fuel : nat) (n : Z) : option (list Z) :=
  if n =? 1 then Some [1] else factor_loop fuel n.

(* builtin_numbertheory.go 44-62 *)
Fixpoint tally_add (f : Z) (t : list (Z * N)) : list (Z * N) :=
  match t with
  | [] => [(f, 1%N)]
  | (g, k) :: r => if g =? f then (g, (k + 1)%N) :: r else (g, k) :: tally_add f r
  end.
Definition tally (l : list Z) : list (Z * N) := fold_left (fun t f => tally_add f t) l [].

(* builtin_power.go 234-330 on two Integers *)
Definition power_int (b e : Z) : ex :=
  if e =? 1 then EInt b
  else if e =? 0 then (if b =? 0 then sys "Indeterminate" else EInt 1)
  else if (0 <? e) && (b =? 0) then EInt b
  else if 0 <? e then EInt (b ^ e)
  else
    let nb := b ^ Z.abs e in
    if nb =? 1 then EInt 1
    else if nb =? -1 then EInt (-1)
    else EExpr [sys "Rational"; EInt 1; EInt nb].

(* Rational[n, d] with Integer arguments evaluates to the Rational atom, which
   is then normalised: builtin_atoms.go 13-27, eval.go 270-310 *)
Definition eval_rational_call (e : ex) : ex :=
  match e with
  | EExpr [ESym s; EInt n; EInt d] => if String.eqb s (sysname "Rational") then eval_rational n d else e
  | _ => e
  end.

(* math/big Int.BitLen *)
Definition bitlen (x : Z) : Z := if x =? 0 then 0 else Z.log2 (Z.abs x) + 1.

(* builtin_power.go 50-57: one Newton step *)
Definition root_step (x n z : Z) : Z := (x ÷ z ^ (n - 1) + z * (n - 1)) / n.

(* builtin_power.go 50-69; outer None: not finished *)
Fixpoint root_loop (fuel : nat) (x n z : Z) : option (option Z) :=
  match fuel with
  | O => None
  | S k =>
      let z2 := root_step x n z in
      if z <=? z2 then Some (if z ^ n =? x then Some z else None)
      else root_loop k x n z2
  end.

(* builtin_power.go 33-69 *)
Definition nth_root (fuel : nat) (x n : Z) : option (option Z) :=
  if x =? 0 then Some (Some 0) else root_loop fuel x n (2 ^ (bitlen x / 2 + 1)).

(* builtin_power.go 71-105: extractPower; the map from power to base in order
   of first appearance (Go iterates the map in random order) *)
Fixpoint add_base (k : N) (f : Z) (m : list (N * Z)) : list (N * Z) :=
  match m with
  | [] => [(k, f)]
  | (k', b) :: r => if (k' =? k)%N then (k', b * f) :: r else (k', b) :: add_base k f r
  end.
Definition bases_of (t : list (Z * N)) : list (N * Z) := fold_left (fun m '(f, k) => add_base k f m) t [].

(* x^(m/n) becomes the product of base^(power * m/n); None: nil *)
Definition extract_power (fuel : nat) (x m n : Z) : option (list (Z * (Z * Z))) :=
  match prime_factors fuel x with
  | None => None
  | Some fs =>
      let t := tally fs in
      if existsb (fun '(_, k) => (1 <? k)%N) t
      then Some (map (fun '(k, b) => (b, (m * Z.of_N k, n))) (bases_of t))
      else None
  end.

(* builtin_power.go 107-122: radSimp; the loop body always leaves the loop in
   its first pass (Mod is never negative) *)
Definition rad_simp (radicand index : Z) : option (Z * Z) :=
  let pow := 2 ^ index in
  if big_mod radicand pow =? 0 then Some (2, big_div radicand pow) else None.

(* builtin_power.go 362-411: Integer base, Rational power m/n *)
Definition power_rat (fuel : nat) (x m n : Z) : option ex :=
  let pw b p := EExpr [sys "Power"; b; p] in
  let rad :=
    if 0 <? n then
      match rad_simp (Z.abs x) n with
      | Some (ext, r) =>
          let r' := if x <? 0 then - r else r in
          let coeff := if m <? 0 then ERat 1 ext else EInt ext in
          Some (EExpr [sys "Times"; coeff; pw (EInt r') (ERat m n)])
      | None => None
      end
    else None in
  if (0 <=? x) && (0 <? n) then
    match nth_root fuel x n with
    | Some (Some r) => Some (if m =? 1 then EInt r else pw (EInt r) (EInt m))
    | _ =>
        match extract_power fuel x m n with
        | Some l => Some (EExpr (sys "Times" :: map (fun '(b, (p, q)) => pw (EInt b) (ERat p q)) l))
        | None => rad
        end
    end
  else rad.

(* builtin_combinatorics.go 88-104: the value factorial returns; its effect on
   the argument is modelled in M_Heap.v *)
Fixpoint fact_loop (n : nat) : Z := match n with O => 1 | S k => Z.of_nat n * fact_loop k end.
Definition factorial_eval (z : Z) : ex :=
  if z <? 0 then sys "ComplexInfinity" else EInt (fact_loop (Z.to_nat z)).
