(* Rules of Power, Sqrt and Times as written in the language itself:
   resources/power.m 2-72, 253-263, arithmetic.m 125-139.  [power_rule e e'] holds
   when a rule turns e into e'; where a pattern in a product takes some of the
   factors (Flat, Orderless) the choice is stated with Permutation.  Arithmetic on
   literal numbers on the right hand side is done at once ([q_of] of the resulting
   literal).  Left out: rules about Infinity, ComplexInfinity, Indeterminate,
   machine reals, complex exponents. *)
From Verif Require Import M_Syntax M_LibCalc.
From Coq Require Import List Permutation QArith.
Import ListNotations.
Open Scope Z_scope.

(* the rational number a literal stands for *)
Definition q_of (e : ex) : Q := match e with EInt n => inject_Z n | ERat n d => n # Z.to_pos d | _ => 0%Q end.
Definition literal (e : ex) : Prop := (exists n, e = EInt n) \/ (exists n d, e = ERat n d /\ 0 < d).
Definition eI : ex := ECplx (EInt 0) (EInt 1).
Definition half : ex := ERat 1 2.
(* a_^Optional[m_]: a^m, or a itself with m = 1 *)
Definition powered (x a m : ex) : Prop := x = cPower a m \/ (x = a /\ m = EInt 1).

Inductive power_rule : ex -> ex -> Prop :=
(* power.m 3, 5 *)
| pr_nested_int a b c : power_rule (cPower (cPower a (EInt b)) (EInt c)) (cPower a (cTimes [EInt b; EInt c]))
| pr_nested_sym a b c : power_rule (cPower (cPower a (ESym b)) (EInt c)) (cPower a (cTimes [ESym b; EInt c]))
(* power.m 10, 16 *)
| pr_zero a : power_rule (cPower a (EInt 0)) (EInt 1)
| pr_one a : power_rule (cPower (EInt 1) a) (EInt 1)
(* power.m 50 *)
| pr_split b n d : 0 < d -> n > d \/ - n > d ->
    power_rule (cPower (EInt b) (ERat n d)) (cTimes [cPower (EInt b) (EInt (n / d)); cPower (EInt b) (ERat (n mod d) d)])
(* power.m 56 *)
| pr_dist l first inner n : Permutation l (first :: inner) ->
    power_rule (cPower (cTimes l) (EInt n)) (cTimes [cPower first (EInt n); cPower (cTimes inner) (EInt n)])
(* power.m 59, 60 *)
| pr_rat_inv a b q : literal q -> (q_of q == / (a # Z.to_pos b))%Q -> power_rule (cPower (ERat a b) (EInt (-1))) q
| pr_rat_pow a b n q : 0 < n -> literal q -> (q_of q == Qpower (a # Z.to_pos b) n)%Q -> power_rule (cPower (ERat a b) (EInt n)) q
(* power.m 61, 62 *)
| pr_inv_i : power_rule (cPower (EInt (-1)) (ERat (-1) 2)) (cTimes [EInt (-1); eI])
| pr_i : power_rule (cPower (EInt (-1)) half) eI
(* power.m 63 *)
| pr_sqrt_rat a b : 0 < a -> 0 < b ->
    power_rule (cPower (ERat a b) half) (cTimes [cPower (EInt a) half; cPower (EInt b) (ERat (-1) 2)])
(* power.m 64 *)
| pr_inv x n d : power_rule (cPower (cPower x (ERat n d)) (EInt (-1))) (cPower x (ERat (- n) d))
(* power.m 66-70 *)
| pr_i_power n : power_rule (cPower eI (EInt n))
    (match n mod 4 with 0 => EInt 1 | 1 => eI | 2 => EInt (-1) | _ => cTimes [EInt (-1); eI] end)
(* power.m 71-72, for n = -1 *)
| pr_cplx_inv re im re' im' : literal re -> literal im -> literal re' -> literal im' ->
    (q_of re' == q_of re / (q_of re * q_of re + q_of im * q_of im))%Q ->
    (q_of im' == - (q_of im / (q_of re * q_of re + q_of im * q_of im)))%Q ->
    power_rule (cPower (ECplx re im) (EInt (-1))) (ECplx re' im')
(* arithmetic.m 125, 135 *)
| pr_same l x y a m n rest : Permutation l (x :: y :: rest) -> powered x a m -> powered y a n ->
    power_rule (cTimes l) (cTimes (rest ++ [cPower a (cPlus [m; n])]))
(* arithmetic.m 131 *)
| pr_cancel l a n rest : Permutation l (ERat 1 a :: cPower (EInt a) n :: rest) -> 0 < a ->
    power_rule (cTimes l) (cTimes (rest ++ [cPower (EInt a) (cPlus [n; EInt (-1)])]))
(* arithmetic.m 132 *)
| pr_quotient l a b q rest : Permutation l (cPower (EInt b) (EInt (-1)) :: EInt a :: rest) -> b <> 0 -> literal q ->
    (q_of q == inject_Z a / inject_Z b)%Q -> power_rule (cTimes l) (cTimes (q :: rest))
(* arithmetic.m 134 *)
| pr_opposite l a n d rest : Permutation l (cPower (EInt a) (ERat n d) :: cPower (EInt (- a)) (ERat (- n) d) :: rest) -> a < 0 ->
    power_rule (cTimes l) (cTimes (cPower (EInt (-1)) (ERat n d) :: rest))
(* arithmetic.m 136-139, for a rational c *)
| pr_radical l n d a k q rest : Permutation l (ERat n d :: cPower (EInt a) (ERat 1 k) :: rest) -> 0 < d -> d mod a = 0 -> 1 < a ->
    literal q -> (q_of q == (n # Z.to_pos d) * inject_Z a)%Q ->
    power_rule (cTimes l) (cTimes (q :: cPower (EInt a) (cPlus [ERat 1 k; EInt (-1)]) :: rest))
(* power.m 253, 255, 257-263 *)
| pr_sqrt_neg a : a < 0 -> power_rule (app1 "Sqrt" (EInt a)) (cTimes [eI; app1 "Sqrt" (EInt (- a))])
| pr_sqrt_factor a b : a <> 0 ->
    power_rule (app1 "Sqrt" (cTimes [EInt a; cPlus b])) (cTimes [app1 "Sqrt" (EInt (Z.abs a)); app1 "Sqrt" (cTimes [EInt (Z.sgn a); cPlus b])])
| pr_sqrt_1 : power_rule (app1 "Sqrt" (EInt 1)) (EInt 1)
| pr_sqrt x : x <> EInt 0 -> x <> EInt 1 -> power_rule (app1 "Sqrt" x) (cPower x half).

(* power.m 7: Power[Power[a_,b_Rational],c_] := a^(b*c) *)
Inductive nested_rational_rule : ex -> ex -> Prop :=
| nr a n d c : nested_rational_rule (cPower (cPower a (ERat n d)) c) (cPower a (cTimes [ERat n d; c])).
(* power.m 54: distribution over a numeric factor other than -1 *)
Inductive numeric_factor_rule : ex -> ex -> Prop :=
| nf l first inner p : Permutation l (first :: inner) -> inner <> [] -> literal first -> first <> EInt (-1) ->
    numeric_factor_rule (cPower (cTimes l) p) (cTimes [cPower first p; cPower (cTimes inner) p]).
(* arithmetic.m 127: a_Integer^c_Rational*b_Integer^c_Rational*rest___ := (a*b)^c*rest *)
Inductive equal_exponents_rule : ex -> ex -> Prop :=
| ee l a b n d rest : Permutation l (cPower (EInt a) (ERat n d) :: cPower (EInt b) (ERat n d) :: rest) ->
    equal_exponents_rule (cTimes l) (cTimes (cPower (EInt (a * b)) (ERat n d) :: rest)).
