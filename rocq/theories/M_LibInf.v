(* Rules about Infinity (specialsyms.m 2-4, power.m 18-50) and closed forms of
   sums (arithmetic.m 94-101).  Simplification: the result is given as the
   right-hand side of the rule; it is then evaluated (C04). *)
From Verif Require Import M_Syntax M_Hash M_Compare M_LibCalc M_LibTrig.
From Coq Require Import List Permutation.
Import ListNotations.
Open Scope Z_scope.

Definition eInf : ex := sys "Infinity".
Definition neg_inf : ex := cTimes [EInt (-1); eInf].
Definition eIndet : ex := sys "Indeterminate".
Definition eCInf : ex := sys "ComplexInfinity".

(* specialsyms.m 2-4.  Plus is Orderless: the arguments are found in any order;
   the blank also matches several of them (Plus is Flat), which amounts to using
   the rule several times *)
Inductive plus_inf : ex -> ex -> Prop :=
| pi_pos l a rest : Permutation l (eInf :: a :: rest) -> plus_inf (cPlus l) (cPlus (eInf :: rest))
| pi_neg l a rest : Permutation l (neg_inf :: a :: rest) -> plus_inf (cPlus l) (cPlus (neg_inf :: rest))
| pi_both l rest : Permutation l (eInf :: neg_inf :: rest) -> plus_inf (cPlus l) (cPlus (eIndet :: rest)).

Definition holds (a : answer) : bool := match a with ATrue => true | _ => false end.
Definition cmp2 (o : relop) (a b : ex) : bool := holds (comparison_eval o [a; b]).
Definition e1 : ex := EInt 1.
Definition em1 : ex := EInt (-1).
(* power.m 18-32: b^Infinity for a number b *)
Definition pow_inf (b : ex) : ex :=
  if cmp2 RLess b em1 then eCInf
  else if is_sameq b em1 then eIndet
  else if cmp2 RLess b e1 then EInt 0
  else if is_sameq b e1 then eIndet
  else if cmp2 RGreater b e1 then eInf
  else sys "UnexpectedInfinitePowerBase".
(* power.m 34-50: b^-Infinity for a number b *)
Definition pow_neg_inf (b : ex) : ex :=
  if cmp2 RLess b em1 then EInt 0
  else if is_sameq b em1 then eIndet
  else if cmp2 RLessEqual b (EInt 0) then eCInf
  else if cmp2 RLess b e1 then eInf
  else if is_sameq b e1 then eIndet
  else if cmp2 RGreater b e1 then EInt 0
  else sys "UnexpectedInfinitePowerBase".

(* arithmetic.m 94-101: Sum[body, {i, from, to}] *)
Definition eSum (body : ex) (it : list ex) : ex := EExpr [sys "Sum"; body; EExpr (sys "List" :: it)].
Definition half_product (n : ex) : ex := cTimes [ERat 1 2; n; cPlus [EInt 1; n]].
Inductive sum_rule : ex -> ex -> Prop :=
| su_int i m n : m = 0 \/ m = 1 -> sum_rule (eSum (ESym i) [ESym i; EInt m; EInt n]) (half_product (EInt n))
| su_to i e : sum_rule (eSum (ESym i) [ESym i; e]) (half_product e)
| su_sym i m n : m = 0 \/ m = 1 -> sum_rule (eSum (ESym i) [ESym i; EInt m; ESym n]) (half_product (ESym n))
| su_inv i : sum_rule (eSum (cPower (ESym i) (EInt (-2))) [ESym i; EInt 1; eInf]) (cTimes [ERat 1 6; cPower ePi (EInt 2)])
| su_num i num : sum_rule (eSum (cTimes [num; cPower (cPower (ESym i) (EInt 2)) (EInt (-1))]) [ESym i; EInt 1; eInf])
    (cTimes [ERat 1 6; num; cPower ePi (EInt 2)]).
