(* Rules about exponentials: TrigToExp (trig.m 98-104), powers of E (power.m
   79-81), FullSimplify (simplify.m 126-128).  Simplification: the calls of
   Expand are left out (its rules: C76), and so is the evaluation of the
   arithmetic in between (C04). *)
From Verif Require Import M_Syntax M_LibCalc M_LibPower M_LibTrig M_LibComplex.
From Coq Require Import List Permutation.
Import ListNotations.
Open Scope Z_scope.

Definition minus_i : ex := ECplx (EInt 0) (EInt (-1)).
Definition exp_of (k a : ex) : ex := cPower eE (cTimes [k; a]).
(* trig.m 98-103: trigToExpInner on an expression whose parts have been treated;
   103: everything else is printed with a warning and left alone *)
Definition to_exp_inner (e : ex) : ex :=
  match e with
  | EExpr [ESym h; a] =>
      if (h =? sysname "Cos")%string then
        cPlus [cTimes [exp_of minus_i a; half]; cTimes [exp_of eI a; half]]
      else if (h =? sysname "Sin")%string then
        cPlus [cTimes [half; eI; exp_of minus_i a]; cTimes [EInt (-1); half; eI; exp_of eI a]]
      else if (h =? sysname "Tan")%string then
        cTimes [eI; cPlus [exp_of minus_i a; cTimes [EInt (-1); exp_of eI a]];
                cPower (cPlus [exp_of minus_i a; exp_of eI a]) (EInt (-1))]
      else e
  | _ => e
  end.
(* trig.m 104: Map[trigToExpInner, exp, {0, Infinity}]: the parts first, then
   the whole; heads are not touched *)
Fixpoint trig_to_exp (e : ex) : ex :=
  match e with
  | EExpr (h :: args) => to_exp_inner (EExpr (h :: map trig_to_exp args))
  | _ => to_exp_inner e
  end.

Inductive exp_rule : ex -> ex -> Prop :=
(* power.m 79: E^(Log[a_] + rest___) := a * E^rest *)
| er_log_plus l a rest : Permutation l (app1 "Log" a :: rest) -> rest <> [] ->
    exp_rule (cPower eE (cPlus l)) (cTimes [a; cPower eE (cPlus rest)])
(* power.m 80: E^Log[a_] := a *)
| er_log a : exp_rule (cPower eE (app1 "Log" a)) a
(* power.m 81: E^(Complex[0, n_Integer]*Pi) := -(Mod[n, 2]*2 - 1) *)
| er_pi l n : Permutation l [ECplx (EInt 0) (EInt n); ePi] -> exp_rule (cPower eE (cTimes l)) (EInt (- (n mod 2 * 2 - 1)))
(* simplify.m 126-128: E^(-x_Symbol) + E^x_Symbol :> 2 Cosh[x] *)
| er_cosh l s : Permutation l [cPower eE (cTimes [EInt (-1); ESym s]); cPower eE (ESym s)] ->
    exp_rule (cPlus l) (cTimes [EInt 2; app1 "Cosh" (ESym s)]).
