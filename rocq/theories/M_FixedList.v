(* FixedPointList, a definition in the language itself (functional.m 219):
   FixedPointList[f_, expr_] := NestWhileList[f, expr, UnsameQ, 2]
   as the parser builds it.  No attributes are set (functional.m has no
   Attributes line for it; builtin_functional.go 758 is a bare entry). *)
From Verif Require Import M_Syntax M_Match M_Defs S_Call M_LibAssign.
Open Scope nat_scope.

Definition lf : string := "Private`f".
Definition lexpr : string := "Private`expr".
(* functional.m 219: the right-hand side *)
Definition fixed_list_rhs (f x : ex) : ex := EExpr [sys "NestWhileList"; f; x; sys "UnsameQ"; EInt 2].
(* functional.m 219 *)
Definition fixed_list_rules : list dval := rule1 "FixedPointList" [var lf; var lexpr] (fixed_list_rhs (ESym lf) (ESym lexpr)).
