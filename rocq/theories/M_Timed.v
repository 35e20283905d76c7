(* Quiet and TimeConstrained (system.m 224-237), as the rules the library
   defines.  Neither has any code of its own in the interpreter: quiet.go or a
   timer do not exist. *)
From Verif Require Import M_Syntax M_Match M_Defs S_Call M_LibAssign M_FreeQ.
Open Scope nat_scope.

Definition te : string := private "e".
Definition tt_ : string := private "t".
Definition tf : string := private "f".
(* system.m 226: Quiet[e_] := e *)
Definition quiet_rules : list dval := rule1 "Quiet" [var te] (ESym te).
(* system.m 235: TimeConstrained[e_, t_] := TimeConstrained[e, t, $Aborted] *)
Definition timed2_rhs (e t : ex) : ex := EExpr [sys "TimeConstrained"; e; t; sys "$Aborted"].
(* system.m 235 *)
Definition timed2_rules : list dval := rule1 "TimeConstrained" [var te; var tt_] (timed2_rhs (ESym te) (ESym tt_)).
(* system.m 237: TimeConstrained[e_, t_, f_] := e *)
Definition timed3_rules : list dval := rule1 "TimeConstrained" [var te; var tt_; var tf] (ESym te).
(* system.m 235-237: both; the order in which the interpreter keeps them depends on the
   specificity it computes for the patterns, so both orders are allowed *)
Definition timed_rules (rules : list dval) : Prop := rules = timed2_rules ++ timed3_rules \/ rules = timed3_rules ++ timed2_rules.
(* system.m 225, 234 *)
Definition timed_attrs : list string := ["HoldAll"; "Protected"]%string.
