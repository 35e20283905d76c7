(* FreeQ (pattern.m 362-363) and Block (system.m 148-149), as the rules the
   library defines.  The .m files are read in the context Private` (evalstate.go
   255-258), where the names of the variables live. *)
From Verif Require Import M_Syntax M_Match M_Defs S_Call M_LibAssign.
Open Scope nat_scope.

Definition private (s : string) : string := append "Private`" s.
Definition dummy : ex := ESym "Internal`DummyReplace".
(* pattern.m 362: FreeQ[expr_, val_] := expr === (expr /. val -> Internal`DummyReplace) *)
Definition free_rhs (e v : ex) : ex := app2 "SameQ" e (app2 "ReplaceAll" e (app2 "Rule" v dummy)).
Definition free_vars : list string := [private "expr"; private "val"].
Definition free_rules : list dval := rule1 "FreeQ" (map var free_vars) (free_rhs (ESym (private "expr")) (ESym (private "val"))).
(* pattern.m 363 *)
Definition free_attrs : list string := ["Protected"%string].
