(* Library functions that are written as definitions in the language itself:
   x++, x--, ++x, --x, x += y, x -= y, For, AppendTo and PrependTo.  The rules as
   the parser builds them (M_Parse.v: a - b is Plus[a, Times[b, -1]]). *)
From Verif Require Import M_Syntax M_Match M_Defs S_Call.
Open Scope nat_scope.

(* evalstate.go 255-258: the .m files are read in the context Private`, where their
   variables live *)
Definition la : string := "Private`a".
Definition lb : string := "Private`b".
Definition app2 (h : string) (x y : ex) : ex := EExpr [sys h; x; y].
Definition minus (x y : ex) : ex := app2 "Plus" x (app2 "Times" y (EInt (-1))).
Definition rule1 (h : string) (args : list ex) (rhs : ex) : list dval := [DVal (held (EExpr (sys h :: args))) rhs 0].

(* arithmetic.m 281 *)
Definition increment_rhs (a : ex) : ex := app2 "CompoundExpression" (app2 "Set" a (app2 "Plus" a (EInt 1))) (minus a (EInt 1)).
Definition increment_rules : list dval := rule1 "Increment" [var la] (increment_rhs (ESym la)).
(* arithmetic.m 292 *)
Definition decrement_rhs (a : ex) : ex := app2 "CompoundExpression" (app2 "Set" a (minus a (EInt 1))) (app2 "Plus" a (EInt 1)).
Definition decrement_rules : list dval := rule1 "Decrement" [var la] (decrement_rhs (ESym la)).
(* arithmetic.m 303 *)
Definition pre_increment_rhs (a : ex) : ex := app2 "Set" a (app2 "Plus" a (EInt 1)).
Definition pre_increment_rules : list dval := rule1 "PreIncrement" [var la] (pre_increment_rhs (ESym la)).
(* arithmetic.m 314 *)
Definition pre_decrement_rhs (a : ex) : ex := app2 "Set" a (minus a (EInt 1)).
Definition pre_decrement_rules : list dval := rule1 "PreDecrement" [var la] (pre_decrement_rhs (ESym la)).
(* arithmetic.m 325 *)
Definition add_to_rhs (a b : ex) : ex := app2 "Set" a (app2 "Plus" a b).
Definition add_to_rules : list dval := rule1 "AddTo" [var la; var lb] (add_to_rhs (ESym la) (ESym lb)).
(* arithmetic.m 336 *)
Definition subtract_from_rhs (a b : ex) : ex := app2 "Set" a (minus a b).
Definition subtract_from_rules : list dval := rule1 "SubtractFrom" [var la; var lb] (subtract_from_rhs (ESym la) (ESym lb)).
(* the attributes: arithmetic.m 282, 293, 304, 315; 326, 337 *)
Definition incr_attrs : list string := ["HoldFirst"; "Protected"; "ReadProtected"]%string.
Definition addto_attrs : list string := ["HoldFirst"; "Protected"]%string.

(* flowcontrol.m 109-111: For *)
Definition for_rhs (beg cond incr expr : ex) : ex :=
  app2 "CompoundExpression" beg (app2 "While" cond (app2 "CompoundExpression" expr incr)).
Definition for_vars : list string := ["Private`beg"; "Private`cond"; "Private`incr"; "Private`expr"]%string.
Definition for_rules : list dval :=
  rule1 "For" (map var for_vars) (for_rhs (ESym "Private`beg") (ESym "Private`cond") (ESym "Private`incr") (ESym "Private`expr")).
Definition for_attrs : list string := ["HoldAll"; "Protected"]%string.

(* list.m 299-300: AppendTo; list.m 317-318: PrependTo *)
Definition append_to_rhs (a b : ex) : ex := app2 "Set" a (app2 "Append" a b).
Definition append_to_rules : list dval := rule1 "AppendTo" [var la; var lb] (append_to_rhs (ESym la) (ESym lb)).
Definition prepend_to_rhs (a b : ex) : ex := app2 "Set" a (app2 "Prepend" a b).
Definition prepend_to_rules : list dval := rule1 "PrependTo" [var la; var lb] (prepend_to_rhs (ESym la) (ESym lb)).
