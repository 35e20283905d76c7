(* The Boolean rewriting rules of Simplify: resources/simplify.m 2-37
   (booleanSimplify[exp_] := exp //. {...}), and the Boolean functions of
   resources/boolean.m 46, 77, 88-89.
   Each rule is transcribed as the set of its instances (lhs, rhs); a name that
   occurs twice stands for the same expression (SameQ is the subject of C09).
   And and Or are Flat and OneIdentity, so inside them a_ may also stand for a
   block of consecutive arguments, wrapped in the function (C22, C23); the
   relation below contains every such instance.  Which instance the matcher
   picks, and in which order the rules are tried, is left open, so a theorem
   about the relation covers every choice. *)
From Verif Require Import M_Syntax.
Open Scope list_scope.

Definition and_ (l : list ex) : ex := EExpr (sys "And" :: l).
Definition or_ (l : list ex) : ex := EExpr (sys "Or" :: l).
Definition not_ (e : ex) : ex := EExpr [sys "Not"; e].

(* boolean.m 2, 22: Flat, OneIdentity: what a_ is bound to when it takes the
   arguments l of h *)
Definition wrap (h : ex) (l : list ex) : ex := match l with [e] => e | _ => EExpr (h :: l) end.
Definition block (h a : ex) (l : list ex) : Prop := l <> [] /\ a = wrap h l.

(* the instances of Not[And[___, a_, ___] | a_] and Not[Or[___, a_, ___] | a_] *)
Definition not_containing (h a n : ex) : Prop :=
  n = not_ a \/ exists x la y, block h a la /\ n = not_ (EExpr (h :: x ++ la ++ y)).

Inductive bool_rule : ex -> ex -> Prop :=
(* simplify.m 6 *)
| br_demorgan x y : bool_rule (or_ [not_ x; not_ y]) (not_ (and_ [x; y]))
(* simplify.m 7: the last z is the symbol z, not a pattern; here any z *)
| br_demorgan3 x y z : bool_rule (or_ [not_ x; not_ y; not_ z]) (not_ (and_ [x; y; z]))
(* simplify.m 19 *)
| br_factor_l a b c la lb la' lc : block (sys "Or") a la -> block (sys "Or") b lb -> block (sys "Or") a la' -> block (sys "Or") c lc ->
    bool_rule (and_ [or_ (la ++ lb); or_ (la' ++ lc)]) (or_ [a; and_ [b; c]])
(* simplify.m 20 *)
| br_factor_r a b c la lb la' lc : block (sys "Or") a la -> block (sys "Or") b lb -> block (sys "Or") a la' -> block (sys "Or") c lc ->
    bool_rule (and_ [or_ (lb ++ la); or_ (lc ++ la')]) (or_ [a; and_ [b; c]])
(* simplify.m 21-22 *)
| br_or_true1 x a la y n z : block (sys "Or") a la -> not_containing (sys "And") a n ->
    bool_rule (or_ (x ++ la ++ y ++ [n] ++ z)) sTrue
| br_or_true2 x a la y n z : block (sys "Or") a la -> not_containing (sys "And") a n ->
    bool_rule (or_ (x ++ [n] ++ y ++ la ++ z)) sTrue
(* simplify.m 23-24 *)
| br_or_absorb1 x1 a la x2 x3 la' x4 x5 : block (sys "Or") a la -> block (sys "And") a la' ->
    bool_rule (or_ (x1 ++ la ++ x2 ++ [and_ (x3 ++ la' ++ x4)] ++ x5)) (or_ ([a] ++ x1 ++ x2 ++ x5))
| br_or_absorb2 x1 a la x2 x3 la' x4 x5 : block (sys "Or") a la -> block (sys "And") a la' ->
    bool_rule (or_ (x1 ++ [and_ (x2 ++ la' ++ x3)] ++ x4 ++ la ++ x5)) (or_ ([a] ++ x1 ++ x4 ++ x5))
(* simplify.m 25 *)
| br_or_idem x1 a la x2 la' x3 : block (sys "Or") a la -> block (sys "Or") a la' ->
    bool_rule (or_ (x1 ++ la ++ x2 ++ la' ++ x3)) (or_ ([a] ++ x1 ++ x2 ++ x3))
(* simplify.m 26-27 *)
| br_or_neg1 x1 a la x2 x3 x4 x5 : block (sys "Or") a la ->
    bool_rule (or_ (x1 ++ la ++ x2 ++ [and_ (x3 ++ [not_ a] ++ x4)] ++ x5)) (or_ ([a] ++ x1 ++ x2 ++ [and_ (x3 ++ x4)] ++ x5))
| br_or_neg2 x1 a la x2 x3 x4 x5 : block (sys "Or") a la ->
    bool_rule (or_ (x1 ++ [and_ (x2 ++ [not_ a] ++ x3)] ++ x4 ++ la ++ x5)) (or_ ([a] ++ x1 ++ [and_ (x2 ++ x3)] ++ x4 ++ x5))
(* simplify.m 30-31 *)
| br_and_false1 x a la y n z : block (sys "And") a la -> not_containing (sys "Or") a n ->
    bool_rule (and_ (x ++ la ++ y ++ [n] ++ z)) sFalse
| br_and_false2 x a la y n z : block (sys "And") a la -> not_containing (sys "Or") a n ->
    bool_rule (and_ (x ++ [n] ++ y ++ la ++ z)) sFalse
(* simplify.m 32-33 *)
| br_and_absorb1 x1 a la x2 x3 la' x4 x5 : block (sys "And") a la -> block (sys "Or") a la' ->
    bool_rule (and_ (x1 ++ la ++ x2 ++ [or_ (x3 ++ la' ++ x4)] ++ x5)) (and_ ([a] ++ x1 ++ x2 ++ x5))
| br_and_absorb2 x1 a la x2 x3 la' x4 x5 : block (sys "And") a la -> block (sys "Or") a la' ->
    bool_rule (and_ (x1 ++ [or_ (x2 ++ la' ++ x3)] ++ x4 ++ la ++ x5)) (and_ ([a] ++ x1 ++ x4 ++ x5))
(* simplify.m 34 *)
| br_and_idem x1 a la x2 la' x3 : block (sys "And") a la -> block (sys "And") a la' ->
    bool_rule (and_ (x1 ++ la ++ x2 ++ la' ++ x3)) (and_ ([a] ++ x1 ++ x2 ++ x3))
(* simplify.m 35-36 *)
| br_and_neg1 x1 a la x2 x3 x4 x5 : block (sys "And") a la ->
    bool_rule (and_ (x1 ++ la ++ x2 ++ [or_ (x3 ++ [not_ a] ++ x4)] ++ x5)) (and_ ([a] ++ x1 ++ x2 ++ [or_ (x3 ++ x4)] ++ x5))
| br_and_neg2 x1 a la x2 x3 x4 x5 : block (sys "And") a la ->
    bool_rule (and_ (x1 ++ [or_ (x2 ++ [not_ a] ++ x3)] ++ x4 ++ la ++ x5)) (and_ ([a] ++ x1 ++ [or_ (x2 ++ x3)] ++ x4 ++ x5)).

(* replace.go 11-60 (flatReplace): a rule for a Flat function also applies to
   consecutive arguments in the middle of the argument list *)
Inductive bool_rule_flat : ex -> ex -> Prop :=
| brf_top e e' : bool_rule e e' -> bool_rule_flat e e'
| brf_middle h l s t e' : h = sys "And" \/ h = sys "Or" -> bool_rule (EExpr (h :: l)) e' ->
    bool_rule_flat (EExpr (h :: s ++ l ++ t)) (EExpr (h :: s ++ [e'] ++ t)).

(* What evaluation does to Boolean functions: builtin_boolean.go 9-75 (And, Or
   with HoldAll arguments already evaluated; modelled in full in M_Eval.v),
   Not, and boolean.m 46 (!!e_ := e); eval.go: Flat merges nested calls *)
Inductive bool_eval : ex -> ex -> Prop :=
| be_and_true s t : bool_eval (and_ (s ++ [sTrue] ++ t)) (and_ (s ++ t))
| be_and_false s t : bool_eval (and_ (s ++ [sFalse] ++ t)) sFalse
| be_or_false s t : bool_eval (or_ (s ++ [sFalse] ++ t)) (or_ (s ++ t))
| be_or_true s t : bool_eval (or_ (s ++ [sTrue] ++ t)) sTrue
| be_and_none : bool_eval (and_ []) sTrue
| be_or_none : bool_eval (or_ []) sFalse
| be_and_one e : bool_eval (and_ [e]) e
| be_or_one e : bool_eval (or_ [e]) e
| be_not_true : bool_eval (not_ sTrue) sFalse
| be_not_false : bool_eval (not_ sFalse) sTrue
| be_not_not e : bool_eval (not_ (not_ e)) e
| be_and_flat s l t : bool_eval (and_ (s ++ [and_ l] ++ t)) (and_ (s ++ l ++ t))
| be_or_flat s l t : bool_eval (or_ (s ++ [or_ l] ++ t)) (or_ (s ++ l ++ t)).

(* builtin_replacement.go (ReplaceRepeated): one step rewrites a subexpression *)
Inductive anywhere (R : ex -> ex -> Prop) : ex -> ex -> Prop :=
| any_here e e' : R e e' -> anywhere R e e'
| any_part s e e' t : anywhere R e e' -> anywhere R (EExpr (s ++ [e] ++ t)) (EExpr (s ++ [e'] ++ t)).
(* the same for the arguments of And, Or, Not *)
Inductive in_formula (R : ex -> ex -> Prop) : ex -> ex -> Prop :=
| inf_here e e' : R e e' -> in_formula R e e'
| inf_and s e e' t : in_formula R e e' -> in_formula R (and_ (s ++ [e] ++ t)) (and_ (s ++ [e'] ++ t))
| inf_or s e e' t : in_formula R e e' -> in_formula R (or_ (s ++ [e] ++ t)) (or_ (s ++ [e'] ++ t))
| inf_not e e' : in_formula R e e' -> in_formula R (not_ e) (not_ e').
(* a step of booleanSimplify: a rule anywhere, or evaluation of a Boolean
   function *)
Definition simplify_step (e e' : ex) : Prop := anywhere bool_rule_flat e e' \/ in_formula bool_eval e e'.
