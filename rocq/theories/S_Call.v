(* Specification vocabulary for calls of functions defined by rules: what it
   means for an expression to fit a pattern made of literals, x_, x_h, _ and
   function applications, and which right-hand side a call selects. *)
From Verif Require Import M_Syntax M_Hash M_Match M_Defs M_Eval S_Match S_Eval.
Open Scope nat_scope.

(* _ and _h, x_ and x_h *)
Definition blank : ex := EExpr [sys "Blank"].
Definition blank_of (h : string) : ex := EExpr [sys "Blank"; ESym h].
Definition var (x : string) : ex := EExpr [sys "Pattern"; ESym x; blank].
Definition var_of (x h : string) : ex := EExpr [sys "Pattern"; ESym x; blank_of h].

(* heads that mean something special inside a pattern *)
Definition pattern_heads : list string :=
  map sysname ["Blank"; "BlankSequence"; "BlankNullSequence"; "Pattern"; "PatternTest"; "Optional"; "Repeated"; "RepeatedNull";
   "Except"; "Alternatives"; "Condition"; "HoldPattern"]%string.

(* [fits p e bs]: e is an instance of p; the variables of p, from left to
   right, stand for the parts listed in bs.  A literal stands for what is SameQ
   to it; numbers are also seen as Rational[n, d] and Complex[re, im].  SameQ
   compares 64 bit hashes: F_clash is the accident that an atom has the hash of
   the compound pattern. *)
Inductive fits : ex -> ex -> list (string * ex) -> Prop :=
| F_blank e : fits blank e []
| F_blank_of h e : head_is e (ESym h) -> fits (blank_of h) e []
| F_var x e : fits (var x) e [(x, e)]
| F_var_of x h e : head_is e (ESym h) -> fits (var_of x h) e [(x, e)]
| F_atom a e : is_expr a = false -> is_expr e = false -> is_sameq e a = true -> fits a e []
| F_clash g ps e : ~ In g pattern_heads -> is_expr e = false -> is_num_atom e = false ->
    is_sameq e (EExpr (ESym g :: ps)) = true -> fits (EExpr (ESym g :: ps)) e []
| F_node g ps h es bs : ~ In g pattern_heads -> is_expr h = false -> is_sameq h (ESym g) = true -> fits_list ps es bs ->
    fits (EExpr (ESym g :: ps)) (EExpr (h :: es)) bs
| F_rat g ps n d bs : ~ In g pattern_heads -> fits (EExpr (ESym g :: ps)) (EExpr [sys "Rational"; EInt n; EInt d]) bs ->
    fits (EExpr (ESym g :: ps)) (ERat n d) bs
| F_cplx g ps re im bs : ~ In g pattern_heads -> fits (EExpr (ESym g :: ps)) (EExpr [sys "Complex"; re; im]) bs ->
    fits (EExpr (ESym g :: ps)) (ECplx re im) bs
with fits_list : list ex -> list ex -> list (string * ex) -> Prop :=
| FL_nil : fits_list [] [] []
| FL_cons p e bs ps es bs' : fits p e bs -> fits_list ps es bs' -> fits_list (p :: ps) (e :: es) (bs ++ bs').

Definition is_blank1 (p : ex) : bool :=
  match p with
  | EExpr [ESym b] => String.eqb b nBlank
  | EExpr [ESym b; ESym _] => String.eqb b nBlank
  | _ => false
  end.
(* patterns made of literals, _, _h, x_, x_h and g[...] with at least one
   argument, g being an ordinary symbol that is neither Flat nor Orderless *)
Fixpoint simple (env : menv) (p : ex) : bool :=
  match p with
  | EExpr ((ESym s :: args) as l) =>
      is_blank1 (EExpr l) ||
      (String.eqb s nPattern && match args with [ESym _; q] => is_blank1 q | _ => false end) ||
      (negb (existsb (String.eqb s) pattern_heads) && negb (me_flat env s) && negb (me_orderless env s) &&
       negb (match args with [] => true | _ => false end) && forallb (simple env) args)
  | EExpr _ => false
  | _ => true
  end.

(* body /; c1 /; c2 ...: the conditions are evaluated from the outside in; the
   rule applies only if all of them give True *)
Inductive guarded (c : cfg) : estate -> ex -> option ex -> estate -> Prop :=
| G_plain es r : ~ headed r nCondition -> ~ headed r (sysname "With") -> ~ headed r (sysname "Module") -> guarded c es r (Some r) es
| G_true es body cond es1 o es2 : evals_to c es cond sTrue es1 -> guarded c es1 body o es2 ->
    guarded c es (EExpr [ESym nCondition; body; cond]) o es2
| G_false es body cond v es1 : evals_to c es cond v es1 -> v <> sTrue -> guarded c es (EExpr [ESym nCondition; body; cond]) None es1.

(* the definitions of a function tried in their order on the call e: a
   definition applies if e fits its left-hand side and the conditions of its
   right-hand side hold; it gives the right-hand side with the variables
   replaced by the parts of e *)
Definition usable_rule (c : cfg) (es : estate) (l : ex) : Prop := simple (env_of c es) l = true /\ NoDup (pattern_names l).
Inductive selects (c : cfg) (e : ex) : estate -> list dval -> option ex -> estate -> Prop :=
| SEL_none es : selects c e es [] None es
| SEL_skip es l r z rest o es1 : usable_rule c es l -> (forall bs, ~ fits l e bs) -> selects c e es rest o es1 ->
    selects c e es (DVal (held l) r z :: rest) o es1
| SEL_fail es l r z rest bs r' es1 o es2 : usable_rule c es l -> fits l e bs -> subst bs r r' -> guarded c es r' None es1 ->
    selects c e es1 rest o es2 -> selects c e es (DVal (held l) r z :: rest) o es2
| SEL_hit es l r z rest bs r' v es1 : usable_rule c es l -> fits l e bs -> subst bs r r' -> guarded c es r' (Some v) es1 ->
    selects c e es (DVal (held l) r z :: rest) (Some v) es1.

(* a function of the user: these attributes, no code of the interpreter *)
Definition user_fn (es : estate) (f : string) (names : list string) : Prop :=
  sym_attrs es f = strings_to_attributes names /\ no_value es f /\ es_thrown es = None /\
  (forall a, In a ["NumericFunction"; "Flat"; "Orderless"; "Listable"]%string -> ~ In a names).
Definition defined_by (es : estate) (f : string) (rules : list dval) : Prop :=
  match lookup (es_defs es) f with Some d => d_builtin d = false /\ d_dvs d = rules | None => rules = [] end.

(* the expressions the evaluator passes through while it evaluates e *)
Definition steps (c : cfg) (es : estate) (e e' : ex) (es' : estate) : Prop :=
  exists parts b n, e = EExpr parts /\ forall m, n <= m -> pass c m (run c m None) es parts = Ret (inr (e', b), es').
Inductive reaches (c : cfg) : estate -> ex -> ex -> estate -> Prop :=
| RE_refl es e : reaches c es e e es
| RE_step es e e1 es1 e2 es2 : steps c es e e1 es1 -> reaches c es1 e1 e2 es2 -> reaches c es e e2 es2.
Definition never_returns (c : cfg) (es : estate) (e : ex) : Prop :=
  forall e' es', reaches c es e e' es' -> ~ headed e' (sysname "Return").
