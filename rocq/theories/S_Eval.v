(* Specification vocabulary for the evaluator theorems. *)
From Verif Require Import M_Syntax M_Hash M_Match M_Defs M_Eval.
Open Scope nat_scope.

(* "evaluating e in state es yields v and leaves the state es'" (the run of the
   interpreter ends) and "evaluating e kills the process" *)
Definition evals_to (c : cfg) (es : estate) (e v : ex) (es' : estate) : Prop :=
  exists n, eval c n es e = Ret (v, es').
Definition crashes (c : cfg) (es : estate) (e : ex) : Prop := exists n, eval c n es e = Crash.
Definition diverges (c : cfg) (es : estate) (e : ex) : Prop := forall n, eval c n es e = More.

(* e is fully evaluated *)
Definition value (c : cfg) (es : estate) (e : ex) : Prop := evals_to c es e e es.

(* a list of expressions evaluated from left to right *)
Inductive evals_list (c : cfg) : estate -> list ex -> list ex -> estate -> Prop :=
| EL_nil es : evals_list c es [] [] es
| EL_cons es e v es1 l vs es2 :
    evals_to c es e v es1 -> evals_list c es1 l vs es2 -> evals_list c es (e :: l) (v :: vs) es2.

(* h is implemented by the interpreter and has exactly these attributes *)
Definition system_fn (es : estate) (h : string) (names : list string) : Prop :=
  exists d, lookup (es_defs es) h = Some d /\ d_builtin d = true /\ d_attrs d = strings_to_attributes names.
(* h is a symbol without rules and builtin code, with exactly these attributes *)
Definition plain_fn (es : estate) (h : string) (names : list string) : Prop :=
  (exists d, lookup (es_defs es) h = Some d /\ d_builtin d = false /\ d_dvs d = [] /\
             d_attrs d = strings_to_attributes names)
  \/ (lookup (es_defs es) h = None /\ names = []).
(* a symbol without a value of its own *)
Definition no_value (es : estate) (s : string) : Prop := get_sym_def (es_defs es) s = None.

(* no rule is stored for h *)
Definition no_rules (es : estate) (h : string) : Prop := forall d, lookup (es_defs es) h = Some d -> d_dvs d = [].

(* which argument positions (0 is the head) the attributes protect *)
Definition holds (names : list string) (i : nat) : Prop :=
  In "HoldAll"%string names \/ In "HoldAllComplete"%string names \/
  (i = 1 /\ In "HoldFirst"%string names) \/ (2 <= i /\ In "HoldRest"%string names).

(* one left-to-right pass over the parts of an expression: protected parts are
   kept, all others evaluated, no exception raised *)
Inductive arg_pass (ev : evaluator) (held : nat -> Prop) : nat -> estate -> list ex -> list ex -> estate -> Prop :=
| AP_nil i es : arg_pass ev held i es [] [] es
| AP_held i es p l r es' : held i -> arg_pass ev held (S i) es l r es' -> arg_pass ev held i es (p :: l) (p :: r) es'
| AP_eval i es p v es1 l r es' : ~ held i -> ev es p = Ret (v, es1) -> es_thrown es1 = None ->
    arg_pass ev held (S i) es1 l r es' -> arg_pass ev held i es (p :: l) (v :: r) es'.
(* the pass reaches an unprotected part whose evaluation raises th *)
Inductive arg_throws (ev : evaluator) (held : nat -> Prop) : nat -> estate -> list ex -> ex -> estate -> Prop :=
| AT_here i es p v es1 l th : ~ held i -> ev es p = Ret (v, es1) -> es_thrown es1 = Some th ->
    arg_throws ev held i es (p :: l) th es1
| AT_held i es p l th es' : held i -> arg_throws ev held (S i) es l th es' -> arg_throws ev held i es (p :: l) th es'
| AT_eval i es p v es1 l th es' : ~ held i -> ev es p = Ret (v, es1) -> es_thrown es1 = None ->
    arg_throws ev held (S i) es1 l th es' -> arg_throws ev held i es (p :: l) th es'.

(* the arguments of a function, position by position: protected arguments are
   kept, the others evaluated, and no exception is raised *)
Inductive evals_args (c : cfg) (held : nat -> Prop) : nat -> estate -> list ex -> list ex -> estate -> Prop :=
| EA_nil i es : evals_args c held i es [] [] es
| EA_held i es p l r es' : held i -> evals_args c held (S i) es l r es' -> evals_args c held i es (p :: l) (p :: r) es'
| EA_eval i es p v es1 l r es' : ~ held i -> evals_to c es p v es1 -> es_thrown es1 = None ->
    evals_args c held (S i) es1 l r es' -> evals_args c held i es (p :: l) (v :: r) es'.

(* e is h[...] *)
Definition headed (e : ex) (h : string) : Prop := exists l, e = EExpr (ESym h :: l).
(* splicing the arguments of h[...] into the surrounding list *)
Inductive spliced (h : string) : list ex -> list ex -> Prop :=
| SP_nil : spliced h [] []
| SP_seq s l r : spliced h l r -> spliced h (EExpr (ESym h :: s) :: l) (s ++ r)
| SP_other e l r : ~ headed e h -> spliced h l r -> spliced h (e :: l) (e :: r).

(* arguments that are not rewritten before the function sees them *)
Definition ordinary_arg (e : ex) : Prop :=
  ~ headed e (sysname "Sequence") /\ ~ headed e (sysname "Evaluate") /\ ~ headed e (sysname "Unevaluated").

(* The loop of the evaluator recognises a fixed point by comparing 64 bit
   hashes and starts with 0; these two say that no accident happens. *)
Definition hash_ok (e : ex) : Prop := hash e <> 0%N.
Definition no_clash (e e' : ex) : Prop := hash e' <> 0%N /\ hash e' <> hash e.

(* the i-th element of a list argument, any other argument itself *)
Definition column (i : nat) (arg x : ex) : Prop :=
  (exists l, arg = EExpr (sList :: l) /\ nth_error l i = Some x) \/ (~ headed arg nList /\ x = arg).

(* "evaluating e throws v and leaves the state es'": a call of Throw, or a call
   of any function one of whose evaluated arguments throws after the arguments
   before it have been evaluated, or a sequence of statements one of which
   throws.  Nothing is required of the arguments after the throwing one. *)
Definition throw_ok (es : estate) : Prop :=
  system_fn es (sysname "Throw") ["Protected"%string] /\ no_rules es (sysname "Throw") /\ no_value es (sysname "Throw").
(* statements executed one after the other, without an exception or Return *)
Inductive runs (c : cfg) : estate -> list ex -> estate -> Prop :=
| RN_nil es : runs c es [] es
| RN_cons es a r es1 l es2 : evals_to c es a r es1 -> es_thrown es1 = None -> ~ headed r (sysname "Return") ->
    runs c es1 l es2 -> runs c es (a :: l) es2.
Inductive raises (c : cfg) : estate -> ex -> ex -> estate -> Prop :=
| R_throw es a v es1 : throw_ok es -> throw_ok es1 -> es_thrown es = None -> evals_to c es a v es1 -> es_thrown es1 = None ->
    ordinary_arg v -> hash_ok (EExpr [sys "Throw"; a]) ->
    raises c es (EExpr [sys "Throw"; a]) v (with_thrown es1 (Some (EExpr [sys "Throw"; v])))
| R_arg es h names pre pre' es1 a post v es2 :
    sym_attrs es h = strings_to_attributes names -> ~ In "NumericFunction"%string names ->
    no_value es h -> es_thrown es = None ->
    evals_args c (holds names) 1 es pre pre' es1 -> ~ holds names (S (length pre)) ->
    hash_ok (EExpr (ESym h :: pre ++ a :: post)) ->
    raises c es1 a v es2 -> raises c es (EExpr (ESym h :: pre ++ a :: post)) v es2
| R_seq es pre es1 a post v es2 :
    system_fn es (sysname "CompoundExpression") ["HoldAll"; "ReadProtected"; "Protected"]%string ->
    no_rules es2 (sysname "CompoundExpression") -> throw_ok es2 ->
    runs c es pre es1 -> Forall ordinary_arg (pre ++ a :: post) ->
    hash_ok (EExpr (sys "CompoundExpression" :: pre ++ a :: post)) ->
    raises c es1 a v es2 -> raises c es (EExpr (sys "CompoundExpression" :: pre ++ a :: post)) v es2.
