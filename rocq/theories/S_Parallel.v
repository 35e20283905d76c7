(* Specification vocabulary for ParallelTable. *)
From Verif Require Import M_Syntax M_Hash M_Match M_Defs M_Eval S_Match S_Eval S_Call S_Iter.
Open Scope nat_scope.

(* evaluating e in the state es gives v, and no step of the evaluation changes
   the state *)
Definition pure (c : cfg) (es : estate) (e v : ex) : Prop :=
  evals_to c es e v es /\ forall e' es', reaches c es e e' es' -> es' = es.

(* the body with the iteration variables replaced by their values, for one
   tuple of values *)
Definition instance (xs : list string) (body : ex) (t : list ex) (e : ex) : Prop := subst (combine xs t) body e.
