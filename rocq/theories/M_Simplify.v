(* Simplify: the measure (builtin_expression.go 53-80) and the search for
   smaller forms (simplify.m 41-81).  The rewriters themselves (booleanSimplify,
   trigSimplify, the rules of Expand, ComplexExpand, Together,
   myFactorCommonTerms, Distribute, FactorTerms) are parameters: C71, C76, C78,
   C86, C109-C111 are about them. *)
From Verif Require Import M_Syntax.
From Coq Require Import List.
Import ListNotations.
Open Scope Z_scope.

(* builtin_expression.go 53-80: leafCountSimplify *)
Fixpoint leaf_count_simplify (e : ex) : Z :=
  match e with
  | EExpr l => fold_left (fun res part => res + leaf_count_simplify part) l 0
  | EInt z => if z <? 0 then 2 else 1
  | ECplx re im => leaf_count_simplify im + leaf_count_simplify re + 1
  | ERat n d => 3 + (if n <? 0 then 1 else 0) + (if d <? 0 then 1 else 0)
  | _ => 1
  end.
(* If[ExpreduceLeafCountSimplify[tryVal] < ExpreduceLeafCountSimplify[e], e = tryVal] *)
Definition keep (try_val e : ex) : ex := if leaf_count_simplify try_val <? leaf_count_simplify e then try_val else e.

Record rewriters := {
  bool_simplify : ex -> ex; trig_simplify : ex -> ex; expand_fix : ex -> ex; complex_expand : ex -> ex;
  together : ex -> ex; factor_common : ex -> ex;
  const_terms : ex -> list ex;       (* the constant factors of the terms of a sum *)
  factor_out : ex -> ex -> ex;       (* c (p/c // Distribute) *)
  sqrt_factor : ex -> ex;            (* Replace[e, Sqrt[inner_] :> Sqrt[FactorTerms[inner]]] *)
  big_power : ex -> bool             (* not FreeQ[e, a_Plus^(b_Integer?((# >= 5) &))] *)
}.
Definition is_plus (e : ex) : bool :=
  match e with EExpr (ESym h :: _) => String.eqb h (sysname "Plus") | _ => false end.
(* simplify.m 41-51: tryFactoringOutTerm *)
Definition try_factoring (w : rewriters) (p : ex) : ex :=
  if is_plus p then fold_left (fun simplest c => keep (factor_out w c p) simplest) (const_terms w p) p else p.
(* simplify.m 55-57: inferredPower *)
Definition inferred_power (e : ex) : Z :=
  match e with
  | EExpr [ESym h; s; EInt n] => if String.eqb h (sysname "Power") && is_plus s then n else 1
  | _ => 1
  end.
(* simplify.m 52-78 without the last two rewrites *)
Definition simplify_search (w : rewriters) (e0 : ex) : ex :=
  let e := trig_simplify w (bool_simplify w e0) in
  let e := if inferred_power e <? 5 then keep (expand_fix w e) e else e in
  let e := if big_power w e then e else keep (complex_expand w e) e in
  let e := keep (together w e) e in
  let e := keep (factor_common w e) e in
  keep (try_factoring w e) e.
(* simplify.m 52-80: simplifyInner *)
Definition simplify_inner (w : rewriters) (e : ex) : ex := sqrt_factor w (trig_simplify w (simplify_search w e)).
(* simplify.m 81: Map[simplifyInner, exp, {0, Infinity}]: the parts first; heads
   are not touched.  Simplification: the evaluation of an expression with
   simplified parts is left out *)
Fixpoint simplify (w : rewriters) (e : ex) : ex :=
  match e with
  | EExpr (h :: args) => simplify_inner w (EExpr (h :: map (simplify w) args))
  | _ => simplify_inner w e
  end.
