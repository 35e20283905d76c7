(* List functions that are written in the language itself:
   resources/list.m 10, 22, 232-234, 337, 351, 365, 396, 428, 442;
   resources/functional.m 141, 155-156, 179; resources/combinatorics.m 69-82.
   These are rules, not Go code: each body is transcribed into a function of the
   (evaluated) arguments, composed of the builtins it calls.  None: no rule
   applies, the call is left unevaluated.  Simplifications: comparisons of
   machine-sized integers are exact (C12), Module variables are let-bound, and
   the expressions f[x] that Map, FoldList and NestList build are not evaluated
   further. *)
From Verif Require Import M_Syntax M_Float M_Hash M_Num M_Arith M_NumTheory M_Compare M_Match M_List M_Functional.
Open Scope nat_scope.

(* e[[ix...]]: Part stays as it is when it fails *)
Definition part_value (e : ex) (ix : list ex) : ex :=
  match part_eval (e :: ix) with Some x => x | None => EExpr (sys "Part" :: e :: ix) end.
(* Length[e] *)
Definition length_value (e : ex) : Z :=
  match length_eval [e] with Some (EInt z) => z | _ => 0%Z end.
Definition span (a b : ex) : ex := EExpr [sys "Span"; a; b].

(* list.m 351: First[e_?((Length[#]>=1)&)] := e[[1]] *)
Definition first_m (e : ex) : option ex :=
  if (1 <=? length_value e)%Z then Some (part_value e [EInt 1]) else None.
(* list.m 337: Last[e_?((Length[#]>=1)&)] := e[[Length[e]]] *)
Definition last_m (e : ex) : option ex :=
  if (1 <=? length_value e)%Z then Some (part_value e [EInt (length_value e)]) else None.
(* list.m 365: Rest[e_?((Length[#]>=1)&)] := e[[2;;All]] *)
Definition rest_m (e : ex) : option ex :=
  if (1 <=? length_value e)%Z then Some (part_value e [span (EInt 2) (sys "All")]) else None.
(* a call whose rule does not apply *)
Definition first_value (e : ex) : ex := match first_m e with Some x => x | None => EExpr [sys "First"; e] end.
Definition last_value (e : ex) : ex := match last_m e with Some x => x | None => EExpr [sys "Last"; e] end.
Definition rest_value (e : ex) : ex := match rest_m e with Some x => x | None => EExpr [sys "Rest"; e] end.

(* list.m 232: Take[list_, m_] := If[m > 0, list[[1;;m]], list[[m;;-1]]],
   m an integer *)
Definition take_m (e : ex) (m : Z) : ex :=
  if (0 <? m)%Z then part_value e [span (EInt 1) (EInt m)] else part_value e [span (EInt m) (EInt (-1))].
(* list.m 233: Take[list_, {m_, n_}] := list[[m;;n]] *)
Definition take_from_to (e : ex) (m n : Z) : ex := part_value e [span (EInt m) (EInt n)].
(* list.m 234: Take[list_, {m_, n_, o_}] := list[[m;;n;;o]] *)
Definition take_step (e : ex) (m n o : Z) : ex :=
  part_value e [EExpr [sys "Span"; EInt m; EInt n; EInt o]].

(* list.m 396: ListQ[expr_] := Head[expr] === List; builtin_expression.go 85-131:
   the head of a compound expression is its first part *)
Definition listq_m (e : ex) : bool :=
  match e with EExpr (h :: _) => is_sameq h (sys "List") | _ => false end.

(* list.m 10: Total[l__List] := Apply[Plus, l], one list.  The sum is evaluated
   by Plus, its value by eval.go 270-310. *)
Definition total_m (l : list ex) : ex := eval_number (plus_eval l).
(* list.m 22: Mean[l__List] := Total[l]/Length[l], that is
   Times[Total[l], Power[Length[l], -1]]; only for lists that are not empty *)
Definition mean_m (l : list ex) : ex :=
  eval_number (times_eval [total_m l; eval_rational_call (power_int (Z.of_nat (length l)) (-1))]).

(* list.m 428: Count[l_, pattern_] := Count[l, pattern, {1}] *)
Definition count_m (env : menv) (e pat : ex) : option ex := count_eval env [e; pat; mkList [EInt 1]].
(* list.m 442: Tally[l_List] := {#, Count[l, #]} & /@ DeleteDuplicates[l] *)
Definition tally_list (env : menv) (l : list ex) : option ex :=
  match delete_duplicates_eval [mkList l] with
  | Some (EExpr (h :: d)) =>
      Some (EExpr (h :: map (fun x => mkList [x; match count_m env (mkList l) x with Some n => n | None => sNull end]) d))
  | _ => None
  end.

(* functional.m 155: Fold[f_, x_, expr_] := Last[FoldList[f, x, expr]].  FoldList
   of something without parts stays as it is, and Last takes its last argument. *)
Definition fold_m (f x e : ex) : ex :=
  match fold_list_eval [f; x; e] with
  | Some r => last_value r
  | None => last_value (EExpr [sys "FoldList"; f; x; e])
  end.
(* functional.m 156: Fold[f_, expr_] := Last[FoldList[f, First[expr], Rest[expr]]] *)
Definition fold2_m (f e : ex) : ex := fold_m f (first_value e) (rest_value e).
(* functional.m 179: Nest[f_, expr_, n_] := Last[NestList[f, expr, n]] *)
Definition nest_m (f e n : ex) : ex :=
  match nest_list_eval [f; e; n] with
  | Some r => last_value r
  | None => last_value (EExpr [sys "NestList"; f; e; n])
  end.

(* combinatorics.m 69: Tuples[_, 0] := {{}}; 71-82: Prepend[#, elem]& /@ previous
   for every elem of the list, the rows joined by Flatten[..., 1].  [n] counts
   down from the second argument. *)
Fixpoint tuples_m (l : list ex) (n : nat) : option ex :=
  match n with
  | O => Some (mkList [mkList []])
  | S k =>
      match tuples_m l k with
      | Some (EExpr (h :: prev)) =>
          let row x := EExpr (h :: map (fun t => match prepend_eval [t; x] with Some r => r | None => sNull end) prev) in
          flatten_eval [mkList (map row l); EInt 1]
      | _ => None
      end
  end.
