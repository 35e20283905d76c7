(* The rules about sums and products of complex numbers written in the language
   itself: resources/atoms.m 52-55. *)
From Verif Require Import M_Syntax M_Num.
From Coq Require Import List Permutation.
Import ListNotations.

(* The value of Plus or Times of numbers: the builtin folds the numbers
   (builtin_arithmetic.go 223-266, 363-440, atoms/calculator.go 81-150) and the
   result is evaluated (eval.go 20-45). *)
Definition num_op (fn : fold_fn) (l : list ex) : ex :=
  match compute_numeric_part fn l with
  | (Some e, []) => eval_number e
  | _ => ESym "nil"%string
  end.
Definition is_real_number (e : ex) : bool := match e with EInt _ | ERat _ _ | EFlt _ => true | _ => false end.

(* [cplx_step fn l c rest]: a rule turns the arguments l of Plus (FoldAdd) or
   Times (FoldMul) into the complex number c and the arguments rest.  Plus and
   Times are Flat and Orderless: the two arguments the rule takes may stand
   anywhere.  Simplification: a rule may take any two arguments, where the matcher
   takes the first that fit. *)
Inductive cplx_step : fold_fn -> list ex -> ex -> list ex -> Prop :=
(* atoms.m 52 *)
| cs_mul_real l a re im rest : Permutation l (a :: ECplx re im :: rest) -> is_real_number a = true ->
    cplx_step FoldMul l (ECplx (num_op FoldMul [a; re]) (num_op FoldMul [a; im])) rest
(* atoms.m 53 *)
| cs_add_real l a re im rest : Permutation l (a :: ECplx re im :: rest) -> is_real_number a = true ->
    cplx_step FoldAdd l (ECplx (num_op FoldAdd [a; re]) im) rest
(* atoms.m 54 *)
| cs_add l x y u v rest : Permutation l (ECplx x y :: ECplx u v :: rest) ->
    cplx_step FoldAdd l (ECplx (num_op FoldAdd [x; u]) (num_op FoldAdd [y; v])) rest
(* atoms.m 55; x*u-y*v is Plus[Times[x, u], Times[-1, y, v]] *)
| cs_mul l x y u v rest : Permutation l (ECplx x y :: ECplx u v :: rest) ->
    cplx_step FoldMul l (ECplx (num_op FoldAdd [num_op FoldMul [x; u]; num_op FoldMul [EInt (-1); y; v]])
                               (num_op FoldAdd [num_op FoldMul [x; v]; num_op FoldMul [y; u]])) rest.
