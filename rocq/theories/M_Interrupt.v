(* The evaluator with interrupts (evalstate.go 289-295: SIGINT sets the flag
   interrupted).  The flag is read in tryReturnValue only (eval.go 335-356), so
   the evaluator is that of M_Eval.v with another tryReturnValue; the parts of
   it that call tryReturnValue are repeated here.

   When the signal arrives is described by a function [i] of the state of the
   evaluation: the flag is set when it is read in the state es if i es.  A flag
   set from the beginning is (fun _ => true).  Simplified: a moment between two
   readings in the same state cannot be told apart from the earlier one. *)
From Verif Require Import M_Syntax M_Float M_Hash M_Order M_Sort M_Num M_Arith M_Compare M_Match M_Defs M_Eval.
Open Scope nat_scope.

Definition aborted : ex := sys "$Aborted".
(* eval.go 335-356: tryReturnValue *)
Definition return_value_i (i : estate -> bool) (es : estate) (e : ex) : option ex :=
  if i es then Some aborted else return_value e.
(* builtin_flowcontrol.go 87-114: While, as while_loop and while_fn *)
Fixpoint while_loop_i (i : estate -> bool) (fuel : nat) (ev : evaluator) (es : estate) (cond body : ex) : outcome (ex * estate) :=
  match fuel with
  | O => More
  | S k =>
      obind (ev es cond) (fun '(r, es1) =>
      if is_sameq r sTrue then
        obind (ev es1 body) (fun '(b, es2) =>
        match return_value_i i es2 b with
        | Some v => Ret (v, es2)
        | None => if has_head b (sysname "Break") then Ret (sNull, es2)
                  else while_loop_i i k ev es2 cond body
        end)
      else Ret (sNull, es1))
  end.
Definition while_fn_i (i : estate -> bool) : builtin := fun k ev es parts =>
  match parts with
  | [_; cond; body] => obind (while_loop_i i k ev es cond body) (fun '(r, es1) => Ret (r, parts, es1))
  | _ => unchanged_this parts es
  end.
Definition builtin_of_i (i : estate -> bool) (c : cfg) (n : string) : option builtin :=
  if String.eqb n (sysname "While") then Some (while_fn_i i) else builtin_of c n.

(* eval.go 208-240, as apply_head *)
Definition apply_head_i (i : estate -> bool) (c : cfg) (k : nat) (ev : evaluator) (es : estate) (h : string) (curr_ex curr : list ex)
  : outcome (ex * bool * estate) :=
  obind (match lookup (es_defs es) h with
         | Some d =>
             match (if d_builtin d then builtin_of_i i c h else None) with
             | Some f => obind (f k ev es curr) (fun '(r, this, es1) => Ret (r, EExpr this, is_sameq r (EExpr this), es1))
             | None => Ret (EExpr curr_ex, EExpr curr, true, es)
             end
         | None => Ret (EExpr curr_ex, EExpr curr, true, es)
         end) (fun '(r, this, unchanged, es1) =>
  if unchanged then
    obind (get_def c k ev es1 h this) (fun '(o, es2) =>
    match o with Some v => Ret (v, true, es2) | None => Ret (r, false, es2) end)
  else Ret (r, false, es1)).


(* eval.go 101-252, as pass *)
Definition pass_i (i : estate -> bool) (c : cfg) (k : nat) (ev : evaluator) (es : estate) (parts : list ex)
  : outcome ((ex + (ex * bool)) * estate) :=
  let hs := match parts with ESym s :: _ => Some s | _ => None end in
  let a := match hs with Some s => sym_attrs es s | None => no_attrs end in
  match (if has_attr a aNumericFunction then propagate_conditionals parts else None) with
  | Some e => obind (ev es e) (fun '(r, es1) => Ret (inl r, es1))
  | None =>
      obind (eval_parts ev a 0 es parts) (fun '(o, es1) =>
      match o with
      | inl th => Ret (inl th, es1)
      | inr l =>
          obind (splice a (match hs with Some _ => true | None => false end) ev es1 l) (fun '(l2, es2) =>
          match l2 with
          | [] => Crash
          | h2 :: args2 =>
              match hs with
              | Some s =>
                  let '(cur_ex, cur) := flat_sort a s l2 in
                  match (if has_attr a aListable then thread_expr (hd sNull cur) (tl cur) else None) with
                  | Some t => Ret (inr (t, false), es2)
                  | None =>
                      let cur_ex := if has_attr a aListable then cur else cur_ex in
                      obind (apply_head_i i c k ev es2 s cur_ex cur) (fun '(r, b, es3) => Ret (inr (r, b), es3))
                  end
              | None =>
                  match args_of h2 (sysname "Function") with
                  | Some fa => obind (eval_function (env_of c es2) (sys "Function" :: fa) args2)
                                     (fun r => Ret (inr (r, false), es2))
                  | None => Ret (inr (EExpr l2, false), es2)
                  end
              end
          end)
      end)
  end.


(* eval.go 20-333, as run *)
Fixpoint run_i (i : estate -> bool) (c : cfg) (n : nat) (m : option (N * bool)) (es : estate) (e : ex) : outcome (ex * estate) :=
  match n with
  | O => More
  | S k =>
      let ev := run_i i c k None in
      match m with
      | None =>
          match e with
          | EExpr _ => run_i i c k (Some (0%N, false)) es e
          | ECplx re im =>
              obind (ev es re) (fun '(r, es1) =>
              obind (ev es1 im) (fun '(i, es2) =>
              Ret (if is_sameq i (EInt 0) then r else ECplx r i, es2)))
          | ERat p q => Ret (eval_rational p q, es)
          | ESym s =>
              match get_sym_def (es_defs es) s with
              | Some d =>
                  if match d with ESym s' => String.eqb s' s | _ => false end then Ret (d, es)
                  else obind (ev es d) (fun '(r, es1) =>
                       Ret (match return_value_i i es1 r with Some v => v | None => r end, es1))
              | None => Ret (e, es)
              end
          | _ => Ret (e, es)
          end
      | Some (last, inside) =>
          if N.eqb (hash e) last then Ret (e, es)
          else
            match e with
            | EExpr parts =>
                match (if inside then return_value_i i es e else None) with
                | Some v => Ret (v, es)
                | None =>
                    obind (pass_i i c k ev es parts) (fun '(o, es1) =>
                    match o with
                    | inl v => Ret (v, es1)
                    | inr (e', b) => run_i i c k (Some (hash e, inside || b)) es1 e'
                    end)
                end
            | _ => ev es e
            end
      end
  end.

Definition eval_i (i : estate -> bool) (c : cfg) (n : nat) : evaluator := run_i i c n None.

(* evalstate.go 699-718: what ProcessTopLevelResult does with a pending
   exception and with the flag; the result to show, the state and the flag with
   which the next input is evaluated *)
Definition top_result (out : ex) (es : estate) (flag : bool) : ex * estate * bool :=
  match es_thrown es with
  | Some th => (EExpr [sys "Hold"; th], with_thrown es None, flag)
  | None => (out, es, false)
  end.
