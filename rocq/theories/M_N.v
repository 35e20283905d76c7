(* N: machine-real approximations (builtin_system.go 42-95, 713-720), with the
   rules of specialsyms.m 47, 52. *)
From Verif Require Import M_Syntax M_Float.
From Coq Require Import String.
Open Scope Z_scope.

(* builtin_system.go 42-95: exprToN.  [def e]: what es.GetDef finds for N[e],
   the right-hand side of the first definition of N that applies (the evaluator's
   lookup, M_Defs / C90).  The parts of an expression are looked up, too. *)
Fixpoint to_n (def : ex -> option ex) (e : ex) : ex :=
  match e with
  | EInt z => EFlt (int_to_flt z)
  | ERat n d => EFlt (rat_to_flt n d)
  | ESym _ => match def e with Some r => r | None => e end
  | EExpr l =>
      match def e with
      | Some r => r
      | None => EExpr (map (fun p => match def p with Some r => r | None => to_n def p end) l)
      end
  | _ => e
  end.

(* builtin_system.go 713-720: any number of arguments but one is left alone *)
Definition n_fn (def : ex -> option ex) (args : list ex) : option ex :=
  match args with [e] => Some (to_n def e) | _ => None end.

(* parser/interp.go 204-210: a real literal written with k decimals is read as
   the nearest machine real *)
Definition decimal (digits : Z) (k : Z) : flt := fround digits (10 ^ k).

(* specialsyms.m 47, 52 *)
Definition pi_flt : flt := decimal 3141592653589793238462643383279502884197 39.
Definition e_flt : flt := decimal 271828182845904523536028747135266249775724709370 47.
Definition n_rules (e : ex) : option ex :=
  match e with
  | ESym s => if String.eqb s (sysname "Pi") then Some (EFlt pi_flt)
              else if String.eqb s (sysname "E") then Some (EFlt e_flt) else None
  | _ => None
  end.
