(* Plus and Times: term collection and the built-in evaluation functions.
   builtin_arithmetic.go 25-160, 223-266, 363-440. *)
From Verif Require Import M_Syntax M_Float M_Hash M_Order M_Num.
Open Scope Z_scope.

(* builtin_arithmetic.go 25-71: splitTerm -> (coefficient, Times[vars...]) *)
Definition split_term (e : ex) : option (ex * ex) :=
  match e with
  | ESym _ => Some (EInt 1, EExpr [ESym nTimes; e])
  | EExpr l =>
      let other := Some (EInt 1, EExpr [ESym nTimes; e]) in
      if is_times l then
        match l with
        | _ :: x :: rest =>
            if numberQ x then
              match rest with
              | [] => other
              | _ => Some (x, EExpr (ESym nTimes :: rest))
              end
            else Some (EInt 1, EExpr (ESym nTimes :: x :: rest))
        | _ => None
        end
      else other
  | _ => None
  end.

Definition num_or_nil (o : option ex) : ex := match o with Some e => e | None => ESym "nil" end.

(* builtin_arithmetic.go 73-108 *)
Definition collected_to_term (coeffs : list ex) (vars full : ex) : ex :=
  match coeffs with
  | [_] => full
  | _ =>
      let c := num_or_nil (fst (compute_numeric_part FoldAdd coeffs)) in
      let pre := match c with EInt 1 => [] | _ => [c] end in
      let vars' := match args_of vars nTimes with Some [x] => x | _ => vars end in
      match pre ++ [vars'] with
      | [x] => x
      | l => EExpr (ESym nTimes :: l)
      end
  end.

(* builtin_arithmetic.go 110-150: the loop; [pend] is (lastCoeffs, lastVars,
   lastFullPart), [out] the parts collected so far *)
Fixpoint collect_loop (parts : list ex) (pend : option (list ex * ex * ex)) (out : list ex) : list ex :=
  match parts with
  | [] => match pend with
          | Some (cs, v, f) => out ++ [collected_to_term cs v f]
          | None => out
          end
  | p :: t =>
      match split_term p with
      | Some (c, vars) =>
          match pend with
          | None => collect_loop t (Some ([c], vars, p)) out
          | Some (cs, v, f) =>
              if N.eqb (hash vars) (hash v)
              then collect_loop t (Some (cs ++ [c], v, f)) out
              else collect_loop t (Some ([c], vars, p)) (out ++ [collected_to_term cs v f])
          end
      | None => collect_loop t pend (out ++ [p])
      end
  end.
Definition collect_terms (args : list ex) : list ex := collect_loop args None [].

(* builtin_arithmetic.go 223-266: Plus, without the final conversion to machine
   reals (exprToN), which happens only when a Flt takes part. *)
Definition plus_eval (args : list ex) : ex :=
  match args with
  | [] => EInt 0
  | _ =>
    let '(r, rest) := compute_numeric_part FoldAdd args in
    match r, rest with
    | Some n, [] => n
    | _, _ =>
      let res := match r with
                 | Some n => match n with EInt 0 => rest | _ => n :: rest end
                 | None => args
                 end in
      let col := collect_terms res in
      let res := if N.eqb (hash (EExpr (ESym nPlus :: col))) (hash (EExpr (ESym nPlus :: res)))
                 then res else col in
      match res with [x] => x | _ => EExpr (ESym nPlus :: res) end
    end
  end.

Definition is_infinity (e : ex) : bool :=
  ex_eqb e (sys "Infinity") || ex_eqb e (sys "ComplexInfinity") || ex_eqb e (sys "Indeterminate").

(* builtin_arithmetic.go 363-440: Times.  Simplifications: memberQ on the
   Alternatives pattern is a membership test; the final es.Eval of the
   distributed negation and exprToN are left to the caller. *)
Definition times_eval (args : list ex) : ex :=
  match args with
  | [] => EInt 1
  | _ =>
    let '(r, rest) := compute_numeric_part FoldMul args in
    match r, rest with
    | Some n, [] => n
    | Some (EInt 0), _ => if existsb is_infinity rest then sys "Indeterminate" else EInt 0
    | _, _ =>
      let res := match r with
                 | Some n => match n with EInt 1 => rest | _ => n :: rest end
                 | None => args
                 end in
      match res with
      | [x] => x
      | [EInt (-1); EExpr (ESym h :: addends)] =>
          if String.eqb h nPlus
          then EExpr (ESym nPlus :: map (fun a => EExpr [ESym nTimes; a; EInt (-1)]) addends)
          else EExpr (ESym nTimes :: res)
      | _ => EExpr (ESym nTimes :: res)
      end
    end
  end.
