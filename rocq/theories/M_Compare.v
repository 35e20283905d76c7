(* Equal, Unequal, SameQ chains, Less & co, Inequality, Max/Min.
   builtin_comparison.go; the IsEqual methods in atoms/ex_*.go; flattenExpr in
   builtin_expression.go. *)
From Verif Require Import M_Syntax M_Float M_Hash M_Order M_Sort.
Open Scope Z_scope.

Inductive eqres := EqTrue | EqFalse | EqUnk.

Section IsEqual.
  (* the text of a machine real under the "%.14g" verb (ex_real.go 58-59); the
     formatting itself is not modelled, the theorems hold for every function *)
  Variable fmt14 : flt -> string.

  (* ex_integer.go 29-46, ex_rational.go 37-48, ex_real.go 45-64,
     ex_complex.go 40-50, ex_symbol.go 66-81, ex_string.go 27-36,
     ex_expression.go 147-167 *)
  Fixpoint is_equal (a b : ex) : eqres :=
    match a with
    | EInt x =>
        match b with
        | EInt y => if x =? y then EqTrue else EqFalse
        | EFlt g => match fcmp (int_to_flt x) g with Eq => EqTrue | _ => EqUnk end
        | _ => EqUnk
        end
    | ERat n d =>
        match b with
        | ERat n' d' => if (n =? n') && (d =? d') then EqTrue else EqFalse
        | _ => EqFalse
        end
    | EFlt f =>
        match b with
        | EFlt g => if String.eqb (fmt14 f) (fmt14 g) then EqTrue else EqFalse
        | EInt y => match fcmp (int_to_flt y) f with Eq => EqTrue | _ => EqUnk end
        | _ => EqUnk
        end
    | ECplx re im =>
        match b with
        | ECplx re' im' =>
            match is_equal re re', is_equal im im' with
            | EqTrue, EqTrue => EqTrue
            | _, _ => EqFalse
            end
        | _ => EqFalse
        end
    | ESym s =>
        match b with
        | ESym t =>
            if String.eqb s (sysname "False") && String.eqb t (sysname "True") then EqFalse
            else if String.eqb s (sysname "True") && String.eqb t (sysname "False") then EqFalse
            else if String.eqb s t then EqTrue else EqUnk
        | _ => EqUnk
        end
    | EStr s =>
        match b with
        | EStr t => if String.eqb s t then EqTrue else EqFalse
        | _ => EqFalse
        end
    | EExpr l =>
        match b with
        | EExpr l' =>
            if (length l =? length l')%nat
            then (fix go (x y : list ex) : eqres :=
                    match x, y with
                    | u :: x', v :: y' => match is_equal u v with EqTrue => go x' y' | _ => EqUnk end
                    | _, _ => EqTrue
                    end) l l'
            else EqUnk
        | _ => EqUnk
        end
    end.

  Inductive answer := ATrue | AFalse | AUneval.

  (* builtin_comparison.go 132-151: Equal *)
  Fixpoint equal_loop (x : ex) (l : list ex) (acc : bool) : answer :=
    match l with
    | [] => if acc then ATrue else AFalse
    | y :: t =>
        match is_equal x y with
        | EqUnk => AUneval
        | EqTrue => equal_loop x t acc
        | EqFalse => equal_loop x t false
        end
    end.
  Definition equal_eval (args : list ex) : answer :=
    match args with [] => ATrue | x :: t => equal_loop x t true end.

  (* builtin_comparison.go 166-188: Unequal *)
  Definition unequal_eval (args : list ex) : answer :=
    match args with
    | [x; y] => match is_equal x y with EqUnk => AUneval | EqTrue => AFalse | EqFalse => ATrue end
    | _ => AUneval
    end.
End IsEqual.

(* builtin_comparison.go 203-218: SameQ *)
Definition sameq_eval (args : list ex) : answer :=
  match args with [] => ATrue | x :: t => if forallb (is_sameq x) t then ATrue else AFalse end.

(* builtin_comparison.go 233-248: UnsameQ *)
Fixpoint unsameq_eval (args : list ex) : answer :=
  match args with
  | [] => ATrue
  | x :: t => if existsb (is_sameq x) t then AFalse else unsameq_eval t
  end.

(* es.Eval(N[e]) as used in builtin_comparison.go 102-112; builtin_system.go
   42-95.  Simplification: only numbers have a numeric value; None stands for
   "not NumberQ" (symbols such as Pi with N rules are not modelled). *)
Definition n_of (e : ex) : option ex :=
  match e with
  | EInt i => Some (EFlt (int_to_flt i))
  | ERat n d => Some (EFlt (rat_to_flt n d))
  | EFlt _ | ECplx _ _ => Some e
  | _ => None
  end.

(* builtin_comparison.go 99-121: comparisonFn *)
Fixpoint cmp_loop (orders : list Z) (last : option ex) (args : list ex) : answer :=
  match args with
  | [] => ATrue
  | e :: t =>
      match n_of e with
      | None => AUneval
      | Some c =>
          match last with
          | Some p => if existsb (Z.eqb (ex_order p c)) orders then cmp_loop orders (Some c) t else AFalse
          | None => cmp_loop orders (Some c) t
          end
      end
  end.

(* builtin_comparison.go 277-335 *)
Inductive relop := RLess | RLessEqual | RGreater | RGreaterEqual.
Definition op_orders (o : relop) : list Z :=
  match o with RLess => [1] | RGreater => [-1] | RLessEqual => [1; 0] | RGreaterEqual => [-1; 0] end.
Definition comparison_eval (o : relop) (args : list ex) : answer := cmp_loop (op_orders o) None args.

(* builtin_comparison.go 70-88: getCompSign; None is -2 *)
Definition comp_sign (e : ex) : option Z :=
  match e with
  | ESym s =>
      if String.eqb s (sysname "Less") then Some (-1)
      else if String.eqb s (sysname "LessEqual") then Some (-1)
      else if String.eqb s (sysname "Equal") then Some 0
      else if String.eqb s (sysname "GreaterEqual") then Some 1
      else if String.eqb s (sysname "Greater") then Some 1
      else None
  | _ => None
  end.

Inductive ineq_result :=
| ISelf                                  (* returned unchanged *)
| ITrue | IFalse
| IAnd (first second : list ex)          (* And[Inequality[...], Inequality[...]] *)
| IChain (parts : list ex)               (* Inequality[...] with undecided links *)
| ISingle (op lhs rhs : ex).

Section Inequality.
  (* es.Eval(op[lhs, rhs]) *)
  Variable evalop : ex -> ex -> ex -> answer.

  (* builtin_comparison.go 371-391: position of the first operator of opposite
     sign; Some (Some k): split at operator number k (0-based); Some None: no
     split; None: an operator without sign (return this) *)
  Fixpoint find_split (first : Z) (ops : list ex) (k : nat) : option (option nat) :=
    match ops with
    | [] => Some None
    | o :: t =>
        match comp_sign o with
        | None => None
        | Some s => if s =? - first then Some (Some k) else find_split first t (S k)
        end
    end.

  (* the chain lhs0 op0 rhs0 op1 rhs1 ... as a flat argument list *)
  Fixpoint unchain (l : list (ex * ex)) : list ex :=
    match l with [] => [] | (o, r) :: t => o :: r :: unchain t end.

  (* builtin_comparison.go 397-405: op on lhs and every later operand *)
  Definition some_false (op lhs : ex) (rest : list (ex * ex)) : bool :=
    existsb (fun '(_, r) => match evalop op lhs r with AFalse => true | _ => false end) rest.

  (* builtin_comparison.go 393-419.  [lhs] is parts[2i+1], [res] the parts of
     the result so far without its head; IsSameQ(last part of res, lhs) with
     res empty compares with the symbol Inequality. *)
  Fixpoint ineq_loop (lhs0 : ex) (links : list (ex * ex)) (res : list ex) : option (list ex) :=
    match links with
    | [] => Some res
    | (op, rhs) :: t =>
        let lhs := last res lhs0 in
        if some_false op lhs links then None
        else
          let res' :=
            match evalop op lhs rhs with
            | ATrue => res
            | _ =>
                let res1 := if is_sameq (last res (ESym (sysname "Inequality"))) lhs then res
                            else res ++ [lhs] in
                res1 ++ [op; rhs]
            end in
          ineq_loop rhs t res'
    end.

  (* builtin_comparison.go 359-432 on a chain with at least one operator (an
     even number of parts); other lengths return the expression or True *)
  Definition inequality_eval (a : ex) (links : list (ex * ex)) : ineq_result :=
    match links with
    | [] => ITrue
    | (op, _) :: t =>
        match comp_sign op with
        | None => ISelf
        | Some s =>
            let split := if s =? 0 then Some None else find_split s (map fst t) 1 in
            match split with
            | None => ISelf
            | Some (Some k) =>
                IAnd (a :: unchain (firstn k links))
                     (last (map snd (firstn k links)) a :: unchain (skipn k links))
            | Some None =>
                match ineq_loop a links [] with
                | None => IFalse
                | Some [] => ITrue
                | Some [l; o; r] => ISingle o l r
                | Some res => IChain res
                end
            end
        end
    end.
End Inequality.

(* builtin_expression.go 23-40: flattenExpr.  [flat_arg head level e] is what
   the argument e of an expression with that head contributes to dst.  An
   Expression without parts panics in Go and is kept here. *)
Fixpoint flat_arg (head : ex) (level : Z) (e : ex) : list ex :=
  match e with
  | EExpr (h :: t) =>
      if (0 <? level) && is_sameq head h then flat_map (flat_arg h (level - 1)) t else [e]
  | _ => [e]
  end.
Definition flatten_args (head : ex) (level : Z) (args : list ex) : list ex :=
  flat_map (flat_arg head level) args.

Inductive extrema := MaxFn | MinFn.
Definition ext_head (f : extrema) : ex := match f with MaxFn => sys "Max" | MinFn => sys "Min" end.

(* builtin_comparison.go 47-52: the leading numbers *)
Fixpoint lead_nums (l : list ex) : list ex :=
  match l with x :: t => if numberQ x then x :: lead_nums t else [] | [] => [] end.
Fixpoint drop_nums (l : list ex) : list ex :=
  match l with x :: t => if numberQ x then drop_nums t else l | [] => [] end.

(* builtin_comparison.go 17-68: extremaFunction.  With no leading number Max
   keeps its own head twice in Go (parts[0:]): Max[Max, x, ...]; modelled. *)
Definition extrema_eval (f : extrema) (args : list ex) : ex :=
  let dst := flatten_args (sys "List") 999999999 args in
  let args := if is_sameq (EExpr (sys "List" :: args)) (EExpr (sys "List" :: dst)) then args
              else insertion_sort dst in
  match args with
  | [] => match f with
          | MaxFn => EExpr [sys "Times"; EInt (-1); sys "Infinity"]
          | MinFn => sys "Infinity"
          end
  | [x] => x
  | _ =>
      let ns := lead_nums args in
      match f with
      | MaxFn =>
          match ns with
          | [] => EExpr (ext_head f :: ext_head f :: args)
          | _ => EExpr (ext_head f :: last ns (EInt 0) :: drop_nums args)
          end
      | MinFn =>
          match ns with
          | [] => EExpr (ext_head f :: args)
          | n :: _ => EExpr (ext_head f :: n :: drop_nums args)
          end
      end
  end.

(* es.Eval(op[lhs, rhs]) for the five comparison operators on already
   evaluated operands (the built-in functions above) *)
Definition eval_op (fmt14 : flt -> string) (op lhs rhs : ex) : answer :=
  match op with
  | ESym s =>
      if String.eqb s (sysname "Less") then comparison_eval RLess [lhs; rhs]
      else if String.eqb s (sysname "LessEqual") then comparison_eval RLessEqual [lhs; rhs]
      else if String.eqb s (sysname "Greater") then comparison_eval RGreater [lhs; rhs]
      else if String.eqb s (sysname "GreaterEqual") then comparison_eval RGreaterEqual [lhs; rhs]
      else if String.eqb s (sysname "Equal") then equal_eval fmt14 [lhs; rhs]
      else AUneval
  | _ => AUneval
  end.
