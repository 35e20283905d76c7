(* The evaluator: eval.go, replace.go, builtin_flowcontrol.go,
   builtin_boolean.go, parts of builtin_system.go and builtin_replacement.go.
   Simplifications that hold for the whole file: expressions are immutable
   trees, so the in-place updates of Go and the EvaledHash / CachedHash caches
   are absent; tracing, profiling, logging, interrupts are left out. *)
From Verif Require Import M_Syntax M_Float M_Hash M_Order M_Sort M_Num M_Arith M_Compare M_Match M_Defs.
Open Scope nat_scope.

(* Result of running Go code: a value, "needs more fuel" (an artefact of the
   model: the code is still running), or the death of the process (a Go panic
   or log.Fatal: the repository contains no recover()). *)
Inductive outcome (A : Type) : Type := Ret (a : A) | More | Crash.
Arguments Ret {A}. Arguments More {A}. Arguments Crash {A}.
Definition obind {A B} (o : outcome A) (f : A -> outcome B) : outcome B :=
  match o with Ret a => f a | More => More | Crash => Crash end.

(* evalstate.go 29-60: the fields of EvalState used here: the definitions, the
   pending exception and the list of sown expressions *)
Record estate : Type := ES { es_defs : state; es_thrown : option ex; es_sown : option (list ex) }.
Definition with_defs (es : estate) (d : state) : estate := ES d (es_thrown es) (es_sown es).
Definition with_thrown (es : estate) (t : option ex) : estate := ES (es_defs es) t (es_sown es).
Definition with_sown (es : estate) (t : option (list ex)) : estate := ES (es_defs es) (es_thrown es) t.

Definition evaluator : Type := estate -> ex -> outcome (ex * estate).
(* pkg/expreduceapi EvalFnType: a LegacyEvalFn gets the expression (its parts)
   and returns the new expression; the second component are the parts of the
   expression afterwards (some builtins modify them in place).  The number
   bounds loops inside the builtin. *)
Definition builtin : Type := nat -> evaluator -> estate -> list ex -> outcome (ex * list ex * estate).

(* Parameters the theorems quantify over: the length of the InputForm of a
   left-hand side, the "%.14g" text of a real, the oracle deciding conditions
   inside patterns (see menv in M_Match.v), and the builtins not modelled. *)
Record cfg : Type := Cfg {
  c_fl : ex -> Z; c_fmt : flt -> string; c_cond : estate -> ex -> bool;
  c_other : string -> option builtin }.

(* pkg/expreduceapi/cas.go 135-155: indices of the attribute fields *)
Definition aOrderless := 0. Definition aFlat := 1. Definition aOneIdentity := 2.
Definition aListable := 3. Definition aNumericFunction := 5.
Definition aHoldFirst := 9. Definition aHoldRest := 10. Definition aHoldAll := 11.
Definition aHoldAllComplete := 12. Definition aSequenceHold := 16.

(* atoms/ex_symbol.go 92-98: Attrs *)
Definition sym_attrs (es : estate) (n : string) : attrs :=
  match lookup (es_defs es) n with Some d => d_attrs d | None => no_attrs end.
Definition has_attr (a : attrs) (i : nat) : bool := nth i a false.

(* what the matcher reads from the state: matchq.go 286-312 (attributes),
   atoms/ex_symbol.go 100-108 (Default) *)
Definition env_of (c : cfg) (es : estate) : menv :=
  MEnv (fun n => has_attr (sym_attrs es n) aOrderless)
       (fun n => has_attr (sym_attrs es n) aFlat)
       (fun n => has_attr (sym_attrs es n) aOneIdentity)
       (fun n => match lookup (es_defs es) n with Some d => d_default d | None => None end)
       (c_cond c es).

(* ------------------------------------------------------------ replacement *)

(* replace.go 11-60: flatReplace *)
Definition flat_replace (env : menv) (e : list ex) (lhs : list ex) (rhs : ex) (orderless : bool) : ex :=
  let bns n := EExpr [sys "Pattern"; ESym n; EExpr [sys "BlankNullSequence"]] in
  let nstart := "System`Expreduce`start"%string in
  let nend := "System`Expreduce`end"%string in
  let loose := EExpr (hd sNull lhs :: (if orderless then [] else [bns nstart]) ++ tl lhs ++ [bns nend]) in
  match is_match_q env (EExpr e) loose [] with
  | Some pd => replace_pd_go pd
      (EExpr (hd sNull e :: (if orderless then [] else [ESym nstart]) ++ [rhs; ESym nend]))
  | None => EExpr e
  end.

(* eval.go 440-499 (exprReplaceAll) and replace.go 67-90 (replaceAll) for the
   rule lhs -> rhs.  Simplification: on an expression without parts the Go code
   panics, here it is left alone. *)
Fixpoint replace_all (env : menv) (lhs rhs : ex) (stop : string) (e : ex) : ex :=
  match e with
  | EExpr parts =>
      if has_head e stop then e
      else
        match is_match_q env e lhs [] with
        | Some m => replace_pd_go m rhs
        | None =>
            let recurse :=
              let e' := EExpr (map (replace_all env lhs rhs stop) parts) in
              if N.eqb (hash e') (hash e) then e else e' in
            match parts, lhs with
            | ESym s :: _, EExpr (ESym s' :: _) =>
                if String.eqb s s' && me_flat env s
                then flat_replace env parts (parts_of lhs) rhs (me_orderless env s)
                else recurse
            | [], _ => e
            | _, _ => recurse
            end
        end
  | _ => match is_match_q env e lhs [] with Some m => replace_pd_go m rhs | None => e end
  end.

(* builtin_replacement.go 9-40: getValidRules; a rule as (lhs, rhs).  None: a
   rule with fewer than two arguments, on which the Go code panics later. *)
Definition rule_parts (e : ex) : option (option (ex * ex)) :=
  match e with
  | EExpr (ESym h :: args) =>
      if String.eqb h (sysname "Rule") || String.eqb h (sysname "RuleDelayed")
      then Some (match args with l :: r :: _ => Some (l, r) | _ => None end) else None
  | _ => None
  end.
Fixpoint valid_rules_list (l : list ex) : option (list (ex * ex)) :=
  match l with
  | [] => Some []
  | e :: t => match rule_parts e, valid_rules_list t with
              | None, r => r
              | Some (Some p), Some r => Some (p :: r)
              | _, _ => None
              end
  end.
Definition get_valid_rules (e : ex) : option (list (ex * ex)) :=
  match rule_parts e with
  | Some (Some p) => Some [p]
  | Some None => None
  | None => match args_of e nList with Some l => valid_rules_list l | None => Some [] end
  end.

(* builtin_replacement.go 42-53: rulesReplaceAll *)
Definition rules_replace_all (env : menv) (rules : list (ex * ex)) (e : ex) : ex :=
  fold_left (fun e '(l, r) => replace_all env l r "" e) rules e.

(* builtin_flowcontrol.go 10-49: applyWithFn, the rules; None: not ok *)
Fixpoint with_rules (l : list ex) : option (list (ex * ex)) :=
  match l with
  | [] => Some []
  | EExpr [ESym h; x; v] :: t =>
      if String.eqb h (sysname "Set") || String.eqb h (sysname "SetDelayed")
      then option_map (cons (x, v)) (with_rules t) else None
  | _ => None
  end.
Definition apply_with (env : menv) (args : list ex) : option ex :=
  match args with
  | [vars; body] =>
      match args_of vars nList with
      | Some l => match with_rules l with Some rs => Some (rules_replace_all env rs body) | None => None end
      | None => None
      end
  | _ => None
  end.

(* replace.go 92-139: tryCondWithMatches.  Simplification: a Module whose body
   is a Condition is not opened. *)
Fixpoint try_cond (c : cfg) (fuel : nat) (ev : evaluator) (es : estate) (rhs : ex) : outcome (option ex * estate) :=
  match fuel with
  | O => More
  | S k =>
      let rhs' :=
        match rhs with
        | EExpr [ESym h; vars; body] =>
            if String.eqb h (sysname "With") && has_head body nCondition then
              match apply_with (env_of c es) [vars; body] with
              | Some r => if has_head r nCondition then r else rhs
              | None => rhs
              end
            else rhs
        | _ => rhs
        end in
      match args_of rhs' nCondition with
      | Some (body :: cond :: _) =>
          obind (ev es cond) (fun '(r, es1) =>
          if trueQ r then try_cond c k ev es1 body else Ret (None, es1))
      | Some _ => Crash
      | None => Ret (Some rhs', es)
      end
  end.

(* replace.go 141-165: replace *)
Fixpoint try_matches (c : cfg) (fuel : nat) (ev : evaluator) (es : estate) (rhs : ex) (ms : list pdm) : outcome (option ex * estate) :=
  match ms with
  | [] => Ret (None, es)
  | m :: t =>
      obind (try_cond c fuel ev es (replace_pd_go m rhs)) (fun '(r, es1) =>
      match r with
      | Some v => Ret (Some v, es1)
      | None => try_matches c fuel ev es1 rhs t
      end)
  end.
Definition replace_rule (c : cfg) (fuel : nat) (ev : evaluator) (es : estate) (e lhs rhs : ex) : outcome (option ex * estate) :=
  try_matches c fuel ev es rhs (fst (match_iter (env_of c es) e lhs [])).

(* evalstate.go 328-360: GetDef for an expression.  Simplification: the list of
   rules is read once (the Go code re-reads it after every rule, and panics if a
   condition has shortened it). *)
Fixpoint get_def_rules (c : cfg) (fuel : nat) (ev : evaluator) (es : estate) (e : ex) (l : list dval) : outcome (option ex * estate) :=
  match l with
  | [] => Ret (None, es)
  | d :: t =>
      obind (replace_rule c fuel ev es e (dv_lhs d) (dv_rhs d)) (fun '(r, es1) =>
      match r with
      | Some v => Ret (Some v, es1)
      | None => get_def_rules c fuel ev es1 e t
      end)
  end.
Definition get_def (c : cfg) (fuel : nat) (ev : evaluator) (es : estate) (n : string) (e : ex) : outcome (option ex * estate) :=
  match lookup (es_defs es) n with
  | None => Ret (None, es)
  | Some d => get_def_rules c fuel ev es e (d_dvs d)
  end.

(* --------------------------------------------------------------- builtins *)

(* builtins that only look at their arguments *)
Definition unchanged_this (parts : list ex) (es : estate) : outcome (ex * list ex * estate) :=
  Ret (EExpr parts, parts, es).
Definition returning (r : ex) (parts : list ex) (es : estate) : outcome (ex * list ex * estate) :=
  Ret (r, parts, es).

Definition booleanQ (e : ex) : bool := trueQ e || falseQ e.

(* builtin_boolean.go 10-35 (And: stop = False, unit = True) and 37-62 (Or:
   stop = True, unit = False): the loop over the arguments.  [acc]: the
   undecided results so far (reversed); the result is the value, the arguments
   afterwards (updated in place) and the state. *)
Fixpoint junct_loop (stop : ex -> bool) (stopv : ex) (ev : evaluator) (es : estate) (args : list ex) (acc done : list ex)
  : outcome (option ex * list ex * list ex * estate) :=
  match args with
  | [] => Ret (None, rev acc, rev done, es)
  | a :: t =>
      obind (ev es a) (fun '(r, es1) =>
      if booleanQ r then
        if stop r then Ret (Some stopv, [], rev_append done (r :: t), es1)
        else junct_loop stop stopv ev es1 t acc (r :: done)
      else junct_loop stop stopv ev es1 t (r :: acc) (r :: done))
  end.
Definition junct (head : ex) (stop : ex -> bool) (stopv unit : ex) : builtin := fun _ ev es parts =>
  obind (junct_loop stop stopv ev es (tl parts) [] []) (fun '(o, acc, done, es1) =>
  let this := hd sNull parts :: done in
  match o with
  | Some v => Ret (v, this, es1)
  | None => match acc with
            | [] => Ret (unit, this, es1)
            | [x] => Ret (x, this, es1)
            | _ => Ret (EExpr (head :: acc), this, es1)
            end
  end).
Definition and_fn : builtin := junct (sys "And") falseQ sFalse sTrue.
Definition or_fn : builtin := junct (sys "Or") trueQ sTrue sFalse.

(* builtin_boolean.go 64-77 *)
Definition not_fn : builtin := fun _ _ es parts =>
  match parts with
  | [_; x] => if trueQ x then returning sFalse parts es
              else if falseQ x then returning sTrue parts es else unchanged_this parts es
  | _ => unchanged_this parts es
  end.

(* qfunctions.go 16-38 *)
Definition q_fn (q : ex -> bool) : builtin := fun _ _ es parts =>
  match parts with
  | [_; x] => returning (if q x then sTrue else sFalse) parts es
  | _ => unchanged_this parts es
  end.

(* builtin_flowcontrol.go 58-86 *)
Definition if_fn (c : cfg) : builtin := fun _ _ es parts =>
  let go cond t f :=
    match is_equal (c_fmt c) cond sTrue with
    | EqUnk => unchanged_this parts es
    | EqTrue => returning t parts es
    | EqFalse => returning f parts es
    end in
  match parts with
  | [_; cond; t] => go cond t sNull
  | [_; cond; t; f] => go cond t f
  | _ => unchanged_this parts es
  end.

(* eval.go 335-354: tryReturnValue *)
Definition return_value (e : ex) : option ex :=
  match args_of e (sysname "Return") with
  | Some (v :: _) => Some v
  | Some [] => Some sNull
  | None => None
  end.

(* builtin_flowcontrol.go 87-114.  Here and in Which, Catch, Sow, Reap the
   first evaluation of the condition precedes the loop; the loop is the same
   test repeated. *)
Fixpoint while_loop (fuel : nat) (ev : evaluator) (es : estate) (cond body : ex) : outcome (ex * estate) :=
  match fuel with
  | O => More
  | S k =>
      obind (ev es cond) (fun '(r, es1) =>
      if is_sameq r sTrue then
        obind (ev es1 body) (fun '(b, es2) =>
        match return_value b with
        | Some v => Ret (v, es2)
        | None => if has_head b (sysname "Break") then Ret (sNull, es2)
                  else while_loop k ev es2 cond body
        end)
      else Ret (sNull, es1))
  end.
Definition while_fn : builtin := fun k ev es parts =>
  match parts with
  | [_; cond; body] => obind (while_loop k ev es cond body) (fun '(r, es1) => Ret (r, parts, es1))
  | _ => unchanged_this parts es
  end.

(* builtin_flowcontrol.go 115-133.  CompoundExpression[] returns a nil
   interface, on which IsSameQ (eval.go 229) panics. *)
Fixpoint compound_loop (ev : evaluator) (es : estate) (args : list ex) (last : option ex) : outcome (option ex * estate) :=
  match args with
  | [] => Ret (last, es)
  | a :: t =>
      obind (ev es a) (fun '(r, es1) =>
      match es_thrown es1 with
      | Some th => Ret (Some th, es1)
      | None => if has_head r (sysname "Return") then Ret (Some r, es1)
                else compound_loop ev es1 t (Some r)
      end)
  end.
Definition compound_fn : builtin := fun _ ev es parts =>
  obind (compound_loop ev es (tl parts) None) (fun '(o, es1) =>
  match o with Some r => Ret (r, parts, es1) | None => Crash end).

(* builtin_flowcontrol.go 136-153 *)
Fixpoint which_loop (ev : evaluator) (es : estate) (args : list ex) : outcome (ex * estate) :=
  match args with
  | cond :: v :: t =>
      obind (ev es cond) (fun '(r, es1) => if trueQ r then Ret (v, es1) else which_loop ev es1 t)
  | _ => Ret (sNull, es)
  end.
Definition which_fn : builtin := fun _ ev es parts =>
  if Nat.odd (length parts)
  then obind (which_loop ev es (tl parts)) (fun '(r, es1) => Ret (r, parts, es1))
  else unchanged_this parts es.

(* builtin_flowcontrol.go 154-167 *)
Fixpoint switch_loop (env : menv) (e : ex) (args : list ex) : option ex :=
  match args with
  | p :: v :: t => match is_match_q env e p [] with Some _ => Some v | None => switch_loop env e t end
  | _ => None
  end.
Definition switch_fn (c : cfg) : builtin := fun _ _ es parts =>
  match parts with
  | _ :: e :: forms =>
      if (4 <=? length parts) && Nat.even (length parts)
      then match switch_loop (env_of c es) e forms with
           | Some v => returning v parts es
           | None => unchanged_this parts es
           end
      else unchanged_this parts es
  | _ => unchanged_this parts es
  end.

(* builtin_flowcontrol.go 168-177 *)
Definition with_fn (c : cfg) : builtin := fun _ _ es parts =>
  match apply_with (env_of c es) (tl parts) with
  | Some r => returning r parts es
  | None => unchanged_this parts es
  end.

(* evalstate.go 471-599 *)
Definition es_define (c : cfg) (es : estate) (lhs rhs : ex) : outcome estate :=
  match define (c_fl c) (es_defs es) lhs rhs with
  | Some d => Ret (with_defs es d)
  | None => Crash
  end.

(* builtin_system.go 494-501: Set *)
Definition set_fn (c : cfg) : builtin := fun _ _ es parts =>
  match parts with
  | [_; lhs; rhs] => obind (es_define c es lhs rhs) (fun es1 => Ret (rhs, parts, es1))
  | _ => unchanged_this parts es
  end.

(* evaluate a list from left to right, threading the state *)
Fixpoint eval_all (ev : evaluator) (es : estate) (l : list ex) : outcome (list ex * estate) :=
  match l with
  | [] => Ret ([], es)
  | a :: t => obind (ev es a) (fun '(r, es1) =>
              obind (eval_all ev es1 t) (fun '(rs, es2) => Ret (r :: rs, es2)))
  end.

(* builtin_system.go 559-585: SetDelayed *)
Definition set_delayed_fn (c : cfg) : builtin := fun _ ev es parts =>
  match parts with
  | [h; EExpr l; rhs] =>
      let hold := match l with
                  | ESym s :: _ => has_attr (sym_attrs es s) aHoldAll || has_attr (sym_attrs es s) aHoldAllComplete
                  | _ => false
                  end in
      obind (if hold then Ret (l, es) else eval_all ev es l) (fun '(l1, es1) =>
      obind (es_define c es1 (EExpr l1) rhs) (fun es2 =>
      obind (es_define c es2 (EExpr l1) rhs) (fun es3 =>
      Ret (sNull, [h; EExpr l1; rhs], es3))))
  | [h; lhs; rhs] => obind (es_define c es lhs rhs) (fun es1 => Ret (sNull, parts, es1))
  | _ => unchanged_this parts es
  end.

(* builtin_system.go 401-412: Clear *)
Definition clear_fn : builtin := fun _ _ es parts =>
  returning sNull parts (with_defs es (clear_eval (es_defs es) (tl parts))).

(* builtin_system.go 940-949: Throw; evalstate.go 667-669 *)
Definition throw_fn : builtin := fun _ _ es parts =>
  match parts with
  | [_; _] => Ret (EExpr parts, parts, with_thrown es (Some (EExpr parts)))
  | _ => unchanged_this parts es
  end.

(* builtin_system.go 950-964: Catch.  The pending exception is an expression
   with one argument; Parts[1] of anything else would panic. *)
Definition catch_fn : builtin := fun _ ev es parts =>
  match parts with
  | [_; e] =>
      obind (ev es e) (fun '(r, es1) =>
      match es_thrown es1 with
      | Some (EExpr (_ :: v :: _)) => Ret (v, parts, with_thrown es1 None)
      | Some _ => Crash
      | None => Ret (r, parts, es1)
      end)
  | _ => unchanged_this parts es
  end.

(* builtin_system.go 1001-1014: Sow *)
Definition sow_fn : builtin := fun _ ev es parts =>
  match parts with
  | [_; e] =>
      obind (ev es e) (fun '(r, es1) =>
      Ret (r, parts, match es_sown es1 with Some l => with_sown es1 (Some (l ++ [r])) | None => es1 end))
  | _ => unchanged_this parts es
  end.

(* builtin_system.go 1015-1034: Reap *)
Definition reap_fn : builtin := fun _ ev es parts =>
  match parts with
  | [_; e] =>
      obind (ev (with_sown es (Some [])) e) (fun '(r, es1) =>
      match es_sown es1 with
      | Some l => Ret (mkList [r; mkList [mkList l]], parts, with_sown es1 (Some []))
      | None => Crash
      end)
  | _ => unchanged_this parts es
  end.

(* builtin_replacement.go 113-120: ReplaceAll *)
Definition replace_all_fn (c : cfg) : builtin := fun _ _ es parts =>
  match parts with
  | [_; e; r] => match get_valid_rules r with
                 | Some rules => returning (rules_replace_all (env_of c es) rules e) parts es
                 | None => Crash
                 end
  | _ => unchanged_this parts es
  end.

(* builtin_replacement.go 124-141: Replace *)
Fixpoint replace_loop (c : cfg) (k : nat) (ev : evaluator) (es : estate) (e : ex) (rules : list (ex * ex)) : outcome (ex * estate) :=
  match rules with
  | [] => Ret (e, es)
  | (l, r) :: t =>
      obind (replace_rule c k ev es e l r) (fun '(o, es1) =>
      match o with Some v => Ret (v, es1) | None => replace_loop c k ev es1 e t end)
  end.
Definition replace_fn (c : cfg) : builtin := fun k ev es parts =>
  match parts with
  | [_; e; r] => match get_valid_rules r with
                 | Some [] => unchanged_this parts es
                 | Some rules => obind (replace_loop c k ev es e rules) (fun '(v, es1) => Ret (v, parts, es1))
                 | None => Crash
                 end
  | _ => unchanged_this parts es
  end.

(* builtin_pattern.go 33-44: MatchQ *)
Definition matchq_fn (c : cfg) : builtin := fun _ _ es parts =>
  match parts with
  | [_; a; p] => returning (if matchq_eval (env_of c es) a p then sTrue else sFalse) parts es
  | _ => unchanged_this parts es
  end.

(* builtin_comparison.go 130-248: Equal, Unequal, SameQ, UnsameQ, Less & co,
   on the argument lists of M_Compare.v *)
Definition answer_fn (f : list ex -> answer) : builtin := fun _ _ es parts =>
  match f (tl parts) with
  | ATrue => returning sTrue parts es
  | AFalse => returning sFalse parts es
  | AUneval => unchanged_this parts es
  end.
(* builtin_arithmetic.go 223-266 and 363-440, as in M_Arith.v *)
Definition value_fn (f : list ex -> ex) : builtin := fun _ _ es parts => returning (f (tl parts)) parts es.

(* -------------------------------------------------------------- iterators *)

(* iterspec/iterspec.go 11-37: iterSpecRange and iterSpecList.  pos counts
   from 0 here (Go: from 1, the head being part 0). *)
Inductive iter : Type :=
| IRange (i : ex) (name : string) (imin imax step curr : ex)
| IList (i : ex) (name : string) (l : list ex) (pos : nat).
Definition iter_var (it : iter) : ex := match it with IRange i _ _ _ _ _ => i | IList i _ _ _ => i end.
Definition iter_name (it : iter) : string := match it with IRange _ n _ _ _ _ => n | IList _ n _ _ => n end.
(* iterspec.go 135-137, 163-165 *)
Definition iter_curr (it : iter) : ex := match it with IRange _ _ _ _ _ c => c | IList _ _ l p => nth p l sNull end.
(* iterspec.go 131-133, 159-161 *)
Definition iter_cont (it : iter) : bool :=
  match it with
  | IRange _ _ _ imax _ curr => (0 <=? ex_order curr imax)%Z
  | IList _ _ l p => p <? length l
  end.
(* iterspec.go 116-125, 151-153 *)
Definition iter_reset (ev : evaluator) (es : estate) (it : iter) : outcome (iter * estate) :=
  match it with
  | IRange i n imin imax step _ =>
      obind (ev es (EExpr [sys "Plus"; imin; EExpr [sys "Times"; EInt 0; step]])) (fun '(c, es1) =>
      Ret (IRange i n imin imax step c, es1))
  | IList i n l _ => Ret (IList i n l 0, es)
  end.
(* iterspec.go 127-129, 155-157 *)
Definition iter_next (ev : evaluator) (es : estate) (it : iter) : outcome (iter * estate) :=
  match it with
  | IRange i n imin imax step curr =>
      obind (ev es (EExpr [sys "Plus"; curr; step])) (fun '(c, es1) => Ret (IRange i n imin imax step c, es1))
  | IList i n l p => Ret (IList i n l (S p), es)
  end.

(* iterspec.go 39-53: tryIterParam *)
Definition iter_param (e : ex) : bool :=
  match e with EInt _ | EFlt _ | ERat _ _ | ECplx _ _ => true | _ => false end.
(* iterspec.go 274-300: evalIterSpecCandidate *)
Definition eval_candidate (ev : evaluator) (es : estate) (cand : ex) : outcome (ex * estate) :=
  match args_of cand nList with
  | Some [] => Ret (mkList [], es)
  | Some (v :: t) => obind (eval_all ev es t) (fun '(t', es1) => Ret (mkList (v :: t'), es1))
  | None => ev es cand
  end.
(* iterspec.go 66-82: the variable of iteration and the symbol it belongs to;
   an Expression without parts panics in Go *)
Definition iter_symbol (v : ex) : option string :=
  match v with ESym s => Some s | EExpr (ESym s :: _) => Some s | _ => None end.
(* iterspec.go 55-114: SpecFromList *)
Definition spec_from_list (ev : evaluator) (es : estate) (cand : ex) : outcome (option iter * estate) :=
  obind (eval_candidate ev es cand) (fun '(e, es1) =>
  match args_of e nList with
  | Some (v :: ps) =>
      match iter_symbol v with
      | Some n =>
          let range imin imax step :=
            obind (iter_reset ev es1 (IRange v n imin imax step imin)) (fun '(it, es2) => Ret (Some it, es2)) in
          match ps with
          | [b] => if iter_param b then range (EInt 1) b (EInt 1)
                   else match args_of b nList with
                        | Some l => Ret (Some (IList v n l 0), es1)
                        | None => Ret (None, es1)
                        end
          | [a; b] => if iter_param a && iter_param b then range a b (EInt 1) else Ret (None, es1)
          | [a; b; s] => if iter_param a && iter_param b && iter_param s then range a b s else Ret (None, es1)
          | _ => Ret (None, es1)
          end
      | None => Ret (None, es1)
      end
  | _ => Ret (None, es1)
  end).

(* iterspec.go 182-197: MultiSpecFromLists *)
Fixpoint specs_from_lists (ev : evaluator) (es : estate) (l : list ex) : outcome (option (list iter) * estate) :=
  match l with
  | [] => Ret (Some [], es)
  | e :: t =>
      obind (spec_from_list ev es e) (fun '(o, es1) =>
      match o with
      | None => Ret (None, es1)
      | Some it => obind (specs_from_lists ev es1 t) (fun '(o2, es2) =>
                   Ret (option_map (cons it) o2, es2))
      end)
  end.
(* iterspec.go 199-208: MultiIterSpec.Next; the flag: still running *)
Fixpoint multi_next (ev : evaluator) (es : estate) (its : list iter) : outcome (list iter * bool * estate) :=
  match its with
  | [] => Ret ([], false, es)
  | it :: t =>
      obind (multi_next ev es t) (fun '(t', go, es1) =>
      if go then Ret (it :: t', true, es1)
      else obind (iter_next ev es1 it) (fun '(it1, es2) =>
           if iter_cont it1 then Ret (it1 :: t', true, es2)
           else obind (iter_reset ev es2 it1) (fun '(it2, es3) => Ret (it2 :: t', false, es3))))
  end.

(* iterspec.go 214-224: TakeVarSnapshot *)
Fixpoint take_snapshot (c : cfg) (k : nat) (ev : evaluator) (es : estate) (its : list iter) : outcome (list (option ex) * estate) :=
  match its with
  | [] => Ret ([], es)
  | it :: t =>
      obind (match iter_var it with
             | ESym _ => Ret (get_sym_def (es_defs es) (iter_name it), es)
             | v => get_def c k ev es (iter_name it) v
             end) (fun '(o, es1) =>
      obind (take_snapshot c k ev es1 t) (fun '(r, es2) => Ret (o :: r, es2)))
  end.
(* iterspec.go 226-236: RestoreVarSnapshot *)
Fixpoint restore_snapshot (c : cfg) (es : estate) (its : list iter) (snap : list (option ex)) : outcome estate :=
  match its, snap with
  | it :: t, o :: r =>
      obind (match o with
             | Some v => es_define c es (iter_var it) v
             | None => Ret (with_defs es (clear (es_defs es) (iter_name it)))
             end) (fun es1 => restore_snapshot c es1 t r)
  | _, _ => Ret es
  end.
(* iterspec.go 238-242: DefineCurrent *)
Fixpoint define_current (c : cfg) (es : estate) (its : list iter) : outcome estate :=
  match its with
  | [] => Ret es
  | it :: t => obind (es_define c es (iter_var it) (iter_curr it)) (fun es1 => define_current c es1 t)
  end.

(* the loop of Table (builtin_list.go 274-278): for mis.Cont() { define the
   variables; evaluate the body; mis.Next() }.  [each] is what happens to the
   accumulator in one round; its flag leaves the loop early (Do with Return). *)
Fixpoint iter_loop {A} (c : cfg) (fuel : nat) (ev : evaluator) (each : A -> estate -> outcome (A * bool * estate))
    (es : estate) (its : list iter) (go : bool) (acc : A) : outcome (A * bool * estate) :=
  match fuel with
  | O => More
  | S k =>
      if go then
        obind (define_current c es its) (fun es1 =>
        obind (each acc es1) (fun '(acc1, stop, es2) =>
        if stop then Ret (acc1, true, es2)
        else obind (multi_next ev es2 its) (fun '(its1, go1, es3) =>
             iter_loop c k ev each es3 its1 go1 acc1)))
      else Ret (acc, false, es)
  end.
(* builtin_list.go 262-285, builtin_flowcontrol.go 176-207, iterspec.go
   248-272: the common frame.  The variables are restored unless the loop was
   left early. *)
Definition iter_frame {A} (c : cfg) (init : A) (each : evaluator -> ex -> A -> estate -> outcome (A * bool * estate)) (fin : A -> ex)
  : builtin := fun k ev es parts =>
  match parts with
  | _ :: body :: ((_ :: _) as lists) =>
      obind (specs_from_lists ev es lists) (fun '(o, es1) =>
      match o with
      | None => unchanged_this parts es1
      | Some its =>
          obind (take_snapshot c k ev es1 its) (fun '(snap, es2) =>
          obind (iter_loop c k ev (each ev body) es2 its (forallb iter_cont its) init) (fun '(r, stop, es3) =>
          if stop then returning (fin r) parts es3
          else obind (restore_snapshot c es3 its snap) (fun es4 => returning (fin r) parts es4)))
      end)
  | _ => unchanged_this parts es
  end.
(* builtin_list.go 262-285: Table *)
Definition table_fn (c : cfg) : builtin :=
  iter_frame c [] (fun ev body acc es => obind (ev es body) (fun '(r, es1) => Ret (acc ++ [r], false, es1))) mkList.
(* builtin_flowcontrol.go 178-210: Do *)
Definition do_fn (c : cfg) : builtin :=
  iter_frame c sNull (fun ev body _ es => obind (ev es body) (fun '(r, es1) =>
    match es_thrown es1 with
    | Some th => Ret (th, true, es1)
    | None => match return_value r with
              | Some v => Ret (v, true, es1)
              | None => Ret (sNull, false, es1)
              end
    end)) (fun x => x).
(* builtin_arithmetic.go 260-271 and 450-460, iterspec.go 248-272: Sum and
   Product *)
Definition fold_fn (c : cfg) (op : string) (init : ex) : builtin :=
  iter_frame c init (fun ev body acc es => obind (ev es body) (fun '(r, es1) =>
    obind (ev es1 (EExpr [ESym op; acc; r])) (fun '(v, es2) => Ret (v, false, es2)))) (fun x => x).

(* builtin_list.go 573-598: Range *)
Fixpoint range_loop (fuel : nat) (ev : evaluator) (es : estate) (it : iter) (acc : list ex) : outcome (list ex * estate) :=
  match fuel with
  | O => More
  | S k => if iter_cont it then
             obind (iter_next ev es it) (fun '(it1, es1) => range_loop k ev es1 it1 (acc ++ [iter_curr it]))
           else Ret (acc, es)
  end.
Definition range_fn : builtin := fun k ev es parts =>
  obind (spec_from_list ev es (mkList (sys "$DUMMY" :: tl parts))) (fun '(o, es1) =>
  match o with
  | None => unchanged_this parts es1
  | Some it => obind (range_loop k ev es1 it []) (fun '(l, es2) => returning (mkList l) parts es2)
  end).

(* The LegacyEvalFn table (builtin*.go: the Definition records), for the
   builtins modelled here. *)
Definition table (c : cfg) : list (string * builtin) :=
  [ (sysname "And", and_fn); (sysname "Or", or_fn); (sysname "Not", not_fn);
    (sysname "TrueQ", q_fn trueQ); (sysname "BooleanQ", q_fn booleanQ);
    (sysname "NumberQ", q_fn numberQ);
    (sysname "If", if_fn c); (sysname "While", while_fn);
    (sysname "CompoundExpression", compound_fn); (sysname "Which", which_fn);
    (sysname "Switch", switch_fn c); (sysname "With", with_fn c);
    (sysname "Set", set_fn c); (sysname "SetDelayed", set_delayed_fn c);
    (sysname "Clear", clear_fn); (sysname "Throw", throw_fn); (sysname "Catch", catch_fn);
    (sysname "Sow", sow_fn); (sysname "Reap", reap_fn);
    (sysname "ReplaceAll", replace_all_fn c); (sysname "Replace", replace_fn c);
    (sysname "MatchQ", matchq_fn c);
    (sysname "Equal", answer_fn (equal_eval (c_fmt c))); (sysname "Unequal", answer_fn (unequal_eval (c_fmt c)));
    (sysname "SameQ", answer_fn sameq_eval); (sysname "UnsameQ", answer_fn unsameq_eval);
    (sysname "Less", answer_fn (comparison_eval RLess));
    (sysname "Greater", answer_fn (comparison_eval RGreater));
    (sysname "Plus", value_fn plus_eval); (sysname "Times", value_fn times_eval);
    (sysname "Table", table_fn c); (sysname "Do", do_fn c); (sysname "Range", range_fn);
    (sysname "Sum", fold_fn c (sysname "Plus") (EInt 0)); (sysname "Product", fold_fn c (sysname "Times") (EInt 1)) ].
Definition builtin_of (c : cfg) (n : string) : option builtin :=
  match assoc (table c) n with Some b => Some b | None => c_other c n end.

(* -------------------------------------------------------- evaluation loop *)

(* eval.go 117-126: is part i left alone? *)
Definition part_held (a : attrs) (i : nat) : bool :=
  (Nat.eqb i 1 && has_attr a aHoldFirst) || (Nat.ltb 1 i && has_attr a aHoldRest)
  || has_attr a aHoldAll || has_attr a aHoldAllComplete.

(* eval.go 117-161: the loop over the parts; inl: the pending exception *)
Fixpoint eval_parts (ev : evaluator) (a : attrs) (i : nat) (es : estate) (l : list ex) : outcome ((ex + list ex) * estate) :=
  match l with
  | [] => Ret (inr [], es)
  | p :: t =>
      let rest p' es1 :=
        obind (eval_parts ev a (S i) es1 t) (fun '(o, es2) =>
        Ret (match o with inr r => inr (p' :: r) | inl th => inl th end, es2)) in
      if part_held a i then rest p es
      else obind (ev es p) (fun '(r, es1) =>
           match es_thrown es1 with
           | Some th => Ret (inl th, es1)
           | None => rest r es1
           end)
  end.

(* eval.go 358-397: mergeSequences without evaluation *)
Definition merge_seq (h : string) (l : list ex) : list ex :=
  flat_map (fun p => match args_of p h with Some s => s | None => [p] end) l.

(* eval.go 358-397: mergeSequences with shouldEval *)
Fixpoint merge_eval (ev : evaluator) (es : estate) (h : string) (l : list ex) : outcome (list ex * estate) :=
  match l with
  | [] => Ret ([], es)
  | p :: t =>
      obind (match args_of p h with Some s => eval_all ev es s | None => Ret ([p], es) end) (fun '(r, es1) =>
      obind (merge_eval ev es1 h t) (fun '(rs, es2) => Ret (r ++ rs, es2)))
  end.

(* builtin_list.go 195-237: threadExpr; None: not changed *)
Definition list_lengths (args : list ex) : list nat :=
  flat_map (fun p => match args_of p nList with Some l => [length l] | None => [] end) args.
Definition thread_expr (h : ex) (args : list ex) : option ex :=
  match list_lengths args with
  | [] => None
  | n :: ls =>
      if forallb (Nat.eqb n) ls then
        Some (mkList (map (fun i => EExpr (h :: map (fun p => match args_of p nList with
                                                              | Some l => nth i l sNull | None => p end) args))
                          (seq 0 n)))
      else None
  end.

(* ex_expression.go 68-94: PropagateConditionals; None: not changed *)
Definition cond_expr (e : ex) : option (ex * ex) :=
  match args_of e (sysname "ConditionalExpression") with Some [v; c] => Some (v, c) | _ => None end.
Definition propagate_conditionals (parts : list ex) : option ex :=
  match parts with
  | h :: args =>
      if existsb (fun e => match cond_expr e with Some _ => true | None => false end) args then
        Some (EExpr [sys "ConditionalExpression";
          EExpr (h :: map (fun e => match cond_expr e with Some (v, _) => v | None => e end) args);
          EExpr (sys "And" :: flat_map (fun e => match cond_expr e with Some (_, c) => [c] | None => [] end) args)])
      else None
  | [] => None
  end.

(* eval.go 399-438: evalFunction on the parts of Function[...] and the
   arguments.  Function[x, body][] reads args[0] and panics. *)
Fixpoint subst_slots (env : menv) (i : Z) (args : list ex) (body : ex) : ex :=
  match args with
  | [] => body
  | a :: t => subst_slots env (i + 1)%Z t
                (replace_all env (EExpr [sys "Slot"; EInt i]) a (sysname "Function") body)
  end.
Definition eval_function (env : menv) (f : list ex) (args : list ex) : outcome ex :=
  match f with
  | [_; body] => Ret (subst_slots env 1%Z args body)
  | [_; ESym x; body] =>
      match args with
      | a :: _ => Ret (replace_all env (ESym x) a (sysname "Function") body)
      | [] => Crash
      end
  | _ => Ret (EExpr f)
  end.

(* eval.go 163-206: after the parts have been evaluated: Sequence, Evaluate,
   Unevaluated; then Flat and Orderless.  The first component are the parts
   held by currEx, the second those held by curr: after a Flat merge currEx
   still is the unmerged expression (eval.go 190-201), while the in-place sort
   is visible in both if nothing was merged. *)
Definition splice (a : attrs) (headsym : bool) (ev : evaluator) (es : estate) (l : list ex) : outcome (list ex * estate) :=
  let l1 := if headsym && (has_attr a aSequenceHold || has_attr a aHoldAllComplete)
            then l else merge_seq (sysname "Sequence") l in
  obind (if has_attr a aHoldAllComplete then Ret (l1, es) else merge_eval ev es (sysname "Evaluate") l1)
        (fun '(l2, es2) => Ret (merge_seq (sysname "Unevaluated") l2, es2)).
Definition sort_parts (l : list ex) : list ex := parts_of (sort_expr (EExpr l)).
Definition flat_sort (a : attrs) (h : string) (l : list ex) : list ex * list ex :=
  let merged := has_attr a aFlat && existsb (fun p => has_head p h) l in
  let l1 := if has_attr a aFlat then merge_seq h l else l in
  let l2 := if has_attr a aOrderless then sort_parts l1 else l1 in
  (if merged then l else l2, l2).

(* eval.go 208-240: the LegacyEvalFn, if any, then the rules.  The third
   component says whether a rule was applied. *)
Definition apply_head (c : cfg) (k : nat) (ev : evaluator) (es : estate) (h : string) (curr_ex curr : list ex)
  : outcome (ex * bool * estate) :=
  obind (match lookup (es_defs es) h with
         | Some d =>
             match (if d_builtin d then builtin_of c h else None) with
             | Some f => obind (f k ev es curr) (fun '(r, this, es1) => Ret (r, EExpr this, is_sameq r (EExpr this), es1))
             | None => Ret (EExpr curr_ex, EExpr curr, true, es)
             end
         | None => Ret (EExpr curr_ex, EExpr curr, true, es)
         end) (fun '(r, this, unchanged, es1) =>
  if unchanged then
    obind (get_def c k ev es1 h this) (fun '(o, es2) =>
    match o with Some v => Ret (v, true, es2) | None => Ret (r, false, es2) end)
  else Ret (r, false, es1)).

(* eval.go 101-252: one pass over a compound expression; inl: the value to
   return, inr: the next expression, whether a rule was applied *)
Definition pass (c : cfg) (k : nat) (ev : evaluator) (es : estate) (parts : list ex)
  : outcome ((ex + (ex * bool)) * estate) :=
  let hs := match parts with ESym s :: _ => Some s | _ => None end in
  let a := match hs with Some s => sym_attrs es s | None => no_attrs end in
  match (if has_attr a aNumericFunction then propagate_conditionals parts else None) with
  | Some e => obind (ev es e) (fun '(r, es1) => Ret (inl r, es1))
  | None =>
      obind (eval_parts ev a 0 es parts) (fun '(o, es1) =>
      match o with
      | inl th => Ret (inl th, es1)
      | inr l =>
          obind (splice a (match hs with Some _ => true | None => false end) ev es1 l) (fun '(l2, es2) =>
          match l2 with
          | [] => Crash
          | h2 :: args2 =>
              match hs with
              | Some s =>
                  let '(cur_ex, cur) := flat_sort a s l2 in
                  match (if has_attr a aListable then thread_expr (hd sNull cur) (tl cur) else None) with
                  | Some t => Ret (inr (t, false), es2)
                  | None =>
                      let cur_ex := if has_attr a aListable then cur else cur_ex in
                      obind (apply_head c k ev es2 s cur_ex cur) (fun '(r, b, es3) => Ret (inr (r, b), es3))
                  end
              | None =>
                  match args_of h2 (sysname "Function") with
                  | Some fa => obind (eval_function (env_of c es2) (sys "Function" :: fa) args2)
                                     (fun r => Ret (inr (r, false), es2))
                  | None => Ret (inr (EExpr l2, false), es2)
                  end
              end
          end)
      end)
  end.

(* eval.go 20-35 (Eval, with the dispatch on the kind of expression), 37-45
   (evalComplex), 47-268 (evalExpression), 270-310 (evalRational), 312-333
   (evalSymbol).  m = None: a call of Eval; m = Some (last, inside): an
   iteration of the loop of evalExpression. *)
Fixpoint run (c : cfg) (n : nat) (m : option (N * bool)) (es : estate) (e : ex) : outcome (ex * estate) :=
  match n with
  | O => More
  | S k =>
      let ev := run c k None in
      match m with
      | None =>
          match e with
          | EExpr _ => run c k (Some (0%N, false)) es e
          | ECplx re im =>
              obind (ev es re) (fun '(r, es1) =>
              obind (ev es1 im) (fun '(i, es2) =>
              Ret (if is_sameq i (EInt 0) then r else ECplx r i, es2)))
          | ERat p q => Ret (eval_rational p q, es)
          | ESym s =>
              match get_sym_def (es_defs es) s with
              | Some d =>
                  if match d with ESym s' => String.eqb s' s | _ => false end then Ret (d, es)
                  else obind (ev es d) (fun '(r, es1) =>
                       Ret (match return_value r with Some v => v | None => r end, es1))
              | None => Ret (e, es)
              end
          | _ => Ret (e, es)
          end
      | Some (last, inside) =>
          if N.eqb (hash e) last then Ret (e, es)
          else
            match e with
            | EExpr parts =>
                match (if inside then return_value e else None) with
                | Some v => Ret (v, es)
                | None =>
                    obind (pass c k ev es parts) (fun '(o, es1) =>
                    match o with
                    | inl v => Ret (v, es1)
                    | inr (e', b) => run c k (Some (hash e, inside || b)) es1 e'
                    end)
                end
            | _ => ev es e
            end
      end
  end.

(* eval.go 20: Eval *)
Definition eval (c : cfg) (n : nat) : evaluator := run c n None.
