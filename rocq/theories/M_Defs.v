(* Definition store of the evaluator: rules, specificity, attributes, Clear,
   Module variables, input history.
   Models /repo/expreduce/evalstate.go, definition_map.go, builtin_system.go,
   atoms/ex_symbol.go and pkg/expreduceapi/cas.go. *)
From Verif Require Import M_Syntax M_Float M_Hash M_Match.
From Coq Require Import DecimalString DecimalZ.
Open Scope nat_scope.

(* pkg/expreduceapi/cas.go 120-123: DownValue{Rule, Specificity}.  Rule is
   always Rule[lhs, rhs]; Specificity 0 means "not computed yet". *)
Record dval : Type := DVal { dv_lhs : ex; dv_rhs : ex; dv_spec : Z }.

(* pkg/expreduceapi/cas.go 135-155: the struct of 19 attribute flags, kept as
   the list of its fields in declaration order. *)
Definition attrs : Type := list bool.
Definition no_attrs : attrs := repeat false 19.

(* pkg/expreduceapi/cas.go 126-133: Def.  LegacyEvalFn is a Go function; only
   its presence is kept. *)
Record def : Type := Def {
  d_dvs : list dval; d_attrs : attrs; d_default : option ex; d_builtin : bool }.
Definition def0 : def := Def [] no_attrs None false.

(* evalstate.go 29-60 (the fields defined and freeze) and definition_map.go
   8-17: the concurrent map as an association list with unique keys. *)
Record state : Type := State { st_defs : list (string * def); st_frozen : bool }.

(* definition_map.go 22-28: Get *)
Fixpoint assoc {A} (l : list (string * A)) (n : string) : option A :=
  match l with
  | [] => None
  | (k, v) :: t => if String.eqb k n then Some v else assoc t n
  end.
Definition lookup (st : state) (n : string) : option def := assoc (st_defs st) n.

(* definition_map.go 18-20: Set *)
Fixpoint assoc_set {A} (l : list (string * A)) (n : string) (v : A) : list (string * A) :=
  match l with
  | [] => [(n, v)]
  | (k, w) :: t => if String.eqb k n then (k, v) :: t else (k, w) :: assoc_set t n v
  end.
Definition set_def (st : state) (n : string) (d : def) : state :=
  State (assoc_set (st_defs st) n d) (st_frozen st).

(* evalstate.go 300-303: IsDef *)
Definition is_def (st : state) (n : string) : bool :=
  match lookup st n with Some _ => true | None => false end.

(* evalstate.go 525: heldLHS := E(S("HoldPattern"), lhs) *)
Definition held (lhs : ex) : ex := EExpr [sys "HoldPattern"; lhs].

(* evalstate.go 732-762: maskNonConditional.  The Go code panics on
   Condition[] and Condition[x]; the model uses Null for the missing parts. *)
Fixpoint mask_non_conditional (e : ex) : ex :=
  match e with
  | EExpr (ESym h :: args) =>
      if String.eqb h (sysname "Condition") then
        EExpr [sys "Condition";
               match args with x :: _ => mask_non_conditional x | [] => sNull end;
               nth 1 args sNull]
      else if String.eqb h (sysname "With") || String.eqb h (sysname "Module") then
        match args with
        | [x; body] =>
            if has_head body (sysname "Condition")
            then EExpr [ESym h; x; mask_non_conditional body]
            else sys "ExpreduceNonConditional"
        | _ => sys "ExpreduceNonConditional"
        end
      else sys "ExpreduceNonConditional"
  | _ => sys "ExpreduceNonConditional"
  end.

(* evalstate.go 440-446: the special case of a single integer argument; [lhs]
   is the held left-hand side (the code looks at its part 1). *)
Definition single_int_arg (lhs : ex) : bool :=
  match lhs with
  | EExpr (_ :: EExpr [_; EInt _] :: _) => true
  | _ => false
  end.

(* evalstate.go 431-469: ruleSpecificity.  [fl] is the length of the InputForm
   of the left-hand side (StringForm), a parameter of the model. *)
Definition rule_specificity (fl : ex -> Z) (lhs rhs : ex) (name : string) : Z :=
  if String.eqb name "Rubi`Int" then 100%Z
  else if single_int_arg lhs then 110%Z
  else if has_head rhs (sysname "Condition") then 100%Z
  else fl lhs.

(* evalstate.go 562-570: the specificity used for an existing rule.  The loop
   variable dv is a copy, so the computed value is not stored. *)
Definition eff_spec (fl : ex -> Z) (name : string) (d : dval) : Z :=
  if (dv_spec d =? 0)%Z then rule_specificity fl (dv_lhs d) (dv_rhs d) name else dv_spec d.

(* evalstate.go 541-555: the two IsSameQ tests of the overwrite loop *)
Definition same_rule (hlhs rhs : ex) (d : dval) : bool :=
  is_sameq (dv_lhs d) hlhs &&
  is_sameq (mask_non_conditional (dv_rhs d)) (mask_non_conditional rhs).

(* evalstate.go 540-555: overwrite the first identical rule in place *)
Fixpoint overwrite (hlhs rhs : ex) (l : list dval) : option (list dval) :=
  match l with
  | [] => None
  | d :: t =>
      if same_rule hlhs rhs d then Some (DVal (dv_lhs d) rhs (dv_spec d) :: t)
      else option_map (cons d) (overwrite hlhs rhs t)
  end.

(* evalstate.go 557-599: insert before the first less specific rule (storing
   the specificity), else append (with Specificity 0) *)
Fixpoint insert_rule (fl : ex -> Z) (name : string) (hlhs rhs : ex) (l : list dval) : list dval :=
  match l with
  | [] => [DVal hlhs rhs 0]
  | d :: t =>
      if (eff_spec fl name d <? rule_specificity fl hlhs rhs name)%Z
      then DVal hlhs rhs (rule_specificity fl hlhs rhs name) :: d :: t
      else d :: insert_rule fl name hlhs rhs t
  end.

(* evalstate.go 540-599 *)
Definition define_rule (fl : ex -> Z) (name : string) (hlhs rhs : ex) (l : list dval) : list dval :=
  match overwrite hlhs rhs l with
  | Some l' => l'
  | None => insert_rule fl name hlhs rhs l
  end.

(* evalstate.go 475-522: which symbol a left-hand side defines.  None is the
   log.Fatalf of line 521, which ends the process. *)
Definition verbatim_op_name (lhs : ex) : option string :=
  match lhs with
  | EExpr (EExpr (ESym v :: ESym s :: _) :: _) =>
      if String.eqb v (sysname "Verbatim") then Some s else None
  | _ => None
  end.
Definition lhs_name (lhs : ex) : option string :=
  match lhs with
  | ESym s => if String.eqb s "" then None else Some s
  | EExpr (ESym s :: _) => if String.eqb s "" then None else Some s
  | _ => match verbatim_op_name lhs with
         | Some s => if String.eqb s "" then None else Some s
         | None => None
         end
  end.

(* atoms/ex_symbol.go 110-172: StringsToAttributes, the table of its 19 tests
   (name, field) *)
Definition str_to_field : list (string * nat) :=
  [("Orderless",0); ("Flat",1); ("OneIdentity",2); ("Listable",3); ("Constant",4);
   ("NumericFunction",5); ("Protected",6); ("Locked",7); ("ReadProtected",8);
   ("HoldFirst",9); ("HoldRest",10); ("HoldAll",11); ("HoldAllComplete",12);
   ("NHoldFirst",13); ("NHoldRest",14); ("NHoldAll",15); ("SequenceHold",16);
   ("Temporary",17); ("Stub",18)]%string.
Fixpoint set_nth (l : list bool) (i : nat) : list bool :=
  match l, i with
  | [], _ => []
  | _ :: t, O => true :: t
  | b :: t, S j => b :: set_nth t j
  end.
Definition strings_to_attributes (ss : list string) : attrs :=
  fold_left (fun a s => fold_left (fun a '(n, i) => if String.eqb s n then set_nth a i else a) str_to_field a)
            ss no_attrs.

(* atoms/ex_symbol.go 174-236: AttrsToStrings, the table of its 19 tests *)
Definition field_to_str : list (nat * string) :=
  [(0,"Orderless"); (1,"Flat"); (2,"OneIdentity"); (3,"Listable"); (4,"Constant");
   (5,"NumericFunction"); (6,"Protected"); (7,"Locked"); (8,"ReadProtected");
   (9,"HoldFirst"); (10,"HoldRest"); (11,"HoldAll"); (12,"HoldAllComplete");
   (13,"NHoldFirst"); (14,"NHoldRest"); (15,"NHoldAll"); (16,"SequenceHold");
   (17,"Temporary"); (18,"Stub")]%string.
(* sort.Strings (byte order); any sorting algorithm gives this result *)
Fixpoint str_insert (s : string) (l : list string) : list string :=
  match l with
  | [] => [s]
  | t :: r => if String.leb s t then s :: l else t :: str_insert s r
  end.
Definition sort_strings (l : list string) : list string := fold_right str_insert [] l.
Definition attrs_to_strings (a : attrs) : list string :=
  sort_strings (flat_map (fun '(i, n) => if nth i a false then [n] else []) field_to_str).

(* atoms/ex_symbol.go 238-246: AttrsToSymList; builtin_system.go 361-379: the
   builtin Attributes[s] *)
Definition attrs_to_sym_list (a : attrs) : ex := mkList (map sys (attrs_to_strings a)).
Definition attributes_eval (st : state) (s : string) : ex :=
  match lookup st s with Some d => attrs_to_sym_list (d_attrs d) | None => mkList [] end.

(* evalstate.go 368-391: defineAttrs.  Symbols outside System` are skipped, a
   non-symbol element abandons the assignment. *)
Definition drop_sys (s : string) : option string :=
  if String.prefix "System`" s then Some (substring 7 (String.length s - 7) s) else None.
Fixpoint attr_strings (l : list ex) : option (list string) :=
  match l with
  | [] => Some []
  | ESym s :: t =>
      match attr_strings t with
      | Some r => Some (match drop_sys s with Some x => x :: r | None => r end)
      | None => None
      end
  | _ => None
  end.
Definition define_attrs (st : state) (s : string) (rhs : ex) : state :=
  match head_assertion rhs nList with
  | Some (_ :: args) =>
      match attr_strings args with
      | Some ss =>
          let d := match lookup st s with Some d => d | None => def0 end in
          set_def st s (Def (d_dvs d) (strings_to_attributes ss) (d_default d) (d_builtin d))
      | None => st
      end
  | _ => st
  end.

(* evalstate.go 393-418: defineDownValues.  An element that is not a rule makes
   the Go code print a message and then store a nil rule; the model keeps only
   lists whose elements are all rules and ignores the others. *)
Definition as_rule (e : ex) : option dval :=
  match e with
  | EExpr [ESym h; l; r] =>
      if String.eqb h (sysname "Rule") || String.eqb h (sysname "RuleDelayed")
      then Some (DVal l r 0) else None
  | _ => None
  end.
Fixpoint as_rules (l : list ex) : option (list dval) :=
  match l with
  | [] => Some []
  | e :: t => match as_rule e, as_rules t with Some d, Some r => Some (d :: r) | _, _ => None end
  end.
Definition define_down_values (st : state) (s : string) (rhs : ex) : state :=
  match head_assertion rhs nList with
  | Some (_ :: args) =>
      match as_rules args with
      | Some dvs =>
          let d := match lookup st s with Some d => d | None => def0 end in
          set_def st s (Def dvs (d_attrs d) (d_default d) (d_builtin d))
      | None => st
      end
  | _ => st
  end.

(* evalstate.go 471-599: Define.  None is the process abort of line 521. *)
Definition define (fl : ex -> Z) (st : state) (lhs rhs : ex) : option state :=
  if st_frozen st then Some st
  else
    match lhs with
    | EExpr (ESym h :: args) =>
        if String.eqb h (sysname "Attributes") then
          match args with [ESym s] => Some (define_attrs st s rhs) | _ => Some st end
        else if String.eqb h (sysname "DownValues") then
          match args with [ESym s] => Some (define_down_values st s rhs) | _ => Some st end
        else if String.eqb h "" then None
        else Some (set_def st h
          match lookup st h with
          | None => Def [DVal (held lhs) rhs 0] no_attrs None false
          | Some d => Def (define_rule fl h (held lhs) rhs (d_dvs d)) (d_attrs d) (d_default d) (d_builtin d)
          end)
    | _ =>
        match lhs_name lhs with
        | None => None
        | Some h => Some (set_def st h
          match lookup st h with
          | None => Def [DVal (held lhs) rhs 0] no_attrs None false
          | Some d => Def (define_rule fl h (held lhs) rhs (d_dvs d)) (d_attrs d) (d_default d) (d_builtin d)
          end)
        end
    end.

(* evalstate.go 420-428: MarkSeen *)
Definition mark_seen (st : state) (n : string) : state :=
  match lookup st n with Some _ => st | None => set_def st n def0 end.

(* evalstate.go 605-611: Clear; builtin_system.go 401-412: Clear[...] *)
Definition clear (st : state) (n : string) : state :=
  match lookup st n with Some _ => set_def st n def0 | None => st end.
Definition clear_eval (st : state) (args : list ex) : state :=
  fold_left (fun st a => match a with ESym s => clear st s | _ => st end) args st.

(* evalstate.go 309-326 (GetDef for a symbol) and 362-366 (GetSymDef): the
   right-hand side of the first rule whose left-hand side is
   HoldPattern[symbol]; its condition is not tested. *)
Definition is_sym_rule (d : dval) : bool :=
  match head_assertion (dv_lhs d) (sysname "HoldPattern") with
  | Some [_; ESym _] => true
  | _ => false
  end.
Definition get_sym_def (st : state) (n : string) : option ex :=
  match lookup st n with
  | None => None
  | Some d => match find is_sym_rule (d_dvs d) with Some r => Some (dv_rhs r) | None => None end
  end.

(* evalstate.go 328-360: GetDef for an expression: the first rule that applies,
   in stored order.  [apply] stands for replace(lhs, rule, es). *)
Fixpoint first_rule (apply : dval -> option ex) (l : list dval) : option ex :=
  match l with
  | [] => None
  | d :: t => match apply d with Some r => Some r | None => first_rule apply t end
  end.
Definition get_expr_def (apply : dval -> option ex) (st : state) (n : string) : option ex :=
  match lookup st n with None => None | Some d => first_rule apply (d_dvs d) end.

(* eval.go 312-333: evalSymbol, one step: what the symbol is replaced with
   (the result is then evaluated again). *)
Definition eval_symbol_step (st : state) (n : string) : ex :=
  match get_sym_def st n with Some r => r | None => ESym n end.

(* definition_map.go 52-67: CopyDefs (attributes, default and builtin function
   are not copied) *)
Definition copy_defs (l : list (string * def)) : list (string * def) :=
  map (fun '(k, d) => (k, Def (d_dvs d) no_attrs None false)) l.

(* builtin_system.go 443-474: DownValues[s] lists the rules whose left-hand
   side is an expression *)
Definition down_values_eval (st : state) (s : string) : ex :=
  match lookup st s with
  | None => mkList []
  | Some d => mkList (flat_map (fun r =>
      match dv_lhs r with
      | EExpr (_ :: EExpr _ :: _) => [EExpr [sys "RuleDelayed"; dv_lhs r; dv_rhs r]]
      | _ => []
      end) (d_dvs d))
  end.

(* fmt.Sprintf("%v", mn) for an integer *)
Definition dec (z : Z) : string := NilZero.string_of_int (Z.to_int z).

Definition nModuleNumber := sysname "$ModuleNumber".

(* builtin_system.go 167-178: the search loop of snagUnique.  [fuel] bounds the
   number of iterations (None = still searching; shown never to happen for
   enough fuel).  Simplification: mn does not wrap around at 2^63. *)
Fixpoint snag_loop (fuel : nat) (st : state) (base : string) (mn : Z) : option Z :=
  match fuel with
  | O => None
  | S k => if is_def st (append base (append "$" (dec mn))) then snag_loop k st base (mn + 1)
           else Some mn
  end.

(* builtin_system.go 152-179: snagUnique.  The outer option is the fuel, the
   inner result None is the "not ok" return. *)
Definition snag_unique (fl : ex -> Z) (fuel : nat) (st : state) (base : string) : option (option (string * state)) :=
  match get_sym_def st nModuleNumber with
  | Some (EInt z) =>
      match snag_loop fuel st base (wrap64 z) with
      | None => None
      | Some mn =>
          match define fl st (ESym nModuleNumber) (EInt (mn + 1)) with
          | Some st' => Some (Some (append base (append "$" (dec mn)), st'))
          | None => Some None
          end
      end
  | _ => Some None
  end.

(* builtin_system.go 197-230: a local of Module: x, x = v or x := v *)
Inductive mlocal :=
| LPlain (s : string) | LSet (s : string) (v : ex) | LDelayed (s : string) (v : ex).
Definition local_sym (l : mlocal) : string :=
  match l with LPlain s | LSet s _ | LDelayed s _ => s end.

(* builtin_system.go 232-238: snag one name per local.  None: out of fuel;
   Some None: log.Fatal of line 235. *)
Fixpoint snag_all (fl : ex -> Z) (fuel : nat) (st : state) (ls : list mlocal) : option (option (list string * state)) :=
  match ls with
  | [] => Some (Some ([], st))
  | l :: t =>
      match snag_unique fl fuel st (local_sym l) with
      | None => None
      | Some None => Some None
      | Some (Some (u, st')) =>
          match snag_all fl fuel st' t with
          | None => None
          | Some None => Some None
          | Some (Some (us, st'')) => Some (Some (u :: us, st''))
          end
      end
  end.

(* builtin_system.go 239-262: evaluate the initialisers and store the locals.
   [ev] is es.Eval, which may change the state arbitrarily. *)
Fixpoint init_locals (ev : state -> ex -> ex * state) (st : state) (ls : list (mlocal * string)) : state :=
  match ls with
  | [] => st
  | (l, u) :: t =>
      let '(d, st1) :=
        match l with
        | LPlain _ => (def0, st)
        | LSet _ v => let '(r, st1) := ev st v in (Def [DVal (held (ESym u)) r 0] no_attrs None false, st1)
        | LDelayed _ v => (Def [DVal (held (ESym u)) v 0] no_attrs None false, st)
        end in
      init_locals ev (set_def st1 u d) t
  end.

(* builtin_system.go 181-265: applyModuleFn on parsed locals and the body *)
Definition module_eval (fl : ex -> Z) (ev : state -> ex -> ex * state) (fuel : nat) (st : state)
  (ls : list mlocal) (body : ex) : option (option (list string * ex * state)) :=
  match snag_all fl fuel st ls with
  | None => None
  | Some None => Some None
  | Some (Some (us, st1)) =>
      let st2 := init_locals ev st1 (combine ls us) in
      let pm := fold_left (fun pm '(l, u) => pd_set pm (local_sym l) (ESym u)) (combine ls us) [] in
      Some (Some (us, replace_pd_go pm body, st2))
  end.

(* evalstate.go 719-728: the bookkeeping of ProcessTopLevelResult: In[k] := in;
   Out[k] = res; $Line++ (resources/arithmetic.m 281: Increment[a_] := (a = a +
   1; a - 1)).  Simplification: the re-evaluation of the already evaluated
   result by Set and the $PrePrint hook are not modelled; [line] is the current
   value of $Line. *)
Definition nLine := sysname "$Line".
Definition hist_lhs (h : string) (k : Z) : ex := EExpr [sys h; EInt k].
Definition bind_st {A B} (o : option A) (f : A -> option B) : option B :=
  match o with Some a => f a | None => None end.
Definition process_top_level (fl : ex -> Z) (st : state) (inp out : ex) : option state :=
  match get_sym_def st nLine with
  | Some (EInt k) =>
      bind_st (define fl st (hist_lhs "In" k) inp) (fun st1 =>
      bind_st (define fl st1 (hist_lhs "Out" k) out) (fun st2 =>
      define fl st2 (ESym nLine) (EInt (k + 1))))
  | _ => Some st
  end.
