(* Functional programming: Map, Apply, MapIndexed and Count with level
   specifications, FoldList, NestList, Array.
   builtin_functional.go; builtin_list.go 239-250, 807-815.
   A builtin is a function from the arguments to the new expression; None: the
   call is returned unchanged.  Simplification for the whole file: on an
   Expression without parts the Go code panics; here it is left alone. *)
From Verif Require Import M_Syntax M_Float M_Hash M_Compare M_Match.
Open Scope Z_scope.

(* builtin_functional.go 64-70: levelSpec; only valid ones are represented *)
Record lspec : Type := LS { ls_mind : bool; ls_maxd : bool; ls_min : Z; ls_max : Z }.

(* builtin_functional.go 76-87 *)
Definition check_level (sp : lspec) (level : Z) : bool :=
  match ls_mind sp, ls_maxd sp with
  | false, false => (ls_min sp <=? level) && (level <=? ls_max sp)
  | false, true => ls_min sp <=? level
  | true, false => level <=? ls_max sp
  | true, true => true
  end.
(* builtin_functional.go 89-100 *)
Definition check_depth (sp : lspec) (depth : Z) : bool :=
  match ls_mind sp, ls_maxd sp with
  | true, true => (depth <=? ls_min sp) && (ls_max sp <=? depth)
  | true, false => depth <=? ls_min sp
  | false, true => ls_max sp <=? depth
  | false, false => true
  end.

(* builtin_functional.go 14-20 *)
Definition parse_integer (e : ex) : option Z := match e with EInt z => Some (wrap64 z) | _ => None end.
(* builtin_functional.go 34-45 *)
Definition parse_infinity (e : ex) : bool := match e with ESym s => String.eqb s (sysname "Infinity") | _ => false end.
(* builtin_functional.go 47-62.  The template contains no machine real, so the
   text of reals that IsEqual compares is never consulted. *)
Definition parse_neg_infinity (e : ex) : bool :=
  match e with
  | EExpr _ => match is_equal (fun _ => ""%string) e (EExpr [sys "Times"; EInt (-1); sys "Infinity"]) with
               | EqTrue => true | _ => false end
  | _ => false
  end.

(* builtin_functional.go 115-116 *)
Definition lvl_inf : Z := 2 ^ 31 - 1.
Definition lvl_ninf : Z := - 2 ^ 31.
(* -integer on int64 *)
Definition neg64 (z : Z) : Z := wrap64 (- z).

(* builtin_functional.go 172-199: an element of a two-element list *)
Definition level_bound (e : ex) : option Z :=
  if parse_neg_infinity e then Some lvl_ninf
  else if parse_infinity e then Some lvl_inf
  else parse_integer e.

(* builtin_functional.go 104-217: parseLevelSpec; None: not valid.
   HeadExAssertion compares the head with List by IsSameQ. *)
Definition parse_level_spec (e : ex) : option lspec :=
  match parse_integer e with
  | Some z => if z <? 0 then Some (LS false true 1 (neg64 z)) else Some (LS false false 1 z)
  | None =>
      if parse_infinity e then Some (LS false false 1 lvl_inf)
      else if parse_neg_infinity e then Some (LS false true 1 lvl_inf)
      else match args_of e nList with
           | Some [x] =>
               match parse_integer x with
               | Some z => if z <? 0 then Some (LS true true (neg64 z) (neg64 z)) else Some (LS false false z z)
               | None => if parse_infinity x then Some (LS false false lvl_inf lvl_inf)
                         else if parse_neg_infinity x then Some (LS true true lvl_inf lvl_inf)
                         else None
               end
           | Some [x; y] =>
               match level_bound x, level_bound y with
               | Some a, Some b =>
                   Some (LS (a <? 0) (b <? 0) (if a <? 0 then neg64 a else a) (if b <? 0 then neg64 b else b))
               | _, _ => None
               end
           | _ => None
           end
  end.

Section Walk.
  (* the function f of the Go code: (expr, partList, *generated) -> new
     expression; A is the type of *generated *)
  Context {A : Type}.
  Variable cb : ex -> list Z -> A -> ex * A.
  Variable sp : lspec.

  (* builtin_functional.go 221-271: expressionWalkMap *)
  Fixpoint walk (path : list Z) (e : ex) (s : A) {struct e} : ex * A :=
    match e with
    | EExpr (h :: args) =>
        let '(l, s') :=
          (fix go (i : Z) (args : list ex) (s : A) : list ex * A :=
             match args with
             | [] => ([], s)
             | x :: t =>
                 let p := path ++ [i] in
                 let level := Z.of_nat (length p) in
                 let '(x1, s1) := match x with
                                  | EExpr _ => if level <? ls_max sp then walk p x s else (x, s)
                                  | _ => (x, s)
                                  end in
                 let '(x2, s2) := if ls_min sp <=? level then cb x1 p s1 else (x1, s1) in
                 let '(t', s3) := go (i + 1) t s2 in
                 (x2 :: t', s3)
             end) 1 args s in
        (EExpr (h :: l), s')
    | _ => (e, s)
    end.

  (* builtin_functional.go 273-334: expressionWalkMapBackwards; the second
     component is the depth *)
  Fixpoint walk_back (path : list Z) (e : ex) (s : A) {struct e} : ex * Z * A :=
    match e with
    | EExpr (h :: args) =>
        let '(l, d, s') :=
          (fix go (i : Z) (args : list ex) (d : Z) (s : A) : list ex * Z * A :=
             match args with
             | [] => ([], d, s)
             | x :: t =>
                 let p := path ++ [i] in
                 let level := Z.of_nat (length p) in
                 let '(x2, d1, s2) :=
                   match x with
                   | EExpr _ =>
                       let '(x1, dx, s1) := walk_back p x s in
                       let d1 := Z.max d dx in
                       if check_level sp level && check_depth sp dx
                       then let '(x2, s2) := cb x1 p s1 in (x2, d1, s2) else (x1, d1, s1)
                   | _ =>
                       if check_level sp (level + 1) && check_depth sp 1
                       then let '(x2, s2) := cb x p s in (x2, d, s2) else (x, d, s)
                   end in
                 let '(t', d', s3) := go (i + 1) t d1 s2 in
                 (x2 :: t', d', s3)
             end) 1 args 1 s in
        (EExpr (h :: l), d + 1, s')
    | EExpr [] => (e, 2, s)
    | _ => (e, 1, s)
    end.

  (* builtin_functional.go 435-516: the leveled expression and a valid
     specification *)
  Definition level_apply (e : ex) (s : A) : ex * A :=
    match e with
    | EExpr _ =>
        if (ls_min sp =? 0) && (ls_max sp =? 0) then cb e [] s
        else if negb (ls_mind sp) && negb (ls_maxd sp) then
          let '(e1, s1) := walk [] e s in
          if check_level sp 0 && check_depth sp 0 then cb e1 [] s1 else (e1, s1)
        else
          let '(e1, d, s1) := walk_back [] e s in
          if check_level sp 0 && check_depth sp d then cb e1 [] s1 else (e1, s1)
    | _ => if check_level sp 0 && check_depth sp 0 then cb e [] s else (e, s)
    end.
End Walk.

(* builtin_functional.go 337-345: wrapWithHead *)
Definition wrap_with_head (f : ex) (x : ex) (_ : list Z) (s : unit) : ex * unit := (EExpr [f; x], s).
(* builtin_functional.go 347-360: wrapWithHeadIndexed *)
Definition wrap_indexed (f : ex) (x : ex) (p : list Z) (s : unit) : ex * unit :=
  (EExpr [f; x; mkList (map EInt p)], s).
(* builtin_functional.go 362-376: applyHead *)
Definition apply_head_cb (f : ex) (x : ex) (_ : list Z) (s : unit) : ex * unit :=
  (match x with EExpr (_ :: args) => EExpr (f :: args) | _ => x end, s).
(* builtin_list.go 239-250: countFunctionLevelSpec.  *generated is an int64;
   the model does not wrap it. *)
Definition count_cb (env : menv) (pat : ex) (x : ex) (_ : list Z) (n : Z) : ex * Z :=
  (x, if matchq_eval env x pat then n + 1 else n).

(* builtin_functional.go 397-435 with mapOptimizedSimpleLevelSpec: two arguments *)
Definition map_two (f e : ex) : ex :=
  match e with EExpr (h :: args) => EExpr (h :: map (fun x => EExpr [f; x]) args) | _ => e end.

(* builtin_functional.go 538-547: Map *)
Definition map_eval (args : list ex) : option ex :=
  match args with
  | [f; e] => Some (map_two f e)
  | [f; e; sp] => match parse_level_spec sp with
                  | Some sp => Some (fst (level_apply (wrap_with_head f) sp e tt))
                  | None => None
                  end
  | _ => None
  end.
(* builtin_functional.go 549-557: MapIndexed (with the two-argument code of Map) *)
Definition map_indexed_eval (args : list ex) : option ex :=
  match args with
  | [f; e] => Some (map_two f e)
  | [f; e; sp] => match parse_level_spec sp with
                  | Some sp => Some (fst (level_apply (wrap_indexed f) sp e tt))
                  | None => None
                  end
  | _ => None
  end.
(* builtin_functional.go 422-434, 531-538: Apply.  With two arguments the Go
   code evaluates the new expression, which the evaluation loop would do
   anyway; the model returns it unevaluated. *)
Definition apply_eval (args : list ex) : option ex :=
  match args with
  | [ESym f; EExpr (_ :: l)] => Some (EExpr (ESym f :: l))
  | [_; e] => Some e
  | [f; e; sp] => match parse_level_spec sp with
                  | Some sp => Some (fst (level_apply (apply_head_cb f) sp e tt))
                  | None => None
                  end
  | _ => None
  end.
(* builtin_list.go 807-815: Count[e, pattern, spec]; Count[e, pattern] is
   rewritten to Count[e, pattern, {1}] by resources/list.m 428 *)
Definition count_eval (env : menv) (args : list ex) : option ex :=
  match args with
  | [e; pat; sp] => match parse_level_spec sp with
                    | Some sp => Some (EInt (snd (level_apply (count_cb env pat) sp e 0)))
                    | None => None
                    end
  | _ => None
  end.

(* builtin_functional.go 560-601: FoldList; expr is the last element so far *)
Fixpoint fold_list_loop (f acc : ex) (l : list ex) : list ex :=
  match l with
  | [] => []
  | x :: t => let e := EExpr [f; acc; x] in e :: fold_list_loop f e t
  end.
Definition fold_list_eval (args : list ex) : option ex :=
  match args with
  | [f; x; EExpr (h :: l)] => Some (EExpr (h :: x :: fold_list_loop f x l))
  | _ => None
  end.

(* builtin_functional.go 604-638: NestList *)
Fixpoint nest_loop (f e : ex) (n : nat) : list ex :=
  match n with O => [] | S k => let e' := EExpr [f; e] in e' :: nest_loop f e' k end.
Definition nest_list_eval (args : list ex) : option ex :=
  match args with
  | [f; e; EInt z] => if wrap64 z <? 0 then None else Some (mkList (e :: nest_loop f e (Z.to_nat (wrap64 z))))
  | _ => None
  end.

(* builtin_functional.go 767-791: Array *)
Definition array_eval (args : list ex) : option ex :=
  match args with
  | [f; EInt z] => Some (mkList (map (fun i => EExpr [f; EInt (Z.of_nat i)]) (seq 1 (Z.to_nat (wrap64 z)))))
  | [_; e] => Some e
  | _ => None
  end.
