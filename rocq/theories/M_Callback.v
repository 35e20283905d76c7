(* Builtins that call the evaluator on f[x]: Select, Scan, FixedPoint,
   NestWhileList.  They are builtins in the sense of M_Eval.v (an evaluator and a
   bound for their own loops are passed in) and are plugged in through the
   [c_other] field of the configuration. *)
From Verif Require Import M_Syntax M_Float M_Hash M_Compare M_Defs M_Eval.
Open Scope nat_scope.

(* builtin_list.go 723-741: the loop of Select; a headless first argument (Go
   panics) is left alone.  A pending exception is not looked at. *)
Fixpoint select_loop (ev : evaluator) (f : ex) (limit : Z) (es : estate) (l : list ex) (added : Z) : outcome (list ex * estate) :=
  match l with
  | [] => Ret ([], es)
  | p :: t =>
      if (limit <=? added)%Z then Ret ([], es)
      else obind (ev es (EExpr [f; p])) (fun '(r, es1) =>
           if trueQ r
           then obind (select_loop ev f limit es1 t (added + 1)) (fun '(k, es2) => Ret (p :: k, es2))
           else select_loop ev f limit es1 t added)
  end.
(* builtin_list.go 700-746: Select *)
Definition select_fn : builtin := fun _ ev es parts =>
  let go e f limit :=
    match e with
    | EExpr (h :: l) => obind (select_loop ev f limit es l 0) (fun '(k, es1) => Ret (EExpr (h :: k), parts, es1))
    | _ => unchanged_this parts es
    end in
  match parts with
  | [_; e; f] => go e f (2 ^ 63 - 1)%Z
  | [_; e; f; EInt n] => if (wrap64 n <? 0)%Z then unchanged_this parts es else go e f (wrap64 n)
  | _ => unchanged_this parts es
  end.

(* builtin_list.go 747-776: Scan *)
Fixpoint scan_loop (ev : evaluator) (f : ex) (es : estate) (l : list ex) : outcome (ex * estate) :=
  match l with
  | [] => Ret (sNull, es)
  | p :: t =>
      obind (ev es (EExpr [f; p])) (fun '(r, es1) =>
      match es_thrown es1 with
      | Some th => Ret (th, es1)
      | None => match return_value r with
                | Some v => Ret (v, es1)
                | None => scan_loop ev f es1 t
                end
      end)
  end.
Definition scan_fn : builtin := fun _ ev es parts =>
  match parts with
  | [_; f; EExpr (_ :: l)] => obind (scan_loop ev f es l) (fun '(r, es1) => Ret (r, parts, es1))
  | _ => unchanged_this parts es
  end.

(* builtin_functional.go 760-774: FixedPoint *)
Fixpoint fixed_point_loop (fuel : nat) (ev : evaluator) (f : ex) (es : estate) (curr : ex) : outcome (ex * estate) :=
  match fuel with
  | O => More
  | S k =>
      obind (ev es (EExpr [f; curr])) (fun '(next, es1) =>
      if is_sameq curr next then Ret (next, es1) else fixed_point_loop k ev f es1 next)
  end.
Definition fixed_point_fn : builtin := fun k ev es parts =>
  match parts with
  | [_; f; e] => obind (fixed_point_loop k ev f es e) (fun '(r, es1) => Ret (r, parts, es1))
  | _ => unchanged_this parts es
  end.

(* builtin_replacement.go 153-195: ReplaceRepeated evaluates ReplaceAll[old, rules]
   until the result is the same *)
Fixpoint replace_repeated_loop (fuel : nat) (ev : evaluator) (rules : ex) (es : estate) (old : ex) : outcome (ex * estate) :=
  match fuel with
  | O => More
  | S k => obind (ev es (EExpr [sys "ReplaceAll"; old; rules])) (fun '(new, es1) =>
      if is_sameq old new then Ret (new, es1) else replace_repeated_loop k ev rules es1 new)
  end.
Definition replace_repeated_fn : builtin := fun k ev es parts =>
  match parts with
  | [_; e; rules] => obind (replace_repeated_loop k ev rules es e) (fun '(r, es1) => Ret (r, parts, es1))
  | _ => unchanged_this parts es
  end.

(* builtin_functional.go 653-672, 674-693, 695-701: the optional arguments;
   -1 stands for All and Infinity *)
Definition bound_arg (all : string) (e : ex) : option Z :=
  match e with
  | EInt z => if (wrap64 z <? 0)%Z then None else Some (wrap64 z)
  | ESym s => if String.eqb s (sysname all) then Some (-1)%Z else None
  | _ => None
  end.
Definition bonus_arg (e : ex) : nat := match e with EInt z => Z.to_nat (wrap64 z) | _ => 0 end.
(* the arguments handed to the test: the last m values, or all *)
Definition window (m : Z) (vs : list ex) : list ex :=
  if (0 <=? m)%Z then skipn (length vs - Z.to_nat m) vs else vs.
(* builtin_functional.go 710-741: the loop; [i] counts as in the Go code and
   [vs] are the evaluated expressions.  Gives the expressions appended and the
   last one. *)
Fixpoint nest_while_loop (fmt : flt -> string) (fuel : nat) (ev : evaluator) (f test : ex) (m limit i : Z) (es : estate) (expr : ex) (vs : list ex)
  : outcome (list ex * ex * estate) :=
  match fuel with
  | O => More
  | S k =>
      let expr' := EExpr [f; expr] in
      obind (ev es expr') (fun '(v, es1) =>
      let vs' := vs ++ [v] in
      obind (if (m <=? i)%Z
             then obind (ev es1 (EExpr (test :: window m vs'))) (fun '(r, es2) =>
                  Ret (match is_equal fmt r sTrue with EqTrue => true | _ => false end, es2))
             else Ret (true, es1)) (fun '(cont, es2) =>
      if cont && negb ((limit <? i)%Z && negb (limit =? -1)%Z)
      then obind (nest_while_loop fmt k ev f test m limit (i + 1) es2 expr' vs') (fun '(l, e, es3) => Ret (expr' :: l, e, es3))
      else Ret ([expr'], expr', es2)))
  end.
(* builtin_functional.go 742-752: further applications, not evaluated here *)
Fixpoint bonus (f e : ex) (n : nat) : list ex :=
  match n with O => [] | S k => EExpr [f; e] :: bonus f (EExpr [f; e]) k end.
(* builtin_functional.go 643-756: NestWhileList *)
Definition nest_while_fn (fmt : flt -> string) : builtin := fun k ev es parts =>
  let go f e test m limit n :=
    obind (ev es e) (fun '(v, es1) =>
    obind (nest_while_loop fmt k ev f test m limit 2 es1 e [v]) (fun '(l, last, es2) =>
    Ret (mkList (e :: l ++ bonus f last n), parts, es2))) in
  match parts with
  | [_; f; e; test] => go f e test 1%Z (-1)%Z 0
  | [_; f; e; test; m] =>
      match bound_arg "All" m with Some m => go f e test m (-1)%Z 0 | None => unchanged_this parts es end
  | [_; f; e; test; m; mx] =>
      match bound_arg "All" m, bound_arg "Infinity" mx with
      | Some m, Some mx => go f e test m mx 0 | _, _ => unchanged_this parts es end
  | [_; f; e; test; m; mx; n] =>
      match bound_arg "All" m, bound_arg "Infinity" mx with
      | Some m, Some mx => go f e test m mx (bonus_arg n) | _, _ => unchanged_this parts es end
  | _ => unchanged_this parts es
  end.

(* the builtins of this file as a [c_other] table *)
Definition callbacks (fmt : flt -> string) (n : string) : option builtin :=
  if String.eqb n (sysname "Select") then Some select_fn
  else if String.eqb n (sysname "Scan") then Some scan_fn
  else if String.eqb n (sysname "FixedPoint") then Some fixed_point_fn
  else if String.eqb n (sysname "NestWhileList") then Some (nest_while_fn fmt)
  else if String.eqb n (sysname "ReplaceRepeated") then Some replace_repeated_fn
  else None.
