(* From the syntax tree of modernc.org/wl to an expression:
   expreduce/parser/interp.go.  The lexer and the grammar belong to the
   dependency and are not modelled: the model starts at the tree they build.
   Simplification for the whole file: where the Go code changes the tree in
   place (AppendEx on the left operand, removeParens, the names of symbols) the
   model builds a new one; the parser is the only owner of these nodes, except
   that convertToInequality repeats one operator node, whose name is already
   qualified and is not changed any more. *)
From Verif Require Import M_Syntax.
Open Scope nat_scope.

Definition nParens : string := "Internal`Parens".
Definition nInequality := sysname "Inequality".

(* interp.go 23-30: inequalityOps *)
Definition is_ineq (op : string) : bool :=
  existsb (String.eqb op) [sysname "Equal"; sysname "Unequal"; sysname "Less"; sysname "LessEqual"; sysname "Greater"; sysname "GreaterEqual"].

(* atoms/ex_expression.go 248-254: HeadStr *)
Definition head_str (e : ex) : string := match e with EExpr (ESym s :: _) => s | _ => EmptyString end.

(* interp.go 32-43: convertToInequality; h and l are the parts of the expression *)
Definition interleave (h : ex) (l : list ex) : list ex :=
  match l with
  | [] => []
  | x :: t => x :: flat_map (fun y => [h; y]) t
  end.
Definition to_inequality (e : ex) : list ex :=
  match e with
  | EExpr (h :: l) => sys "Inequality" :: interleave h l
  | _ => []
  end.

(* interp.go 45-74: fullyAssoc *)
Definition fully_assoc (op : string) (lhs rhs : ex) : ex :=
  let lh := head_str lhs in
  if is_ineq op && is_expr lhs && (is_ineq lh || String.eqb lh nInequality) && negb (String.eqb op lh) then
    let res := if String.eqb lh nInequality then parts_of lhs else to_inequality lhs in
    EExpr (res ++ [ESym op; rhs])
  else
    match head_assertion lhs op with
    | Some parts => EExpr (parts ++ [rhs])
    | None => EExpr [ESym op; lhs; rhs]
    end.

(* interp.go 76-94 and 545-555: the outer Internal`Parens are removed, then
   those of every part.  Simplification: Internal`Parens[] written out without
   an argument makes the Go code panic; the model leaves it. *)
Fixpoint unparen (e : ex) : ex :=
  match e with
  | EExpr parts =>
      match parts with
      | ESym s :: x :: _ => if String.eqb s nParens then unparen x else EExpr (map unparen parts)
      | _ => EExpr (map unparen parts)
      end
  | _ => e
  end.

(* strings.Contains(name, "`") *)
Fixpoint has_tick (s : string) : bool :=
  match s with EmptyString => false | String c t => Ascii.eqb c "`" || has_tick t end.

(* the names known to the evaluator: evalstate.go 300-303 IsDef and 420-427
   MarkSeen *)
Definition names := list string.
Definition is_def (n : string) (d : names) : bool := existsb (String.eqb n) d.
Definition mark_seen (n : string) (d : names) : names := if is_def n d then d else n :: d.

(* interp.go 104-110: the first context of the path in which the symbol is
   defined *)
Fixpoint on_path (path : list string) (d : names) (n : string) : option string :=
  match path with
  | [] => None
  | c :: t => if is_def (append c n) d then Some (append c n) else on_path t d n
  end.
(* interp.go 102-113: one symbol *)
Definition resolve_sym (ctx : string) (path : list string) (d : names) (n : string) : string * names :=
  if has_tick n then (n, mark_seen n d)
  else match on_path path d n with
       | Some r => (r, d)
       | None => (append ctx n, mark_seen (append ctx n) d)
       end.
(* interp.go 96-120: addContextAndDefine *)
Fixpoint resolve (ctx : string) (path : list string) (d : names) (e : ex) : ex * names :=
  match e with
  | ESym n => let (r, d') := resolve_sym ctx path d n in (ESym r, d')
  | EExpr l =>
      let (l', d') := (fix go (l : list ex) (d : names) : list ex * names :=
         match l with
         | [] => ([], d)
         | x :: t => let (x', d1) := resolve ctx path d x in let (t', d2) := go t d1 in (x' :: t', d2)
         end) l d in
      (EExpr l', d')
  | _ => (e, d)
  end.

(* strings.Split(s, "_" repeated n times), n >= 1: [skip] characters belong to
   a separator already recognised, [cur] is the piece being collected *)
Fixpoint under (n : nat) : string := match n with O => EmptyString | S k => String "_" (under k) end.
Fixpoint split_us (n : nat) (skip : nat) (cur : string) (s : string) : list string :=
  match s with
  | EmptyString => [cur]
  | String c t =>
      match skip with
      | S k => split_us n k cur t
      | O => if String.prefix (under n) s then cur :: split_us n (n - 1) EmptyString t
             else split_us n O (append cur (String c EmptyString)) t
      end
  end.
(* strings.Contains(s, "_" repeated n times) *)
Fixpoint contains_us (n : nat) (s : string) : bool :=
  match s with
  | EmptyString => String.prefix (under n) s
  | String _ t => String.prefix (under n) s || contains_us n t
  end.
(* interp.go 122-178: parsePattern *)
Definition parse_pattern (buf : string) : ex :=
  let '(n, blank) := if contains_us 3 buf then (3, sys "BlankNullSequence")
                     else if contains_us 2 buf then (2, sys "BlankSequence") else (1, sys "Blank") in
  match split_us n 0 EmptyString buf with
  | [a] => EExpr [sys "Pattern"; ESym a; EExpr [blank]]
  | [a; b] =>
      if String.eqb a "" then
        if String.eqb b "" then EExpr [blank]
        else if Nat.eqb n 1 && String.eqb b "." then EExpr [sys "Optional"; EExpr [blank]]
        else EExpr [blank; ESym b]
      else if String.eqb b "" then EExpr [sys "Pattern"; ESym a; EExpr [blank]]
      else if Nat.eqb n 1 && String.eqb b "." then EExpr [sys "Optional"; EExpr [sys "Pattern"; ESym a; EExpr [blank]]]
      else EExpr [sys "Pattern"; ESym a; EExpr [blank; ESym b]]
  | _ => EExpr [sys "Error"; EStr "Pattern parse error."]
  end.

(* The syntax tree.  The comments give the wl case numbers.  [op] is the name
   that interp.go 252-310 attach to the case. *)
Inductive past : Type :=
| PIdent (s : string) | PInt (z : Z) | PFloat (f : flt) | PString (s : string) (* terminals *)
| PPattern (s : string) | PSlot (z : Z)
| PBin (op : string) (a b : past)      (* binaryOps *)
| PAssoc (op : string) (a b : past)    (* fullyAssocOps *)
| PUn (op : string) (a : past)         (* unaryOps *)
| PSemi (a : past)                     (* 124: a; *)
| PColon (a b : past)                  (* 123: a:b *)
| PMessage (s tag : string)            (* s::tag *)
| PCall (f : past) (l : list past)     (* 132, 133 *)
| PList (l : list past)                (* 17, 18 *)
| PParen (a : past)                    (* 14 *)
| PPart (a : past) (l : list past)     (* 54 *)
| PNeg (a : past)                      (* 16 *)
| PDiv (a b : past)                    (* 122 *)
| PSub (a b : past)                    (* 120 *)
| PPost (a f : past)                   (* 32: a // f *)
| PPre (f a : past)                    (* 131: f @ a *)
| PApply1 (f a : past)                 (* 53: f @@@ a *)
| PDeriv (a : past)                    (* 137 *)
| PSqrt (a : past)                     (* 11 *)
| PInfo (s : string) (long : bool)     (* ?s, ??s *)
| POut (back : Z).                     (* 145: % and %% *)

(* interp.go 180-184 *)
Definition unicode_redefine (s : string) : string :=
  if String.eqb s "π" then "Pi" else if String.eqb s "ⅈ" then "I" else if String.eqb s "ⅉ" then "I" else s.

(* interp.go 312-529: parserExprConv, with parserTokenConv 186-235.  Not
   modelled: TagSet (case 35), whose Go code fails when the right operand is
   not an assignment.  [neg_flt] is the negation of big.Float. *)
Fixpoint conv (neg_flt : flt -> flt) (p : past) : ex :=
  let conv := conv neg_flt in
  match p with
  | PIdent s => ESym (unicode_redefine s)
  | PInt z => EInt z
  | PFloat f => EFlt f
  | PString s => EStr s
  | PPattern s => parse_pattern s
  | PSlot z => EExpr [sys "Slot"; EInt z]
  | PBin op a b => EExpr [sys op; conv a; conv b]
  | PAssoc op a b => fully_assoc (sysname op) (conv a) (conv b)
  | PUn op a => EExpr [sys op; conv a]
  | PSemi a => fully_assoc (sysname "CompoundExpression") (conv a) sNull
  | PColon a b => let e := conv a in
                  EExpr [if has_head e (sysname "Pattern") then sys "Optional" else sys "Pattern"; e; conv b]
  | PMessage s tag => EExpr [sys "MessageName"; ESym (unicode_redefine s); EStr (unicode_redefine tag)]
  | PCall f l => EExpr (conv f :: map conv l)
  | PList l => EExpr (sList :: map conv l)
  | PParen a => EExpr [ESym nParens; conv a]
  | PPart a l => EExpr (sys "Part" :: conv a :: map conv l)
  | PNeg a => match conv a with
              | EInt z => EInt (- z)
              | EFlt f => EFlt (neg_flt f)
              | e => EExpr [sys "Times"; e; EInt (-1)]
              end
  | PDiv a b => EExpr [sys "Times"; conv a; EExpr [sys "Power"; conv b; EInt (-1)]]
  | PSub a b => fully_assoc (sysname "Plus") (conv a) (EExpr [sys "Times"; conv b; EInt (-1)])
  | PPost a f => EExpr [conv f; conv a]
  | PPre f a => EExpr [conv f; conv a]
  | PApply1 f a => EExpr [sys "Apply"; conv f; conv a; EExpr [sList; EInt 1]]
  | PDeriv a => EExpr [EExpr [sys "Derivative"; EInt 1]; conv a]
  | PSqrt a => EExpr [sys "Sqrt"; conv a]
  | PInfo s long => EExpr (sys "Information" :: ESym (unicode_redefine s) ::
                           (if long then [] else [EExpr [sys "Rule"; sys "LongForm"; sFalse]]))
  | POut back => EExpr [sys "Out"; EExpr [sys "Plus"; sys "$Line"; EInt (- back)]]
  end.

(* interp.go 539-565: InterpBuf after parsing *)
Definition interp (neg_flt : flt -> flt) (ctx : string) (path : list string) (d : names) (p : past) : ex * names :=
  resolve ctx path d (unparen (conv neg_flt p)).
