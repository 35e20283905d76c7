(* Printing in InputForm of expressions with operators: logical operators,
   comparisons, rules, assignments, replacements, string joins, sums, products and
   powers without denominators, parts and patterns.
   string.go 11-48, 65-130; parser/parens/parens.go; builtin_boolean.go 11-13, 39-41;
   builtin_comparison.go 126-135, 158-168, 193-203, 222-232, 271-281, 288-298,
   305-315, 322-332; builtin_replacement.go 109-122, 154-167, 197-214, 218-235;
   builtin_system.go 479-492, 545-558; builtin_string.go 48-50; builtin_list.go
   18-72; builtin_pattern.go 11-32, 46-97; atoms/ex_expression.go 96-141.
   (Arithmetic with fractions and signs is M_InputForm.)
   Simplification: text is a list of tokens.  KInt stands for decimal digits, KName
   for the printed name of a symbol (abbreviation of names: C54, C56), KStr for a
   string between quotes, KPat for a name containing _, KOp "Equal" for " == " and
   so on (see [sign]).  Which characters make which token is the business of the
   lexer, a dependency. *)
From Verif Require Import M_Syntax M_Float M_Hash M_Parse.
Open Scope nat_scope.

Inductive otok : Type :=
| KInt (n : N) | KName (s : string) | KStr (s : string) | KPat (s : string)
| KMinus
| KOp (op : string)
| KLP | KRP         (* ( ) *)
| KLB | KRB         (* [ ] *)
| KLC | KRC         (* { } *)
| KLBB | KRBB       (* [[ ]] *)
| KComma.

(* the delimiters in the toString functions listed above *)
Definition sign : list (string * string) :=
  [("And", " && "); ("Or", " || "); ("StringJoin", " <> "); ("Equal", " == "); ("Unequal", " != "); ("SameQ", " === ");
   ("UnsameQ", " =!= "); ("Less", " < "); ("Greater", " > "); ("LessEqual", " <= "); ("GreaterEqual", " >= ");
   ("ReplaceAll", " /. "); ("ReplaceRepeated", " //. "); ("Rule", " -> "); ("RuleDelayed", " :> "); ("Set", " = ");
   ("SetDelayed", " := "); ("Plus", " + "); ("Times", "*"); ("Power", "^"); ("Pattern", " : ")]%string.

(* Precedences.  wl.Precedence belongs to the dependency: the model takes any
   table.  [right] says which operators group to the right, [uminus] is the
   precedence of the sign in - x; these two matter to the reader only. *)
Record table : Type := Table { tprec : string -> nat; right : string -> bool; uminus : nat }.

(* parser/parens/parens.go 5-37: headsToTokens.  Simplification: wl.Precedence is
   taken to know every token of this table. *)
Definition heads_to_tokens : list string :=
  ["Alternatives"; "And"; "Apply"; "CompoundExpression"; "Condition"; "Dot"; "Equal"; "Factorial"; "Function"; "Greater";
   "GreaterEqual"; "Less"; "LessEqual"; "Map"; "Not"; "Or"; "PatternTest"; "Plus"; "Power"; "ReplaceAll"; "ReplaceRepeated";
   "Rule"; "RuleDelayed"; "SameQ"; "Set"; "SetDelayed"; "Span"; "StringJoin"; "Times"; "Unequal"; "UnsameQ"]%string.
(* ToStringParams.PreviousHead: "<TOPLEVEL>", or a head without its context;
   "" is what some operators pass, and EasyRun *)
Inductive oprev : Type := OTop | OUnder (head : string).

(* parens.go 39-55 *)
Definition oneeds (T : table) (this : string) (p : oprev) : bool :=
  match p with
  | OTop => false
  | OUnder h => if existsb (String.eqb h) heads_to_tokens && existsb (String.eqb this) heads_to_tokens
                then negb (tprec T h <? tprec T this) else true
  end.

(* how an operator is printed *)
Inductive style : Type :=
| Own    (* thisHead is the head: string.go with "System`Equal" and so on *)
| Anon   (* thisHead is "" *)
| Each.  (* thisHead is "" and surroundEachArg *)
(* the style of head h with n arguments; None: the default format *)
Definition op_style (h : string) (n : nat) : option style :=
  let among := existsb (String.eqb h) in
  if among ["And"; "Or"; "StringJoin"]%string then if n <? 2 then None else Some Anon
  else if among ["Equal"; "Unequal"; "SameQ"; "UnsameQ"]%string then if n <? 2 then None else Some Own
  else if among ["Less"; "Greater"; "LessEqual"; "GreaterEqual"]%string then if n <? 2 then None else Some Each
  else if among ["ReplaceAll"; "ReplaceRepeated"]%string then if Nat.eqb n 2 then Some Each else None
  else if among ["Rule"; "RuleDelayed"; "Set"; "SetDelayed"]%string then if Nat.eqb n 2 then Some Own else None
  else None.
(* thisHead *)
Definition this_head (s : style) (h : string) : string := match s with Own => h | _ => EmptyString end.

Definition oparens (b : bool) (t : list otok) : list otok := if b then KLP :: t ++ [KRP] else t.
Fixpoint ojoined (delim : list otok) (l : list (list otok)) : list otok :=
  match l with
  | [] => []
  | [x] => x
  | x :: t => x ++ delim ++ ojoined delim t
  end.
(* atoms/ex_integer.go 21-23 *)
Definition int_text (z : Z) : list otok :=
  if (z <? 0)%Z then [KMinus; KInt (Z.to_N (- z))] else [KInt (Z.to_N z)].
(* builtin_arithmetic.go 194-207 *)
Definition plus_term (t : list otok) : list otok :=
  match t with
  | KMinus :: r => KMinus :: r
  | _ => KOp "Plus" :: t
  end.
Definition plus_text (texts : list (list otok)) : list otok :=
  match texts with
  | [] => []
  | t :: r => t ++ flat_map plus_term r
  end.
(* builtin_arithmetic.go 335-345: strings.HasPrefix(s, "-1*") *)
Definition drop_neg_one (t : list otok) : list otok :=
  match t with
  | KMinus :: KInt 1%N :: KOp op :: r => if String.eqb op "Times" then KMinus :: r else t
  | _ => t
  end.

(* a symbol of the context System` *)
Fixpoint strip_prefix (p s : string) : option string :=
  match p, s with
  | EmptyString, _ => Some s
  | String a p', String b s' => if Ascii.eqb a b then strip_prefix p' s' else None
  | _, _ => None
  end.
Definition short (s : string) : string := match strip_prefix "System`" s with Some r => r | None => EmptyString end.

(* builtin_pattern.go 11-32, 81-97: _ and _h, with h a symbol *)
Definition blank_text (e : ex) : option string :=
  match e with
  | EExpr (ESym b :: args) =>
      let k := if String.eqb b (sysname "Blank") then 1 else if String.eqb b (sysname "BlankSequence") then 2
               else if String.eqb b (sysname "BlankNullSequence") then 3 else 0 in
      if Nat.eqb k 0 then None
      else match args with
           | [] => Some (under k)
           | [ESym h] => Some (append (under k) h)
           | _ => None
           end
  | _ => None
  end.
Definition is_blank (e : ex) : bool :=
  has_head e (sysname "Blank") || has_head e (sysname "BlankSequence") || has_head e (sysname "BlankNullSequence").
(* factors that splitFrac moves to the denominator (builtin_arithmetic.go
   144-166), and rationals: M_InputForm *)
Definition splits (x : ex) : bool :=
  match x with
  | EExpr [ESym g; b; EInt z] => String.eqb g (sysname "Power") && (wrap64 z =? -1)%Z
  | ERat _ _ => true
  | _ => false
  end.
(* heads printed in a way not modelled here *)
Definition oother : list string :=
  ["HoldForm"; "Optional"; "Infix"; "Definition"; "InputForm"; "FullForm"; "TraditionalForm"; "TeXForm"; "StandardForm"; "OutputForm"]%string.

Fixpoint oall {A} (l : list (option A)) : option (list A) :=
  match l with
  | [] => Some []
  | Some a :: t => option_map (cons a) (oall t)
  | None :: _ => None
  end.

(* StringForm with Form = "InputForm"; None: not modelled *)
Fixpoint opr (T : table) (p : oprev) (e : ex) {struct e} : option (list otok) :=
  match e with
  | ESym n => Some [KName n]
  | EInt z => Some (int_text z)
  | EStr s => Some [KStr s]
  | EExpr (ESym hd :: args) =>
      let h := short hd in
      let at_top := oall (map (opr T OTop) args) in
      (* ex_expression.go 124-140 *)
      let default := option_map (fun ts => KName hd :: KLB :: ojoined [KComma] ts ++ [KRB]) at_top in
      match op_style h (length args) with
      | Some s =>
          let this := this_head s h in
          option_map (fun ts => oparens (oneeds T this p)
                         (ojoined [KOp h] (match s with Each => map (oparens true) ts | _ => ts end)))
                     (oall (map (opr T (OUnder this)) args))
      | None =>
          if String.eqb h "Plus" then
            if length args <? 2 then default
            else option_map (fun ts => oparens (oneeds T h p) (plus_text ts)) (oall (map (opr T (OUnder h)) args))
          else if String.eqb h "Times" then
            (* without denominators; builtin_arithmetic.go 335-350 *)
            if existsb splits args then None
            else if length args <? 2 then default
            else option_map (fun ts => drop_neg_one (oparens (oneeds T h p) (ojoined [KOp h] ts))) (oall (map (opr T (OUnder h)) args))
          else if String.eqb h "Power" then
            (* builtin_power.go 126-188, except for the exponents 1/2, -1/2, -1 *)
            match args with
            | [b; x] => if is_sameq x (ERat 1 2) || is_sameq x (ERat (-1) 2) || is_sameq x (EInt (-1)) then None
                        else option_map (fun ts => oparens (oneeds T h p) (ojoined [KOp h] ts)) (oall (map (opr T (OUnder h)) args))
            | _ => if length args <? 2 then default
                   else option_map (fun ts => oparens (oneeds T h p) (ojoined [KOp h] ts)) (oall (map (opr T (OUnder h)) args))
            end
          else if String.eqb h "List" then
            option_map (fun ts => KLC :: ojoined [KComma] ts ++ [KRC]) at_top
          else if String.eqb h "Part" then
            (* builtin_list.go 49-72: the expression before [[ is printed with the
               PreviousHead of the whole.  Part[] is not modelled. *)
            match args with
            | b :: idx => match opr T p b, oall (map (opr T OTop) idx) with
                          | Some t, Some ts => Some (t ++ KLBB :: ojoined [KComma] ts ++ [KRBB])
                          | _, _ => None
                          end
            | [] => None
            end
          else if String.eqb h "Pattern" then
            match args with
            | [x; b] =>
                if is_blank b then
                  match x, blank_text b with
                  | ESym s, Some t => Some [KPat (append s t)]
                  | _, _ => None
                  end
                else match opr T p x, opr T p b with
                     | Some tx, Some tb => Some (KLP :: tx ++ [KRP; KOp "Pattern"; KLP] ++ tb ++ [KRP])
                     | _, _ => None
                     end
            | _ => default
            end
          else if is_blank e then option_map (fun s => [KPat s]) (blank_text e)
          else if existsb (String.eqb h) oother then None
          else default
      end
  | EExpr (h :: args) =>
      (* a head that is not a symbol is printed with the PreviousHead of the call *)
      match opr T p h, oall (map (opr T OTop) args) with
      | Some th, Some ts => Some (th ++ KLB :: ojoined [KComma] ts ++ [KRB])
      | _, _ => None
      end
  | _ => None
  end.

(* builtin_string.go 17-45: ToString[e, InputForm]; easyrun.go 20-31 prints with
   PreviousHead "" instead *)
Definition op_form (T : table) (e : ex) : option (list otok) := opr T OTop e.
Definition easy_form (T : table) (e : ex) : option (list otok) := opr T (OUnder "") e.
