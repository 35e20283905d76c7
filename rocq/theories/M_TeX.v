(* Printing in TeXForm: numbers, symbols, Plus, Power, the elementary functions and
   calls of functions without a print function of their own.  Left out (None): Times and
   the other heads of M_InputForm.special, List, Subscript, strings, machine reals,
   complex numbers and heads that are not symbols.  Text is a list of tokens; TText
   stands for text without braces, parentheses or a leading minus sign: digits, names
   and commands such as \frac. *)
From Verif Require Import M_Syntax M_Hash M_InputForm.
Open Scope nat_scope.

Inductive xtok : Type :=
| XO | XC             (* { } *)
| XL | XR             (* \left( \right) *)
| XLB | XRB           (* [ ] *)
| XMinus              (* - *)
| XText (s : string)
| XInt (n : N).       (* digits *)

(* ex_integer.go 21-23 *)
Definition xint (z : Z) : list xtok := if (z <? 0)%Z then [XMinus; XInt (Z.to_N (- z))] else [XInt (Z.to_N z)].
(* ex_symbol.go 19-44 with Form = "TeXForm"; name is what remains of the symbol's name
   when its context is visible (ex_symbol.go 46-60) *)
Definition xname (name : string) : list xtok :=
  if String.eqb name "E" then [XText "e"]
  else if String.eqb name "I" then [XText "i"]
  else if String.eqb name "Pi" then [XText "\pi"]
  else if String.eqb name "Infinity" then [XText "\infty"]
  else if String.eqb name "ω" then [XText "\omega"]
  else if String.eqb name "Ω" then [XText "\Omega"]
  else if 1 <? String.length name then [XText "\text"; XO; XText name; XC]
  else [XText name].
(* builtin_trig.go 31-57, builtin_power.go 424-428: the argument of simpleTeXToString *)
Definition xfunction (h : string) : option (list xtok) :=
  if String.eqb h (sysname "Sin") then Some [XText "\sin"]
  else if String.eqb h (sysname "Cos") then Some [XText "\cos"]
  else if String.eqb h (sysname "Tan") then Some [XText "\tan"]
  else if String.eqb h (sysname "ArcTan") then Some [XText "\tan^"; XO; XMinus; XInt 1; XC]
  else if String.eqb h (sysname "Cot") then Some [XText "\cot"]
  else if String.eqb h (sysname "Log") then Some [XText "\log"]
  else None.
(* the texts of the arguments with a delimiter between them: string.go 180-185,
   ex_expression.go 130-138 *)
Fixpoint xjoin (d : xtok) (l : list (list xtok)) : list xtok :=
  match l with [] => [] | [x] => x | x :: t => x ++ d :: xjoin d t end.
(* string.go 25-30, 41-45: {\left( ... \right)} *)
Definition xparens (b : bool) (t : list xtok) : list xtok := if b then XO :: XL :: t ++ [XR; XC] else t.
(* builtin_arithmetic.go 191-202 *)
Definition xterm (t : list xtok) : list xtok :=
  match t with XMinus :: r => XText " - " :: r | _ => XText " + " :: t end.
Definition xsum (l : list (list xtok)) : list xtok :=
  match l with [] => [] | t :: r => t ++ flat_map xterm r end.

Definition left_out : list string := map sysname ["Times"; "List"; "Subscript"]%string ++ special.
(* Symbol.StringForm, Integer.StringForm, Rational.StringForm (ex_rational.go 28-30),
   Power (builtin_power.go 128-194, string.go 65-130), Plus (builtin_arithmetic.go
   172-212), simpleTeXToString (string.go 170-191), ex_expression.go 125-141.
   [vis] gives the printed part of a symbol's name. *)
Fixpoint tex (vis : string -> string) (p : prev) (e : ex) {struct e} : option (list xtok) :=
  match e with
  | EInt z => Some (xint z)
  | ERat n d => Some (XText "\frac" :: XO :: xint n ++ XC :: XO :: xint d ++ [XC])
  | ESym s => Some (xname (vis s))
  | EExpr (ESym h :: args) =>
      let sub q := all_some (map (tex vis q) args) in
      if existsb (String.eqb h) left_out then None
      else match xfunction h with
      | Some f => option_map (fun l => f ++ XL :: xjoin (XText ",") l ++ [XR]) (sub Top)
      | None =>
      if String.eqb h (sysname "Plus") && (1 <? List.length args) then
        option_map (fun l => xparens (needs_parens h p) (xsum l)) (sub (Under h))
      else
      let plain := option_map (fun l => xname (vis h) ++ XLB :: xjoin (XText ", ") l ++ [XRB]) (sub Top) in
      if String.eqb h (sysname "Power") then
        match args with
        | [a; n] =>
            if is_sameq n (ERat 1 2) then option_map (fun t => XText "\sqrt" :: XO :: t ++ [XC]) (tex vis Top a)
            else if is_sameq n (ERat (-1) 2) then option_map (fun t => XText "\frac" :: XO :: XInt 1 :: XC :: XO :: XText "\sqrt" :: XO :: t ++ [XC; XC]) (tex vis Top a)
            else if is_sameq n (EInt (-1)) then option_map (fun t => XText "\frac" :: XO :: XInt 1 :: XC :: XO :: t ++ [XC]) (tex vis Top a)
            else match tex vis (Under h) a, tex vis Top n with
                 | Some t, Some u => Some (xparens (needs_parens h p) (t ++ XText "^" :: XO :: u ++ [XC]))
                 | _, _ => None
                 end
        | [] | [_] => plain
        | _ => None
        end
      else plain
      end
  | _ => None
  end.
