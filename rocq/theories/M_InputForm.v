(* Printing in InputForm, for arithmetic: Plus, Times, Power, List and calls
   of functions without a print function of their own.
   builtin_arithmetic.go 144-217, 273-359; builtin_power.go 126-188; builtin_list.go 18-47; string.go
   11-48, 65-130; parser/parens/parens.go; atoms/ex_integer.go 21-23,
   ex_rational.go 18-36, ex_expression.go 96-141.
   Text is a list of tokens; a token never needs more than the characters shown
   beside it.  Simplification: TInt stands for the decimal digits of a
   non-negative integer and TName for the printed name of a symbol (how names
   are abbreviated and resolved is C54 and C56). *)
From Verif Require Import M_Syntax M_Float M_Hash.
Open Scope nat_scope.

Inductive tok : Type :=
| TInt (n : N)      (* digits *)
| TName (s : string)
| TMinus            (* - *)
| TPlus             (* + *)
| TTimes            (* * *)
| TDiv              (* / *)
| TPow              (* ^ *)
| TLP | TRP         (* ( ) *)
| TLB | TRB         (* [ ] *)
| TLC | TRC         (* { } *)
| TComma
| TSpace.

(* ToStringParams.PreviousHead *)
Inductive prev : Type := Top | Under (head : string).

(* parser/parens/parens.go 7-37 with wl.Precedence: Plus, Times and Power in
   increasing order (third-party table; only the order matters).  Other heads
   do not occur as thisHead or PreviousHead in this model. *)
Definition prec (h : string) : option nat :=
  if String.eqb h (sysname "Plus") then Some 1
  else if String.eqb h (sysname "Times") then Some 2
  else if String.eqb h (sysname "Power") then Some 3
  else None.
(* parens.go 39-55 *)
Definition needs_parens (this : string) (p : prev) : bool :=
  match p with
  | Top => false
  | Under h => match prec h, prec this with
            | Some a, Some b => negb (a <? b)
            | _, _ => true
            end
  end.

(* atoms/ex_integer.go 21-23 *)
Definition int_toks (z : Z) : list tok :=
  if (z <? 0)%Z then [TMinus; TInt (Z.to_N (- z))] else [TInt (Z.to_N z)].

(* heads whose definition has a toString function that does something in
   InputForm, other than Plus, Times, Power and List: not modelled.  (Sin, Cos,
   Tan, ArcTan, Cot, Log, Subscript decline unless the form is TeXForm.)  Also
   the forms of ex_expression.go 113-119. *)
Definition special : list string :=
  map sysname ["And"; "Or"; "Equal"; "Unequal"; "SameQ"; "UnsameQ"; "Less"; "Greater"; "LessEqual"; "GreaterEqual"; "HoldForm"; "Part";
    "Pattern"; "Blank"; "BlankSequence"; "BlankNullSequence"; "Optional"; "ReplaceAll"; "ReplaceRepeated"; "Rule"; "RuleDelayed";
    "StringJoin"; "Infix"; "Definition"; "Set"; "SetDelayed";
    "InputForm"; "FullForm"; "TraditionalForm"; "TeXForm"; "StandardForm"; "OutputForm"]%string.

Fixpoint all_some {A} (l : list (option A)) : option (list A) :=
  match l with
  | [] => Some []
  | Some a :: t => option_map (cons a) (all_some t)
  | None :: _ => None
  end.

(* texts separated by a delimiter *)
Fixpoint joined (delim : list tok) (l : list (list tok)) : list tok :=
  match l with
  | [] => []
  | [x] => x
  | x :: t => x ++ delim ++ joined delim t
  end.

Definition parens (b : bool) (t : list tok) : list tok := if b then TLP :: t ++ [TRP] else t.

(* string.go 11-48 toStringInfix, for two parts or more; the texts are those of
   the parts printed with PreviousHead = thisHead *)
Definition infix (delim : list tok) (this : string) (p : prev) (texts : list (list tok)) : list tok :=
  parens (needs_parens this p) (joined delim texts).

(* builtin_arithmetic.go 194-207: the terms of a sum; a term that starts with
   '-' is written as a subtraction *)
Definition next_term (t : list tok) : list tok :=
  match t with
  | TMinus :: r => TSpace :: TMinus :: TSpace :: r
  | _ => TSpace :: TPlus :: TSpace :: t
  end.
Definition sum_text (texts : list (list tok)) : list tok :=
  match texts with
  | [] => []
  | t :: r => t ++ flat_map next_term r
  end.

(* strings.HasPrefix(s, "-1*") and s[3:] *)
Definition strip_neg_one (t : list tok) : option (list tok) :=
  match t with
  | TMinus :: TInt 1%N :: TTimes :: r => Some r
  | _ => None
  end.

(* ex_expression.go 124-140: the default format *)
Definition call_text (h : string) (args : list (list tok)) : list tok :=
  TName h :: TLB :: joined [TComma; TSpace] args ++ [TRB].

(* StringForm with Form = "InputForm"; None: not modelled.  The parts of a
   product are turned into printing functions first, as splitFrac makes new
   integers. *)
Fixpoint pr (p : prev) (e : ex) {struct e} : option (list tok) :=
  match e with
  | ESym n => Some [TName n]
  | EInt z => Some (int_toks z)
  | ERat n d => Some (parens (needs_parens (sysname "Times") p) (int_toks n ++ [TDiv] ++ int_toks d))
  | EExpr (ESym h :: args) =>
      let default := option_map (call_text h) (all_some (map (pr Top) args)) in
      if String.eqb h (sysname "Plus") then
        if length args <? 2 then default
        else option_map (fun ts => parens (needs_parens h p) (sum_text ts)) (all_some (map (pr (Under h)) args))
      else if String.eqb h (sysname "Times") then
        (* builtin_arithmetic.go 144-166 splitFrac and 299-308 *)
        let split (x : ex) : option (prev -> option (list tok)) * option (prev -> option (list tok)) :=
          match x with
          | EExpr [ESym g; b; EInt z] =>
              if String.eqb g (sysname "Power") && (wrap64 z =? -1)%Z then (None, Some (fun q => pr q b))
              else (Some (fun q => pr q x), None)
          | ERat n d => ((if (wrap64 n =? 1)%Z then None else Some (fun _ => Some (int_toks n))), Some (fun _ => Some (int_toks d)))
          | _ => (Some (fun q => pr q x), None)
          end in
        let somes := fold_right (fun (o : option (prev -> option (list tok))) acc => match o with Some f => f :: acc | None => acc end) [] in
        let num := somes (map (fun x => fst (split x)) args) in
        let den := somes (map (fun x => snd (split x)) args) in
        (* builtin_arithmetic.go 311-334 *)
        let side (l : list (prev -> option (list tok))) : option (list tok) :=
          match l with
          | [f] => f p
          | _ => option_map (infix [TTimes] h p) (all_some (map (fun f => f (Under h)) l))
          end in
        match num, den with
        | [], _ => default
        | [_], [] => default
        | _, _ :: _ =>
            match side num, side den with
            | Some n, Some d =>
                match strip_neg_one n with
                | Some n' => Some ([TMinus; TLP] ++ n' ++ [TRP; TDiv; TLP] ++ d ++ [TRP])
                | None => Some ([TLP] ++ n ++ [TRP; TDiv; TLP] ++ d ++ [TRP])
                end
            | _, _ => None
            end
        | _, [] =>
            option_map (fun r => match strip_neg_one r with Some r' => TMinus :: r' | None => r end) (side num)
        end
      else if String.eqb h (sysname "Power") then
        match args with
        | [b; x] =>
            if is_sameq x (ERat 1 2) then option_map (fun t => TName (sysname "Sqrt") :: TLB :: t ++ [TRB]) (pr Top b)
            else if is_sameq x (ERat (-1) 2) then
              option_map (fun t => [TLP; TInt 1; TDiv; TName (sysname "Sqrt"); TLB] ++ t ++ [TRB; TRP]) (pr Top b)
            else if is_sameq x (EInt (-1)) then option_map (fun t => [TLP; TInt 1; TDiv; TLP] ++ t ++ [TRP; TRP]) (pr Top b)
            else option_map (infix [TPow] h p) (all_some (map (pr (Under h)) args))
        | _ => if length args <? 2 then default
               else option_map (infix [TPow] h p) (all_some (map (pr (Under h)) args))
        end
      else if String.eqb h (sysname "List") then
        (* builtin_list.go 18-47 *)
        option_map (fun ts => TLC :: joined [TComma; TSpace] ts ++ [TRC]) (all_some (map (pr Top) args))
      else if existsb (String.eqb h) special then None
      else default
  | EExpr (h :: args) =>
      (* a head that is not a symbol is printed with the PreviousHead of the call *)
      match pr p h, all_some (map (pr Top) args) with
      | Some ht, Some ats => Some (ht ++ TLB :: joined [TComma; TSpace] ats ++ [TRB])
      | _, _ => None
      end
  | _ => None
  end.

(* builtin_string.go 17-45: ToString[e, InputForm] *)
Definition input_form (e : ex) : option (list tok) := pr Top e.
