(* How text with operators is read, and which expressions can be written so that
   they are read back.  Specification for C102. *)
From Verif Require Import M_Syntax M_Hash M_Parse M_OpForm S_Parse S_InputForm.
Open Scope nat_scope.

(* ---- reading ----
   By precedence, with any table T:
     expr  ::= unary { op expr }      each op binds its right operand as far as
                                      operators of higher precedence (or equal
                                      precedence, if it groups to the right) go
     unary ::= - expr | prim { [ args ] or [[ args ]] }
     prim  ::= digits | name | string | pattern | { args } | ( expr )
   The result is the tree that the parser hands over (M_Parse). *)
Definition chain_ops : list string :=
  ["And"; "Or"; "StringJoin"; "Equal"; "Unequal"; "SameQ"; "UnsameQ"; "Less"; "Greater"; "LessEqual"; "GreaterEqual"; "Plus"; "Times"]%string.
Definition binary_ops : list string :=
  ["ReplaceAll"; "ReplaceRepeated"; "Rule"; "RuleDelayed"; "Set"; "SetDelayed"; "Power"]%string.
Definition build (op : string) (a b : past) : past :=
  if existsb (String.eqb op) chain_ops then PAssoc op a b
  else if String.eqb op "Pattern" then PColon a b
  else PBin op a b.

Inductive ophase : Type :=
| QExpr (m : nat)               (* an expression whose operators have precedence m or more *)
| QLoop (m : nat) (a : past)    (* the same, after its first operand a *)
| QUnary
| QPost (a : past)              (* what may follow the primary expression a *)
| QArgs (close : otok) (f : past) (args : list past)
| QMore (close : otok) (f : past) (args : list past).
Definition finish (close : otok) (f : past) (args : list past) : past :=
  match close with KRC => PList args | KRBB => PPart f args | _ => PCall f args end.
Definition closes (close t : otok) : bool :=
  match close, t with KRB, KRB => true | KRC, KRC => true | KRBB, KRBB => true | _, _ => false end.

Fixpoint ord (T : table) (fuel : nat) (ph : ophase) (ts : list otok) : option (past * list otok) :=
  match fuel with
  | O => None
  | S n =>
    let ord := ord T n in
    match ph with
    | QExpr m => match ord QUnary ts with Some (a, r) => ord (QLoop m a) r | None => None end
    | QLoop m a =>
        match ts with
        | KOp op :: r =>
            if m <=? tprec T op then
              match ord (QExpr (if right T op then tprec T op else S (tprec T op))) r with
              | Some (b, r') => ord (QLoop m (build op a b)) r'
              | None => None
              end
            else Some (a, ts)
        | KMinus :: r =>
            if m <=? tprec T "Plus" then
              match ord (QExpr (S (tprec T "Plus"))) r with
              | Some (b, r') => ord (QLoop m (PSub a b)) r'
              | None => None
              end
            else Some (a, ts)
        | _ => Some (a, ts)
        end
    | QUnary =>
        match ts with
        | KMinus :: r => match ord (QExpr (uminus T)) r with Some (a, r') => Some (PNeg a, r') | None => None end
        | KInt k :: r => ord (QPost (PInt (Z.of_N k))) r
        | KName s :: r => ord (QPost (PIdent s)) r
        | KStr s :: r => ord (QPost (PString s)) r
        | KPat s :: r => ord (QPost (PPattern s)) r
        | KLC :: r => match ord (QArgs KRC (PIdent "") []) r with Some (a, r') => ord (QPost a) r' | None => None end
        | KLP :: r => match ord (QExpr 0) r with Some (a, KRP :: r') => ord (QPost (PParen a)) r' | _ => None end
        | _ => None
        end
    | QPost a =>
        match ts with
        | KLB :: r => match ord (QArgs KRB a []) r with Some (b, r') => ord (QPost b) r' | None => None end
        | KLBB :: r => match ord (QArgs KRBB a []) r with Some (b, r') => ord (QPost b) r' | None => None end
        | _ => Some (a, ts)
        end
    | QArgs c f args =>
        match ts with
        | t :: r => if closes c t then Some (finish c f args, r)
                    else match ord (QExpr 0) ts with Some (a, r') => ord (QMore c f (args ++ [a])) r' | None => None end
        | [] => None
        end
    | QMore c f args =>
        match ts with
        | KComma :: r => match ord (QExpr 0) r with Some (a, r') => ord (QMore c f (args ++ [a])) r' | None => None end
        | t :: r => if closes c t then Some (finish c f args, r) else None
        | [] => None
        end
    end
  end.

(* the text ts is read as the expression e, when negation of floats is nf *)
Definition op_reads (T : table) (nf : flt -> flt) (ts : list otok) (e : ex) : Prop :=
  exists n p, ord T n (QExpr 0) ts = Some (p, []) /\ unparen (conv nf p) = e.

(* ---- the tables considered ---- *)
Definition arith : list string := ["Plus"; "Times"; "Power"]%string.
Definition loose : list string :=
  ["And"; "Or"; "StringJoin"; "Equal"; "Unequal"; "SameQ"; "UnsameQ"; "Less"; "Greater"; "LessEqual"; "GreaterEqual";
   "ReplaceAll"; "ReplaceRepeated"; "Rule"; "RuleDelayed"; "Set"; "SetDelayed"]%string.
(* arithmetic binds tighter than anything else here, == and != bind alike, and
   operators that can be repeated group to the left.  Nothing else is assumed. *)
Record sane (T : table) : Prop := {
  arith_tight : forall op a, In op loose -> In a arith -> tprec T op < tprec T a;
  sign_tight : forall op, In op loose -> tprec T op < uminus T;
  eq_alike : tprec T "Equal" = tprec T "Unequal";
  group_left : forall op, In op chain_ops -> right T op = false
}.

(* ---- the expressions considered ---- *)
(* names that are read as they are written *)
Definition plain_name (s : string) : Prop :=
  ~ In s ["π"; "ⅈ"; "ⅉ"; "Internal`Parens"]%string.
Definition pattern_name (s : string) : Prop := s <> ""%string /\ (forall a b, s <> append a (append "_" b)).
Definition plain_text (s : string) : Prop := forall a b, s <> append a (String """" b) /\ s <> append a (String "\" b).
Definition neg_int (e : ex) : Prop := exists z, e = EInt z /\ (z < 0)%Z.

(* heads with a notation of their own, given enough arguments *)
Definition notations : list string :=
  ["List"; "Part"; "Pattern"; "Blank"; "BlankSequence"; "BlankNullSequence"; "HoldForm"; "Optional"; "Infix"; "Definition";
   "InputForm"; "FullForm"; "TraditionalForm"; "TeXForm"; "StandardForm"; "OutputForm"]%string.
(* h[args] is written as a call *)
Definition call_form (h : string) (args : list ex) : Prop :=
  plain_name h /\
  (forall op, h = sysname op -> ~ In op notations /\ (In op chain_ops -> length args < 2) /\
     (In op binary_ops -> op <> "Power"%string -> length args <> 2) /\ (op = "Power"%string -> length args < 2)).
(* Equal[x] before == looks like the left part of a longer comparison, and so on *)
Definition absorbed (op : string) (e : ex) : Prop :=
  exists h args, e = EExpr (sys h :: args) /\
    (h = op /\ length args < 2 \/
     In op ["Equal"; "Unequal"]%string /\ (In h comparisons /\ length args < 2 \/ h = "Inequality"%string)).
Definition surrounded : list string :=
  ["Less"; "Greater"; "LessEqual"; "GreaterEqual"; "ReplaceAll"; "ReplaceRepeated"]%string.
Definition unsplit (x : ex) : Prop :=
  (forall n d, x <> ERat n d) /\ (forall b z, x = EExpr [sys "Power"; b; EInt z] -> (z mod 2 ^ 64 <> 2 ^ 64 - 1)%Z).

Inductive blank_of : nat -> string -> Prop := b1 : blank_of 1 "Blank" | b2 : blank_of 2 "BlankSequence" | b3 : blank_of 3 "BlankNullSequence".
Inductive blank : ex -> Prop :=
| bl_all k b : blank_of k b -> blank (EExpr [sys b])
| bl_head k b h : blank_of k b -> pattern_name h -> h <> "."%string -> blank (EExpr [sys b; ESym h]).

(* [writable e]; [closed e]: what may stand before [ or [[ *)
Inductive writable : ex -> Prop :=
| w_int z : writable (EInt z)
| w_closed e : closed e -> writable e
| w_chain op e0 args : In op loose -> In op chain_ops -> args <> [] -> Forall writable (e0 :: args) ->
    (~ In op surrounded -> ~ absorbed op e0) -> writable (EExpr (sys op :: e0 :: args))
| w_binary op a b : In op loose -> In op binary_ops -> writable a -> writable b -> writable (EExpr [sys op; a; b])
| w_plus e0 args : args <> [] -> Forall writable (e0 :: args) -> Forall (fun x => ~ neg_int x) (e0 :: args) -> ~ absorbed "Plus" e0 ->
    writable (EExpr (sys "Plus" :: e0 :: args))
| w_times e0 args : args <> [] -> Forall writable (e0 :: args) -> Forall (fun x => ~ neg_int x) (e0 :: args) -> ~ absorbed "Times" e0 ->
    Forall unsplit (e0 :: args) -> writable (EExpr (sys "Times" :: e0 :: args))
| w_power a b : writable a -> writable b -> ~ neg_int a -> ~ neg_int b ->
    Forall (fun y => is_sameq b y = false) [ERat 1 2; ERat (-1) 2; EInt (-1)] -> writable (EExpr [sys "Power"; a; b])
with closed : ex -> Prop :=
| c_sym s : plain_name s -> closed (ESym s)
| c_nat z : (0 <= z)%Z -> closed (EInt z)
| c_str s : plain_text s -> closed (EStr s)
| c_blank e : blank e -> closed e
| c_pattern s e : pattern_name s -> blank e -> closed (EExpr [sys "Pattern"; ESym s; e])
| c_list args : Forall writable args -> closed (EExpr (sys "List" :: args))
| c_call h args : call_form h args -> Forall writable args -> Forall (fun x => h = sysname "Times" -> unsplit x) args -> closed (EExpr (ESym h :: args))
| c_part e i args : closed e -> Forall writable (i :: args) -> closed (EExpr (sys "Part" :: e :: i :: args))
| c_apply h args : closed h -> is_sym h = false -> Forall writable args -> closed (EExpr (h :: args)).
