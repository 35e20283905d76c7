(* Which expressions the FullForm text should determine. *)
From Verif Require Import M_Syntax M_Print.
Open Scope nat_scope.

(* characters that cannot separate parts of a text *)
Definition plain_char (c : ascii) : bool :=
  negb (existsb (Ascii.eqb c) ["["; "]"; ","; " "; """"]%char).
Fixpoint plain (s : string) : bool :=
  match s with EmptyString => true | String c t => plain_char c && plain t end.
(* the text of a name: nonempty, no separators, not starting like a number *)
Definition name_text (s : string) : Prop :=
  match s with
  | EmptyString => False
  | String c t => plain s = true /\ ~ In c ["-"; "0"; "1"; "2"; "3"; "4"; "5"; "6"; "7"; "8"; "9"]%char
  end.
Fixpoint no_quote (s : string) : bool :=
  match s with EmptyString => true | String c t => negb (Ascii.eqb c """") && no_quote t end.

(* built from symbols that print as names, integers, strings without quotes and
   nonempty compound expressions, without the wrappers InputForm[x] etc. *)
Inductive printable (ctx : string) (path : list string) : ex -> Prop :=
| pr_sym n : name_text (sym_text ctx path n) -> printable ctx path (ESym n)
| pr_int z : printable ctx path (EInt z)
| pr_str s : no_quote s = true -> printable ctx path (EStr s)
| pr_expr h args : printable ctx path h -> (forall x, In x args -> printable ctx path x) ->
    (forall w x, h = ESym w -> args = [x] -> ~ In w forms) ->
    printable ctx path (EExpr (h :: args)).

(* the symbols of an expression *)
Inductive mentions (n : string) : ex -> Prop :=
| mn_sym : mentions n (ESym n)
| mn_part l x : In x l -> mentions n x -> mentions n (EExpr l).

(* different symbols of the two expressions have different short names *)
Definition distinct_names (ctx : string) (path : list string) (a b : ex) : Prop :=
  forall n m, mentions n a -> mentions m b -> sym_text ctx path n = sym_text ctx path m -> n = m.

(* An expression with its rationals and its complex numbers with integer parts
   written as calls of Rational and Complex. *)
Fixpoint as_calls (e : ex) : ex :=
  match e with
  | ERat n d => EExpr [sys "Rational"; EInt n; EInt d]
  | ECplx (EInt a) (EInt b) => EExpr [sys "Complex"; EInt a; EInt b]
  | EExpr l => EExpr (map as_calls l)
  | _ => e
  end.
(* without calls of Rational and Complex that were not numbers to begin with *)
Inductive no_number_calls : ex -> Prop :=
| nn_atom e : (forall l, e <> EExpr l) -> no_number_calls e
| nn_expr l : (forall x, In x l -> no_number_calls x) ->
    (forall t, l <> sys "Rational" :: t) -> (forall t, l <> sys "Complex" :: t) -> no_number_calls (EExpr l).
