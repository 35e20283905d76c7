(* What reading an expression should mean. *)
From Verif Require Import M_Syntax M_Parse S_Matrix.
Open Scope nat_scope.

(* a0 op1 a1 op2 a2 ..., operators grouping to the left *)
Definition chain (a0 : past) (l : list (string * past)) : past :=
  fold_left (fun a p => PAssoc (fst p) a (snd p)) l a0.

Definition comparisons : list string := ["Equal"; "Unequal"; "Less"; "LessEqual"; "Greater"; "GreaterEqual"]%string.
Definition comparison_heads : list ex := map sys ("Inequality" :: comparisons)%string.

(* e is h[...] for one of the heads hs *)
Definition headed_by (hs : list ex) (e : ex) : Prop := exists h l, In h hs /\ e = EExpr (h :: l).

(* Internal`Parens[x, ...] occurs nowhere in e *)
Inductive paren_free : ex -> Prop :=
| pf_atom e : is_expr e = false -> paren_free e
| pf_expr l : (forall x, In x l -> paren_free x) -> (forall x t, l <> ESym "Internal`Parens" :: x :: t) -> paren_free (EExpr l).

(* the symbols of an expression from left to right *)
Fixpoint symbols (e : ex) : list string :=
  match e with
  | ESym s => [s]
  | EExpr l => flat_map symbols l
  | _ => []
  end.
(* an expression with its symbols blanked out *)
Fixpoint shape (e : ex) : ex :=
  match e with
  | ESym _ => ESym ""
  | EExpr l => EExpr (map shape l)
  | _ => e
  end.

(* a name with a context mark in it *)
Definition qualified (n : string) : Prop := exists a b, n = append a (append "`" b).
(* a context: a name ending in a context mark *)
Definition context_name (c : string) : Prop := exists a, c = append a "`".

(* [names_symbol ctx path known n r]: with current context ctx, context path
   [path] and the symbols [known], the name n denotes the symbol r *)
Inductive names_symbol (ctx : string) (path : list string) (known : list string) (n : string) : string -> Prop :=
| ns_qualified : qualified n -> names_symbol ctx path known n n
| ns_path pre c post : ~ qualified n -> path = pre ++ c :: post -> In (append c n) known ->
    (forall c', In c' pre -> ~ In (append c' n) known) -> names_symbol ctx path known n (append c n)
| ns_current : ~ qualified n -> (forall c, In c path -> ~ In (append c n) known) ->
    names_symbol ctx path known n (append ctx n).

(* the meaning of infix arithmetic under a valuation of the other expressions *)
Fixpoint meaning {R : semiring} (neg_flt : flt -> flt) (inv : R -> R) (v : ex -> R) (p : past) : R :=
  let m := meaning neg_flt inv v in
  let m1 := v (EInt (-1)) in
  match p with
  | PAssoc op a b =>
      if String.eqb op "Plus" then sadd (m a) (m b)
      else if String.eqb op "Times" then smul (m a) (m b)
      else v (unparen (conv neg_flt p))
  | PSub a b => sadd (m a) (smul (m b) m1)
  | PNeg a => smul (m a) m1
  | PDiv a b => smul (m a) (inv (m b))
  | PParen a => m a
  | _ => v (unparen (conv neg_flt p))
  end.

Definition no_under (s : string) : Prop := forall a b, s <> append a (append "_" b).

(* the identifiers of a syntax tree *)
Fixpoint idents (p : past) : list string :=
  match p with
  | PIdent s => [unicode_redefine s]
  | PMessage s _ => [unicode_redefine s]
  | PInfo s _ => [unicode_redefine s]
  | PPattern s => symbols (parse_pattern s)
  | PBin _ a b | PAssoc _ a b | PColon a b | PDiv a b | PSub a b | PPost a b | PPre a b | PApply1 a b => idents a ++ idents b
  | PUn _ a | PSemi a | PParen a | PNeg a | PDeriv a | PSqrt a => idents a
  | PCall f l | PPart f l => idents f ++ flat_map idents l
  | PList l => flat_map idents l
  | PInt _ | PFloat _ | PString _ | PSlot _ | POut _ => []
  end.

(* replacing every symbol through f *)
Fixpoint rename (f : string -> string) (e : ex) : ex :=
  match e with
  | ESym s => ESym (f s)
  | EExpr l => EExpr (map (rename f) l)
  | _ => e
  end.
