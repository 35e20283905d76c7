(* What the list functions of the library should do. *)
From Verif Require Import M_Syntax.
From Coq Require Import Sorted.
Open Scope nat_scope.

(* lexicographic order of positions *)
Inductive lex : list nat -> list nat -> Prop :=
| lex_here i j s t : i < j -> lex (i :: s) (j :: t)
| lex_later i s t : lex s t -> lex (i :: s) (i :: t).

(* ts lists the n-tuples over l: every choice of n positions once, in
   lexicographic order of the positions *)
Definition all_tuples (l : list ex) (n : nat) (ts : list (list ex)) : Prop :=
  exists ps : list (list nat),
    StronglySorted lex ps /\
    (forall p, In p ps <-> length p = n /\ Forall (fun i => i < length l) p) /\
    Forall2 (Forall2 (fun i x => nth_error l i = Some x)) ps ts.

(* f[... f[f[x, a1], a2] ..., an] *)
Inductive folded (f : ex) : ex -> list ex -> ex -> Prop :=
| folded_nil x : folded f x [] x
| folded_snoc x l a v : folded f x l v -> folded f x (l ++ [a]) (EExpr [f; v; a]).
(* f applied n times *)
Inductive nested (f : ex) (x : ex) : Z -> ex -> Prop :=
| nested_0 : nested f x 0%Z x
| nested_S n v : nested f x n v -> nested f x (n + 1)%Z (EExpr [f; v]).

(* how often x occurs in l *)
Inductive occurs_times (x : ex) : list ex -> nat -> Prop :=
| ot_nil : occurs_times x [] 0
| ot_same l n : occurs_times x l n -> occurs_times x (x :: l) (S n)
| ot_other y l n : y <> x -> occurs_times x l n -> occurs_times x (y :: l) n.
