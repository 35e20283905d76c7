(* What the list functions should do. *)
From Verif Require Import M_Syntax M_Float M_Hash M_Order M_Sort S_Sort.
From Coq Require Import Permutation.
Open Scope nat_scope.

Definition in_int64 (z : Z) : Prop := (- 2 ^ 63 <= z < 2 ^ 63)%Z.

(* [part_of ix e x]: x is e[[ix]].  The parts of h[a1,...,an] are numbered
   0 (the head), 1, ..., n. *)
Inductive part_of : list ex -> ex -> ex -> Prop :=
| po_done e : part_of [] e e
| po_int k r parts p x : nth_error parts k = Some p -> part_of r p x ->
    part_of (EInt (Z.of_nat k) :: r) (EExpr parts) x
| po_all r h args out : Forall2 (part_of r) args out ->
    part_of (ESym "System`All" :: r) (EExpr (h :: args)) (EExpr (h :: out))
| po_span r h before mid after out :
    Forall2 (part_of r) mid out ->
    part_of (EExpr [ESym "System`Span"; EInt (Z.of_nat (length before + 1)); EInt (Z.of_nat (length before + length mid))] :: r)
      (EExpr (h :: before ++ mid ++ after)) (EExpr (h :: out))
| po_span_all r h before mid out :
    Forall2 (part_of r) mid out ->
    part_of (EExpr [ESym "System`Span"; EInt (Z.of_nat (length before + 1)); ESym "System`All"] :: r)
      (EExpr (h :: before ++ mid)) (EExpr (h :: out)).

(* integers inside an index are machine-sized, and a range does not start at
   0 nor end before its start minus one *)
Definition index_ok (i : ex) : Prop :=
  match i with
  | EInt z => in_int64 z
  | EExpr [_; a; b] =>
      match a, b with
      | EInt x, EInt y => in_int64 x /\ in_int64 y /\ (1 <= x)%Z /\ (x <= y + 1)%Z
      | EInt x, _ => in_int64 x /\ (1 <= x)%Z
      | _, EInt y => in_int64 y
      | _, _ => True
      end
  | _ => True
  end.

(* the first occurrences of l, in order, equality of elements being equality
   of hashes *)
Inductive first_occurrences : list ex -> list ex -> Prop :=
| fo_nil : first_occurrences [] []
| fo_new l l' x : first_occurrences l l' -> ~ In (hash x) (map hash l) ->
    first_occurrences (l ++ [x]) (l' ++ [x])
| fo_old l l' x : first_occurrences l l' -> In (hash x) (map hash l) ->
    first_occurrences (l ++ [x]) l'.

(* no two different elements have the same hash *)
Definition hash_faithful (l : list ex) : Prop :=
  forall x y, In x l -> In y l -> hash x = hash y -> x = y.

(* Flattening by single removals: a list of elements, each with the number of
   levels that may still be removed from it; one step replaces an element
   h[t...] by t... *)
Inductive unnest (h : ex) : list (ex * Z) -> list (ex * Z) -> Prop :=
| un_step before t d after : (0 < d)%Z ->
    unnest h (before ++ (EExpr (h :: t), d) :: after)
             (before ++ map (fun x => (x, d - 1)%Z) t ++ after).
Inductive unnests (h : ex) : list (ex * Z) -> list (ex * Z) -> Prop :=
| uns_done l : unnests h l l
| uns_step l l' l'' : unnest h l l' -> unnests h l' l'' -> unnests h l l''.

(* the heads of all compound subexpressions *)
Fixpoint inner_heads (e : ex) : list ex :=
  match e with
  | EExpr (h :: t) => h :: flat_map inner_heads (h :: t)
  | _ => []
  end.
(* no head inside l other than h itself passes for h *)
Definition head_faithful (h : ex) (l : list ex) : Prop :=
  forall h', In h' (flat_map inner_heads l) -> is_sameq h h' = true -> h' = h.

(* nesting depth of an expression *)
Fixpoint depth (e : ex) : Z :=
  match e with
  | EExpr l => (1 + fold_right (fun x n => Z.max (depth x) n) 0 l)%Z
  | _ => 0%Z
  end.
