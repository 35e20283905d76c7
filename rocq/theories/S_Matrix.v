(* What the matrix functions and Distribute should do. *)
From Verif Require Import M_Syntax M_Float M_Hash.
Open Scope nat_scope.

(* e is h[...] *)
Definition headed (h e : ex) : Prop := exists h' l, e = EExpr (h' :: l) /\ is_sameq h h' = true.

(* [full_array h ds e]: e is an array with head h and dimensions ds: a part
   that is not headed by h when ds is empty, and otherwise h[...] with as many
   elements as the first dimension, each an array with the other dimensions.
   An array with no elements has no further dimensions. *)
Inductive full_array (h : ex) : list nat -> ex -> Prop :=
| fa_leaf e : ~ headed h e -> full_array h [] e
| fa_empty : full_array h [0] (EExpr [h])
| fa_node ds x l : (forall y, In y (x :: l) -> full_array h ds y) ->
    full_array h (length (x :: l) :: ds) (EExpr (h :: x :: l)).

(* [uniform h ds e]: the first levels of e agree with ds; nothing is said
   about what lies below.  Below an empty level there are no further ones. *)
Inductive uniform (h : ex) : list nat -> ex -> Prop :=
| uf_any e : uniform h [] e
| uf_node ds h' l : is_sameq h h' = true -> (l = [] -> ds = []) -> (forall y, In y l -> uniform h ds y) ->
    uniform h (length l :: ds) (EExpr (h' :: l)).

(* the element in row i and column j (counted from 0) of a list of lists *)
Definition entry (m : ex) (i j : nat) : option ex :=
  match m with
  | EExpr (_ :: rows) =>
      match nth_error rows i with
      | Some (EExpr (_ :: row)) => nth_error row j
      | _ => None
      end
  | _ => None
  end.
(* m is a list of h lists of w elements each *)
Definition is_matrix (h w : nat) (m : ex) : Prop :=
  exists rows, m = mkList rows /\ length rows = h /\
    forall r, In r rows -> exists row, r = mkList row /\ length row = w.

(* all ways of choosing one element from each list, in lexicographic order *)
Fixpoint choices {A} (l : list (list A)) : list (list A) :=
  match l with
  | [] => [[]]
  | s :: t => flat_map (fun x => map (cons x) (choices t)) s
  end.
(* the summands of x with respect to the head p *)
Definition summands (p x : ex) : list ex :=
  match x with
  | EExpr (h :: t) => if ex_eqb h p then t else [x]
  | _ => [x]
  end.
(* no head of an argument other than p itself has the hash of p *)
Definition head_hash_faithful (p : ex) (l : list ex) : Prop :=
  forall h t, In (EExpr (h :: t)) l -> hash h = hash p -> h = p.

(* a ring without negatives; multiplication need not commute *)
Record semiring : Type := SR {
  car :> Type;
  szero : car; sone : car;
  sadd : car -> car -> car;
  smul : car -> car -> car;
  sadd_0 : forall x, sadd szero x = x;
  sadd_comm : forall x y, sadd x y = sadd y x;
  sadd_assoc : forall x y z, sadd x (sadd y z) = sadd (sadd x y) z;
  smul_1_l : forall x, smul sone x = x;
  smul_1_r : forall x, smul x sone = x;
  smul_0_l : forall x, smul szero x = szero;
  smul_0_r : forall x, smul x szero = szero;
  smul_assoc : forall x y z, smul x (smul y z) = smul (smul x y) z;
  smul_add_l : forall x y z, smul x (sadd y z) = sadd (smul x y) (smul x z);
  smul_add_r : forall x y z, smul (sadd x y) z = sadd (smul x z) (smul y z)
}.
Arguments szero {_}. Arguments sone {_}. Arguments sadd {_}. Arguments smul {_}.
Definition ssum {R : semiring} (l : list R) : R := fold_right sadd szero l.
Definition sprod {R : semiring} (l : list R) : R := fold_right smul sone l.

(* v gives p[...] the sum and t[...] the product of the values of the arguments *)
Definition sum_valuation {R : semiring} (v : ex -> R) (p : ex) : Prop :=
  forall l, v (EExpr (p :: l)) = ssum (map v l).
Definition product_valuation {R : semiring} (v : ex -> R) (t : ex) : Prop :=
  forall l, v (EExpr (t :: l)) = sprod (map v l).
(* the value of an entry *)
Definition entry_value {R : semiring} (v : ex -> R) (m : ex) (i j : nat) : R :=
  match entry m i j with Some x => v x | None => szero end.
