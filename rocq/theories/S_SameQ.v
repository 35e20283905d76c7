(* Specification vocabulary for SameQ. *)
From Verif Require Import M_Syntax.
Open Scope Z_scope.

(* no Rational and no machine real anywhere *)
Fixpoint no_rat_flt (e : ex) : bool :=
  match e with
  | ERat _ _ | EFlt _ => false
  | ECplx a b => no_rat_flt a && no_rat_flt b
  | EExpr l => (fix go (l : list ex) : bool :=
      match l with [] => true | x :: t => no_rat_flt x && go t end) l
  | _ => true
  end.

(* x and y sit at the same position inside a and b *)
Inductive same_position : ex -> ex -> ex -> ex -> Prop :=
| sp_here a b : same_position a b a b
| sp_re r i r' i' x y : same_position r r' x y -> same_position (ECplx r i) (ECplx r' i') x y
| sp_im r i r' i' x y : same_position i i' x y -> same_position (ECplx r i) (ECplx r' i') x y
| sp_part l l' k p q x y : nth_error l k = Some p -> nth_error l' k = Some q ->
    same_position p q x y -> same_position (EExpr l) (EExpr l') x y.

(* (-1)^s m 2^e with 2^52 <= m < 2^53 in the normal float64 range *)
Definition normal_flt (f : flt) : Prop :=
  match f with
  | FFin _ m e _ => 2 ^ 52 <= Z.of_N m < 2 ^ 53 /\ -1074 <= e <= 971
  | FInf _ => False
  end.

(* same sign, and equal or neighbouring 53-bit values *)
Definition within_one_ulp (f g : flt) : Prop :=
  match f, g with
  | FFin s m e _, FFin s' m' e' _ =>
      s = s' /\
      ( (e = e' /\ Z.abs (Z.of_N m - Z.of_N m') <= 1)
        \/ (e' = e + 1 /\ Z.of_N m = 2 ^ 53 - 1 /\ Z.of_N m' = 2 ^ 52)
        \/ (e = e' + 1 /\ Z.of_N m' = 2 ^ 53 - 1 /\ Z.of_N m = 2 ^ 52))
  | _, _ => False
  end.
