(* What comparisons of exact numbers mean. *)
From Verif Require Import M_Syntax S_Num.
From Coq Require Import QArith.
Open Scope Z_scope.

(* no machine real anywhere *)
Fixpoint no_flt (e : ex) : bool :=
  match e with
  | EFlt _ => false
  | ECplx a b => no_flt a && no_flt b
  | EExpr l => (fix go (l : list ex) : bool := match l with [] => true | x :: t => no_flt x && go t end) l
  | _ => true
  end.

(* every adjacent pair is related *)
Fixpoint chain {A} (R : A -> A -> Prop) (l : list A) : Prop :=
  match l with
  | x :: ((y :: _) as t) => R x y /\ chain R t
  | _ => True
  end.

(* integers that a machine real represents exactly *)
Definition small_int (e : ex) : bool := match e with EInt z => Z.abs z <=? 2 ^ 53 | _ => false end.

(* the integers at the leaves of nested lists, left to right *)
Fixpoint int_leaves (e : ex) : option (list Z) :=
  match e with
  | EInt z => Some [z]
  | EExpr (ESym s :: t) =>
      if String.eqb s (sysname "List") then
        (fix go (l : list ex) : option (list Z) :=
           match l with
           | [] => Some []
           | x :: l' => match int_leaves x, go l' with Some a, Some b => Some (a ++ b) | _, _ => None end
           end) t
      else None
  | _ => None
  end.
Fixpoint all_int_leaves (l : list ex) : option (list Z) :=
  match l with
  | [] => Some []
  | x :: l' => match int_leaves x, all_int_leaves l' with Some a, Some b => Some (a ++ b) | _, _ => None end
  end.

(* nesting depth of an expression *)
Fixpoint nesting (e : ex) : Z :=
  match e with
  | EExpr l => 1 + (fix go (l : list ex) : Z := match l with [] => 0 | x :: t => Z.max (nesting x) (go t) end) l
  | _ => 0
  end.

(* mixed chains of integers: a op1 z1 op2 z2 ... *)
Inductive cmpop := CLess | CLessEqual | CGreater | CGreaterEqual | CEqual.
Definition cmp_rel (o : cmpop) (a b : Z) : Prop :=
  match o with CLess => a < b | CLessEqual => a <= b | CGreater => a > b | CGreaterEqual => a >= b | CEqual => a = b end.
Definition cmp_name (o : cmpop) : ex :=
  match o with
  | CLess => sys "Less" | CLessEqual => sys "LessEqual" | CGreater => sys "Greater"
  | CGreaterEqual => sys "GreaterEqual" | CEqual => sys "Equal"
  end.
Fixpoint links_hold (a : Z) (l : list (cmpop * Z)) : Prop :=
  match l with [] => True | (o, z) :: t => cmp_rel o a z /\ links_hold z t end.
Definition upward (o : cmpop) : Prop := o = CLess \/ o = CLessEqual.
Definition downward (o : cmpop) : Prop := o = CGreater \/ o = CGreaterEqual.
