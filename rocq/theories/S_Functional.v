(* What mapping at levels should do. *)
From Verif Require Import M_Syntax.
Open Scope Z_scope.

(* one end of a level specification: an integer, Infinity or -Infinity *)
Inductive bound : Type := Lv (z : Z) | PInf | NInf.
(* the specifications n, {n} and {n1, n2} *)
Inductive level_spec : Type := Upto (b : bound) | Exactly (b : bound) | Between (a b : bound).

(* how they are written *)
Definition bound_ex (b : bound) : ex :=
  match b with
  | Lv z => EInt z
  | PInf => ESym "System`Infinity"
  | NInf => EExpr [ESym "System`Times"; EInt (-1); ESym "System`Infinity"]
  end.
Definition level_ex (u : level_spec) : ex :=
  match u with
  | Upto b => bound_ex b
  | Exactly b => EExpr [ESym "System`List"; bound_ex b]
  | Between a b => EExpr [ESym "System`List"; bound_ex a; bound_ex b]
  end.
(* n is short for {1, n}, and {n} for {n, n} *)
Definition low (u : level_spec) : bound := match u with Upto _ => Lv 1 | Exactly b => b | Between a _ => a end.
Definition high (u : level_spec) : bound := match u with Upto b => b | Exactly b => b | Between _ b => b end.

(* Depth[e]: 1 for an atom, one more than the deepest argument otherwise *)
Fixpoint depth (e : ex) : nat :=
  match e with
  | EExpr (_ :: args) => S (fold_right (fun x m => Nat.max (depth x) m) 1%nat args)
  | EExpr [] => 2
  | _ => 1
  end.

(* level n >= 0: at least / at most n indices are needed to reach the
   subexpression; level -n: its depth is at most / at least n *)
Definition above (b : bound) (level d : nat) : bool :=
  match b with
  | Lv z => if z <? 0 then Z.of_nat d <=? - z else z <=? Z.of_nat level
  | PInf => false
  | NInf => true
  end.
Definition below (b : bound) (level d : nat) : bool :=
  match b with
  | Lv z => if z <? 0 then - z <=? Z.of_nat d else Z.of_nat level <=? z
  | PInf => true
  | NInf => false
  end.
Definition selected (u : level_spec) (level : nat) (e : ex) : bool :=
  above (low u) level (depth e) && below (high u) level (depth e).

(* apply g (which also gets the position) to the selected subexpressions, from
   the inside out; heads are left alone *)
Fixpoint map_at (sel : nat -> ex -> bool) (g : ex -> list Z -> ex) (path : list Z) (e : ex) : ex :=
  let e' := match e with
            | EExpr (h :: args) =>
                EExpr (h :: (fix go (i : Z) (args : list ex) : list ex :=
                   match args with
                   | [] => []
                   | x :: t => map_at sel g (path ++ [i]) x :: go (i + 1) t
                   end) 1 args)
            | _ => e
            end in
  if sel (length path) e then g e' path else e'.

(* all subexpressions with their levels *)
Fixpoint subexprs (level : nat) (e : ex) : list (nat * ex) :=
  (level, e) :: match e with EExpr (_ :: args) => flat_map (subexprs (S level)) args | _ => [] end.

(* machine-sized bounds *)
Definition bound_ok (b : bound) : Prop := match b with Lv z => - 2 ^ 63 < z < 2 ^ 63 | _ => True end.
Definition spec_ok (u : level_spec) : Prop := bound_ok (low u) /\ bound_ok (high u).
(* Infinity is represented by 2^31 - 1 *)
Definition shallow (e : ex) : Prop := Z.of_nat (depth e) < 2 ^ 31 - 1.

Definition by_level (b : bound) : Prop := match b with Lv z => 0 <= z | PInf => True | NInf => False end.
Definition by_depth (b : bound) : Prop := ~ by_level b.

(* The specifications for which the code selects exactly the right
   subexpressions of e; for the others see the refutations in T_Functional.v:
   {1, 0}; {n1, -1} with n1 >= 2; {-n1, n2} with finite n2 >= 1; atoms with a
   specification by depth. *)
Definition exact (u : level_spec) (e : ex) : Prop :=
  (by_level (low u) /\ by_level (high u) /\ ~ (low u = Lv 1 /\ high u = Lv 0)) \/
  (is_expr e = true /\
   ((by_depth (low u) /\ by_depth (high u)) \/
    (by_level (low u) /\ by_depth (high u) /\ (low u = Lv 0 \/ low u = Lv 1 \/ low u = PInf \/ high u <> Lv (-1))) \/
    (by_depth (low u) /\ by_level (high u) /\ (high u = Lv 0 \/ high u = PInf)))).


(* FoldList: the successive values of a fold *)
Inductive fold_values (f : ex) : ex -> list ex -> list ex -> Prop :=
| fv_nil x : fold_values f x [] [x]
| fv_cons x y t r : fold_values f (EExpr [f; x; y]) t r -> fold_values f x (y :: t) (x :: r).
(* f[f[...f[x]]] with n applications *)
Definition nested (f x : ex) (n : nat) : ex := Nat.iter n (fun e => EExpr [f; e]) x.
