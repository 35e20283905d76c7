(* IntegerPartitions and Permutations: builtin_combinatorics.go 11-86, 106-194. *)
From Verif Require Import M_Syntax M_Float M_Hash M_NumTheory.
Open Scope Z_scope.

(* builtin_combinatorics.go 11-31: genIntegerPartitions.  [k] is the number of
   parts that may still be appended (the Go parameter k minus len(prefix)); the
   prefix is prepended to the results instead of being carried along.  The
   loop runs i = start, start-1, ..., 1. *)
Fixpoint gen_parts (k n start : nat) : list (list nat) :=
  match k with
  | O => []
  | S k' =>
      flat_map (fun i => if Nat.eqb i n then [[i]]
                         else map (cons i) (gen_parts k' (n - i) (Nat.min i (n - i))))
               (rev (seq 1 start))
  end.

(* builtin_combinatorics.go 107-163.  n.Val.Int64() takes the low 64 bits; a
   non-positive machine n makes the loop empty. None: returned unevaluated *)
Definition int_partitions_eval (args : list ex) : option ex :=
  let go (n k : Z) : ex :=
    if n <? 0 then mkList []
    else if n =? 0 then mkList [mkList []]
    else
      let nm := wrap64 n in
      let km := wrap64 k in
      mkList (map (fun p => mkList (map (fun i => EInt (Z.of_nat i)) p))
                  (gen_parts (Z.to_nat km) (Z.to_nat nm) (Z.to_nat nm))) in
  match args with
  | [EInt n] => Some (go n n)
  | [EInt n; EInt k] => Some (go n k)
  | _ => None
  end.

(* builtin_combinatorics.go 34-55: permListContains *)
Fixpoint same_list (p q : list ex) : bool :=
  match p, q with
  | [], [] => true
  | x :: p', y :: q' => is_sameq x y && same_list p' q'
  | _, _ => false
  end.
Definition perm_contains (l : list (list ex)) (p : list ex) : bool := existsb (fun q => same_list p q) l.

(* every element together with the list without it, in order
   (builtin_combinatorics.go 68-73) *)
Fixpoint picks (l : list ex) : list (ex * list ex) :=
  match l with
  | [] => []
  | x :: t => (x, t) :: map (fun '(y, r) => (y, x :: r)) (picks t)
  end.

(* builtin_combinatorics.go 76-83: prepend and append unless already there *)
Definition add_perms (x : ex) (ps : list (list ex)) (acc : list (list ex)) : list (list ex) :=
  fold_left (fun acc p => if perm_contains acc (x :: p) then acc else acc ++ [x :: p]) ps acc.

(* builtin_combinatorics.go 58-86; [n] = length of the list *)
Fixpoint gen_perms (n : nat) (l : list ex) : list (list ex) :=
  match n with
  | O => []
  | S m =>
      match l with
      | [x] => [[x]]
      | _ => fold_left (fun acc '(x, r) => add_perms x (gen_perms m r) acc) (picks l) []
      end
  end.

(* builtin_combinatorics.go 164-194 *)
Definition permutations_eval (args : list ex) : option ex :=
  match args with
  | [EExpr (_ :: l)] => Some (mkList (map mkList (gen_perms (length l) l)))
  | _ => None
  end.
