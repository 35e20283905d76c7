(* Matrices and Distribute: builtin_matrix.go, qfunctions.go 40-60,
   builtin_manip.go 8-36 and 46-63.
   Simplification for the whole file: on an Expression without parts the Go
   code panics; here it counts as something that is not headed by anything. *)
From Verif Require Import M_Syntax M_Float M_Hash.
Open Scope nat_scope.

(* the outcome of a builtin: the call unchanged, a new expression, or a Go
   panic (index out of range, failed type assertion) *)
Inductive mres : Type := MUnchanged | MResult (e : ex) | MPanic.

(* builtin_matrix.go 25-32: nextDims, cut to one less than the length of
   currDims when it is longer, compared position by position with currDims *)
Definition cut_next (next cur : list nat) : list nat :=
  if Nat.ltb (length cur) (length next) then firstn (length cur - 1) next else next.
Fixpoint same_at (next cur : list nat) : bool :=
  match next, cur with
  | [], _ => true
  | a :: s, b :: t => Nat.eqb a b && same_at s t
  | _ :: _, [] => false
  end.

(* builtin_matrix.go 10-36: dimensions.  The level parameter is not used. *)
Fixpoint dimensions (e : ex) : list nat :=
  match e with
  | EExpr (h :: args) =>
      (fix go (first : bool) (next : list nat) (l : list ex) : list nat :=
         match l with
         | [] => length args :: next
         | x :: t =>
             match x with
             | EExpr (h' :: _) =>
                 if is_sameq h h' then
                   let cur := dimensions x in
                   if first || same_at (cut_next next cur) cur then go false cur t
                   else [length args]
                 else [length args]
             | _ => [length args]
             end
         end) true [] args
  | _ => []
  end.

(* builtin_matrix.go 38-47 *)
Definition int_slice_list (l : list nat) : ex := mkList (map (fun n => EInt (Z.of_nat n)) l).
(* builtin_matrix.go 84-98: Dimensions *)
Definition dimensions_eval (args : list ex) : mres :=
  match args with
  | [e] => if is_expr e then MResult (int_slice_list (dimensions e)) else MResult (mkList [])
  | _ => MUnchanged
  end.

(* qfunctions.go 40-53 *)
Definition vectorQ (e : ex) : bool :=
  match args_of e nList with
  | Some l => forallb (fun x => negb (has_head x nList)) l
  | None => false
  end.
(* qfunctions.go 55-61 *)
Definition matrixQ (e : ex) : bool :=
  match args_of e nList with
  | Some l => Nat.eqb (length (dimensions e)) 2
  | None => false
  end.

(* builtin_matrix.go 51-56: matrix2dGetElem, 1-indexed; None: panic *)
Definition mat_elem (m : ex) (i j : nat) : option ex :=
  match m with
  | EExpr p => match nth_error p i with
               | Some (EExpr r) => nth_error r j
               | _ => None
               end
  | _ => None
  end.

(* every result of a loop, or a panic *)
Fixpoint loop {A} (l : list (option A)) : option (list A) :=
  match l with
  | [] => Some []
  | Some a :: t => option_map (cons a) (loop t)
  | None :: _ => None
  end.

(* builtin_matrix.go 58-75: calcIJ *)
Definition calc_ij (i j n : nat) (a b : ex) : option ex :=
  option_map (fun l => EExpr (sys "Plus" :: l))
    (loop (map (fun k => match mat_elem a i k, mat_elem b k j with
                         | Some x, Some y => Some (EExpr [sys "Times"; x; y])
                         | _, _ => None
                         end) (seq 1 n))).

(* a matrix built from the entries f i j, 1 <= i <= h, 1 <= j <= w *)
Definition build (h w : nat) (f : nat -> nat -> option ex) : mres :=
  match loop (map (fun i => option_map mkList (loop (map (f i) (seq 1 w)))) (seq 1 h)) with
  | Some rows => MResult (mkList rows)
  | None => MPanic
  end.

(* builtin_matrix.go 107-169: Dot.  The rules of resources/matrix.m are not
   part of this function. *)
Definition dot_eval (args : list ex) : mres :=
  match args with
  | [e] => MResult e
  | [a; b] =>
      if vectorQ a && vectorQ b then
        let la := parts_of a in let lb := parts_of b in
        if Nat.eqb (length la) (length lb)
        then MResult (EExpr (sys "Plus" :: map (fun p => EExpr [sys "Times"; fst p; snd p]) (combine (tl la) (tl lb))))
        else MUnchanged
      else if matrixQ a && matrixQ b then
        match dimensions a, dimensions b with
        | [ah; aw], [bh; bw] =>
            if Nat.eqb aw bh then build ah bw (fun i j => calc_ij i j aw a b) else MUnchanged
        | _, _ => MUnchanged
        end
      else MUnchanged
  | _ => MUnchanged
  end.

(* builtin_matrix.go 172-203: Transpose *)
Definition transpose_eval (args : list ex) : mres :=
  match args with
  | [m] =>
      if has_head m nList then
        match dimensions m with
        | h :: w :: _ => build w h (fun i j => mat_elem m j i)
        | _ => MUnchanged
        end
      else MUnchanged
  | _ => MUnchanged
  end.

(* builtin_manip.go 8-36: distribute.  [built] are the parts collected so far,
   [rest] the arguments of e still to be processed, p the head of res.  The
   result is the list of expressions appended to res. *)
Fixpoint distribute (p : ex) (built rest : list ex) : list ex :=
  match rest with
  | [] => [EExpr built]
  | x :: r =>
      match x with
      | EExpr (h' :: t) =>
          if N.eqb (hash h') (hash p) then flat_map (fun d => distribute p (built ++ [d]) r) t
          else distribute p (built ++ [x]) r
      | _ => distribute p (built ++ [x]) r
      end
  end.
(* builtin_manip.go 46-63: Distribute *)
Definition distribute_eval (args : list ex) : mres :=
  match args with
  | [EExpr (h :: l); p] => MResult (EExpr (p :: distribute p [h] l))
  | [EExpr []; p] => MPanic
  | [e; _] => MResult e
  | _ => MUnchanged
  end.
