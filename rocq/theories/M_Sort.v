(* Sorting the arguments of an expression.
   builtin_sort.go 13-28 (Sort), eval.go 202-205 (Orderless),
   atoms/ex_expression.go 204-215 (Len, Less, Swap: the head is not touched). *)
From Verif Require Import M_Syntax M_Float M_Order.
Open Scope Z_scope.

(* ex_expression.go 209-211 *)
Definition less (x y : ex) : bool := ex_order x y =? 1.

(* Go package sort, insertionSort: for i := a+1; i < b; i++ { for j := i; j > a
   && Less(j, j-1); j-- { Swap(j, j-1) } }.  [rp] is the sorted prefix in
   reverse, so its head is element j-1. *)
Fixpoint sift (x : ex) (rp : list ex) : list ex :=
  match rp with
  | [] => [x]
  | h :: t => if less x h then h :: sift x t else x :: rp
  end.
Definition insertion_sort (l : list ex) : list ex := rev (fold_left (fun rp x => sift x rp) l []).

(* sort.Sort(expr).  Go uses insertion sort for at most 12 elements and a
   quicksort/heapsort hybrid above; both only swap elements and stop with no
   adjacent Less(j, j-1).  This definition is the insertion sort; the theorems
   of C08 about uniqueness are stated for every algorithm meeting that
   contract. *)
Definition sort_expr (e : ex) : ex :=
  match e with EExpr (h :: args) => EExpr (h :: insertion_sort args) | _ => e end.
