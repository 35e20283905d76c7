(* List functions: builtin_list.go, and Flatten, Length, LeafCount, Depth from
   builtin_expression.go.  A builtin is a function from the arguments to the
   new expression; None: the call is returned unchanged.  Simplification for
   the whole file: on an Expression without parts the Go code panics; here the
   call is left unchanged. *)
From Verif Require Import M_Syntax M_Float M_Hash M_Order M_Sort M_Compare M_Match.
Open Scope nat_scope.

Definition nSpan := sysname "Span".
Definition nAll := sysname "All".

(* builtin_list.go 114-127: validateIndex; l is the number of parts *)
Definition validate_index (i : ex) (l : nat) : option nat :=
  match i with
  | EInt z => if (Z.of_nat l <=? wrap64 z)%Z || (wrap64 z <? 0)%Z then None else Some (Z.to_nat (wrap64 z))
  | _ => None
  end.

(* all results, or None as soon as one is None *)
Fixpoint all_some {A} (l : list (option A)) : option (list A) :=
  match l with
  | [] => Some []
  | Some a :: t => option_map (cons a) (all_some t)
  | None :: _ => None
  end.

(* builtin_list.go 129-193: applyIndex; the indices still to be applied *)
Fixpoint apply_index (ix : list ex) (e : ex) : option ex :=
  match ix with
  | [] => Some e
  | i :: r =>
      match e with
      | EExpr ((h :: args) as parts) =>
          let range lo hi :=
            option_map (fun l => EExpr (h :: l)) (all_some (map (apply_index r) (firstn (S hi - lo) (skipn lo parts)))) in
          match i with
          | EInt _ => match validate_index i (length parts) with
                      | Some k => match nth_error parts k with Some x => apply_index r x | None => None end
                      | None => None
                      end
          | EExpr [ESym s; a; b] =>
              if String.eqb s nSpan then
                match validate_index a (S (length parts)),
                      match b with
                      | ESym s' => if String.eqb s' nAll then Some (length parts - 1) else None
                      | _ => validate_index b (length parts)
                      end with
                | Some lo, Some hi => range lo hi
                | _, _ => None
                end
              else None
          | ESym s => if String.eqb s nAll then range 1 (length parts - 1) else None
          | _ => None
          end
      | _ => None
      end
  end.
(* builtin_list.go 596-614: Part *)
Definition part_eval (args : list ex) : option ex :=
  match args with [] => None | e :: ix => apply_index ix e end.

(* builtin_list.go 86-112: validatePadParams *)
Definition pad_params (args : list ex) : option (ex * list ex * Z * ex) :=
  match args with
  | [EExpr (h :: l); EInt n] => Some (h, l, wrap64 n, EInt 0)
  | [EExpr (h :: l); EInt n; x] => Some (h, l, wrap64 n, x)
  | _ => None
  end.
(* builtin_list.go 532-551: PadRight *)
Definition pad_right_eval (args : list ex) : option ex :=
  match pad_params args with
  | Some (h, l, n, x) => Some (EExpr (h :: map (fun i => nth i l x) (seq 0 (Z.to_nat n))))
  | None => None
  end.
(* builtin_list.go 552-572: PadLeft; len(list.Parts) = len l + 1 *)
Definition pad_left_eval (args : list ex) : option ex :=
  match pad_params args with
  | Some (h, l, n, x) =>
      Some (EExpr (h :: map (fun i => let i := Z.of_nat i in
        if (i <? n - (Z.of_nat (length l) + 1) + 1)%Z then x
        else nth (Z.to_nat ((Z.of_nat (length l) + 1) - (n - i)) - 1) l x) (seq 0 (Z.to_nat n))))
  | None => None
  end.

(* builtin_list.go 634-653: Append *)
Definition append_eval (args : list ex) : option ex :=
  match args with [EExpr (h :: l); x] => Some (EExpr (h :: l ++ [x])) | _ => None end.
(* builtin_list.go 654-671: Prepend *)
Definition prepend_eval (args : list ex) : option ex :=
  match args with [EExpr (h :: l); x] => Some (EExpr (h :: x :: l)) | _ => None end.
(* builtin_list.go 818-836: Reverse *)
Definition reverse_eval (args : list ex) : option ex :=
  match args with [EExpr (h :: l)] => Some (EExpr (h :: rev l)) | _ => None end.

(* the common loop of Join, Union, Complement and Intersection: all arguments
   are expressions whose head is the same as the first one; the head and the
   argument lists *)
Fixpoint same_heads (h : ex) (args : list ex) : option (list (list ex)) :=
  match args with
  | [] => Some []
  | EExpr (h' :: l) :: t => if is_sameq h h' then option_map (cons l) (same_heads h t) else None
  | _ => None
  end.
Definition headed_lists (args : list ex) : option (ex * list (list ex)) :=
  match args with
  | EExpr (h :: l) :: t => match same_heads h t with Some ls => Some (h, l :: ls) | None => None end
  | _ => None
  end.
(* builtin_list.go 778-801: Join *)
Definition join_eval (args : list ex) : option ex :=
  match args with
  | [] => Some (mkList [])
  | _ => match headed_lists args with Some (h, ls) => Some (EExpr (h :: concat ls)) | None => None end
  end.

(* builtin_list.go 437-444: drop an element that is the same as the last one kept *)
Fixpoint drop_repeats (last : option ex) (l : list ex) : list ex :=
  match l with
  | [] => []
  | x :: t => if match last with Some y => is_sameq y x | None => false end
              then drop_repeats last t else x :: drop_repeats (Some x) t
  end.
(* builtin_list.go 412-447: Union *)
Definition union_eval (args : list ex) : option ex :=
  match args with
  | [] => Some (mkList [])
  | _ => match headed_lists args with
         | Some (h, ls) => Some (EExpr (h :: drop_repeats None (insertion_sort (concat ls))))
         | None => None
         end
  end.

(* keep the elements whose hash passes the test and has not been seen before:
   builtin_list.go 474-483, 518-527, 685-692 *)
Fixpoint keep_new (ok : N -> bool) (seen : list N) (l : list ex) : list ex :=
  match l with
  | [] => []
  | x :: t => let h := hash x in
      if ok h && negb (existsb (N.eqb h) seen) then x :: keep_new ok (h :: seen) t else keep_new ok seen t
  end.
(* builtin_list.go 448-485: Complement *)
Definition complement_eval (args : list ex) : option ex :=
  match headed_lists args with
  | Some (h, l :: ls) =>
      let excluded := map hash (concat ls) in
      Some (EExpr (h :: insertion_sort (keep_new (fun k => negb (existsb (N.eqb k) excluded)) [] l)))
  | _ => None
  end.
(* builtin_list.go 486-530: Intersection.  The counter of a hash is the number
   of arguments that contain it. *)
Definition hash_count (ls : list (list ex)) (k : N) : nat :=
  length (filter (fun l => existsb (N.eqb k) (map hash l)) ls).
Definition intersection_eval (args : list ex) : option ex :=
  match headed_lists args with
  | Some (h, l :: ls) =>
      Some (EExpr (h :: insertion_sort (keep_new (fun k => Nat.eqb (hash_count (l :: ls) k) (length args)) [] l)))
  | _ => None
  end.
(* builtin_list.go 673-697: DeleteDuplicates *)
Definition delete_duplicates_eval (args : list ex) : option ex :=
  match args with
  | [EExpr (h :: l)] => Some (EExpr (h :: keep_new (fun _ => true) [] l))
  | _ => None
  end.

(* builtin_list.go 75-84, 329-342: MemberQ *)
Definition memberq_eval (env : menv) (args : list ex) : option ex :=
  match args with
  | [EExpr (_ :: l); p] => Some (if existsb (fun x => matchq_eval env x p) l then sys "True" else sys "False")
  | [_; _] => Some (sys "False")
  | _ => None
  end.
(* builtin_list.go 343-385: Cases *)
Definition cases_eval (env : menv) (args : list ex) : option ex :=
  match args with
  | [EExpr (_ :: l); p] =>
      match args_of p (sysname "Rule") with
      | Some [q; r] => Some (mkList (flat_map (fun x => match is_match_q env x q [] with Some pd => [replace_pd_go pd r] | None => [] end) l))
      | Some _ => Some (mkList [])
      | None => Some (mkList (filter (fun x => matchq_eval env x p) l))
      end
  | _ => None
  end.
(* builtin_list.go 386-410: DeleteCases *)
Definition delete_cases_eval (env : menv) (args : list ex) : option ex :=
  match args with
  | [EExpr (h :: l); p] => Some (EExpr (h :: filter (fun x => negb (matchq_eval env x p)) l))
  | _ => None
  end.

(* builtin_expression.go 169-191: Flatten *)
Definition flatten_eval (args : list ex) : option ex :=
  match args with
  | EExpr (h :: l) :: t =>
      match t with
      | [] => Some (EExpr (h :: flatten_args h 999999999999 l))
      | EInt n :: _ => Some (EExpr (h :: flatten_args h (wrap64 n) l))
      | _ => None
      end
  | _ => None
  end.
(* builtin_expression.go 132-147: Length *)
Definition length_eval (args : list ex) : option ex :=
  match args with
  | [EExpr parts] => Some (EInt (Z.of_nat (length parts) - 1))
  | [_] => Some (EInt 0)
  | _ => None
  end.
(* builtin_expression.go 42-52, 192-200: LeafCount *)
Fixpoint leaf_count (e : ex) : nat :=
  match e with EExpr l => fold_right (fun x n => leaf_count x + n) 0 l | _ => 1 end.
(* builtin_expression.go 10-21: calcDepth *)
Fixpoint calc_depth (e : ex) : nat :=
  match e with
  | EExpr (_ :: l) => S (fold_left (fun m x => Nat.max m (calc_depth x)) l 1)
  | EExpr [] => 2
  | _ => 1
  end.
