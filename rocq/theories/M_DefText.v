(* Definition[s]: the text of the definitions of a symbol, definition.go 10-58 and
   builtin_system.go 413-442. *)
From Verif Require Import M_Syntax M_Hash M_Defs M_Parse M_OpForm.
From Coq Require Import String List.
Import ListNotations.
Open Scope nat_scope.

(* definition.go 31-39: the expression printed for a rule; the Go code panics if
   the left-hand side of the stored rule is not an expression with a part 1 *)
Definition rule_expr (d : dval) : option ex :=
  match dv_lhs d with
  | EExpr (_ :: l :: _) => Some (EExpr [sys "SetDelayed"; l; dv_rhs d])
  | _ => None
  end.
(* definition.go 17-57: the expressions printed, in order *)
Definition definition_exprs (d : def) (s : string) : option (list ex) :=
  match oall (map rule_expr (d_dvs d)) with
  | None => None
  | Some rs =>
      Some ((match attrs_to_strings (d_attrs d) with
             | [] => []
             | _ => [EExpr [sys "Set"; EExpr [sys "Attributes"; ESym s]; attrs_to_sym_list (d_attrs d)]]
             end)
            ++ rs
            ++ match d_default d with
               | Some x => [EExpr [sys "Set"; EExpr [sys "Default"; ESym s]; x]]
               | None => []
               end)
  end.
(* builtin_system.go 416-440: what is printed for Definition[args] in InputForm
   with an evaluation state at hand.  The pieces are joined by an empty line.
   Names are kept in full (the code drops contexts), as in M_OpForm. *)
Inductive def_text := DtCall | DtNull | DtPieces (l : list (list otok)) | DtPanic | DtOther.
Definition definition_text (T : table) (st : state) (args : list ex) : def_text :=
  match args with
  | [ESym s] =>
      match lookup st s with
      | None => DtNull
      | Some d =>
          match definition_exprs d s with
          | None => DtPanic
          | Some es => match oall (map (op_form T) es) with Some l => DtPieces l | None => DtOther end
          end
      end
  | _ => DtCall
  end.
(* evaluation of Set[l, r] and SetDelayed[l, r], builtin_system.go 480-560: only
   the assignment; the evaluation of r (Set) and of the arguments of l is left out *)
Definition run_piece (fl : ex -> Z) (st : state) (e : ex) : option state :=
  match e with
  | EExpr [ESym h; l; r] =>
      if String.eqb h (sysname "Set") || String.eqb h (sysname "SetDelayed") then define fl st l r else Some st
  | _ => Some st
  end.
Fixpoint run_pieces (fl : ex -> Z) (st : state) (es : list ex) : option state :=
  match es with
  | [] => Some st
  | e :: t => match run_piece fl st e with Some st' => run_pieces fl st' t | None => None end
  end.
