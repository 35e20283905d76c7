(* ClearAll, and SetAttributes of a list, system.m 200-214, 293-300.  Both go
   through Scan, whose second argument {s1, s2, ...} is evaluated first. *)
From Verif Require Import M_Syntax M_Hash M_Match M_Defs M_Attr.
Open Scope nat_scope.

(* eval.go 60-80, evalstate.go 362-366: what a symbol evaluates to, if its value is a
   symbol or another atom.  (Compound values are left out.) *)
Inductive reads (st : state) : string -> ex -> Prop :=
| Rd_free s : get_sym_def st s = None -> reads st s (ESym s)
| Rd_atom s v : get_sym_def st s = Some v -> (forall t, v <> ESym t) -> (forall l, v <> EExpr l) -> reads st s v
| Rd_sym s t v : get_sym_def st s = Some (ESym t) -> reads st t v -> reads st s v.

(* system.m 295-298: Attributes[#] = {}; Clear[#] for the element v *)
Definition clear_all_one (fl : ex -> Z) (st : state) (v : ex) : option state :=
  match define fl st (EExpr [sys "Attributes"; v]) (mkList []) with
  | Some st' => Some (clear_eval st' [v])
  | None => None
  end.
(* system.m 294-300: Scan over the evaluated list; the elements are evaluated
   again in the application, to the same *)
Fixpoint clear_all (fl : ex -> Z) (st : state) (vs : list ex) : option state :=
  match vs with
  | [] => Some st
  | v :: t => match clear_all_one fl st v with Some st' => clear_all fl st' t | None => None end
  end.

(* the rule of the library as the parser builds it: system.m 293-300 *)
Definition v_syms : string := "Private`syms".
Definition clear_all_rhs : ex :=
  EExpr [sys "Scan";
    EExpr [sys "Function"; EExpr [sys "CompoundExpression";
       EExpr [sys "Set"; EExpr [sys "Attributes"; EExpr [sys "Slot"; EInt 1]]; mkList []];
       EExpr [sys "Clear"; EExpr [sys "Slot"; EInt 1]]; sys "Null"]];
    mkList [ESym v_syms]].
Definition clear_all_rules : list dval :=
  [DVal (EExpr [sys "HoldPattern"; EExpr [sys "ClearAll"; EExpr [sys "Pattern"; ESym v_syms; EExpr [sys "BlankNullSequence"]]]]) clear_all_rhs 0].
Definition clear_all_attrs : list string := ["HoldAll"; "Protected"]%string.

(* system.m 206: Scan[SetAttributes[#, attrs]&, l] on the evaluated list l: a call
   whose first argument is not a symbol or a list matches no rule and stays *)
Fixpoint set_attributes_scan (fl : ex -> Z) (st : state) (vs : list ex) (attrs : ex) : option state :=
  match vs with
  | [] => Some st
  | v :: t =>
      match (match v with ESym s => set_attributes fl st s attrs | _ => Some st end) with
      | Some st' => set_attributes_scan fl st' t attrs
      | None => None
      end
  end.
