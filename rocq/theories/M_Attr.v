(* SetAttributes, ClearAttributes, Protect and Unprotect: system.m 201-222.
   Attributes is HoldAll, Union and Complement are builtin_list.go 412-485
   (M_List), the assignment to Attributes[s] is evalstate.go 368-391 (M_Defs).
   None: the process aborts or the call stays unevaluated. *)
From Verif Require Import M_Syntax M_Defs M_List.

(* system.m 203-205: Attributes[s] = Union[Attributes[s], attrs] *)
Definition set_attributes (fl : ex -> Z) (st : state) (s : string) (attrs : ex) : option state :=
  match union_eval [attributes_eval st s; attrs] with
  | Some r => define fl st (EExpr [sys "Attributes"; ESym s]) r
  | None => None
  end.
(* system.m 211-213 *)
Definition clear_attributes (fl : ex -> Z) (st : state) (s : string) (attrs : ex) : option state :=
  match complement_eval [attributes_eval st s; attrs] with
  | Some r => define fl st (EExpr [sys "Attributes"; ESym s]) r
  | None => None
  end.
(* system.m 206 and 214: Scan over a list of symbols *)
Fixpoint scan_symbols (f : state -> string -> option state) (st : state) (ss : list string) : option state :=
  match ss with
  | [] => Some st
  | s :: t => match f st s with Some st' => scan_symbols f st' t | None => None end
  end.
Definition set_attributes_all (fl : ex -> Z) (st : state) (ss : list string) (attrs : ex) : option state :=
  scan_symbols (fun st s => set_attributes fl st s attrs) st ss.
(* system.m 202: SetAttributes[s, attr] := SetAttributes[s, {attr}] *)
Definition set_attribute (fl : ex -> Z) (st : state) (s a : string) : option state := set_attributes fl st s (mkList [ESym a]).
(* system.m 217-222 *)
Definition protect (fl : ex -> Z) (st : state) (s : string) : option state := set_attributes fl st s (mkList [sys "Protected"]).
Definition unprotect (fl : ex -> Z) (st : state) (s : string) : option state := clear_attributes fl st s (mkList [sys "Protected"]).
