(* ReplacePart[e, v, i], resources/replacement.m 201-205.  The form with rules is
   Go code and is modelled in M_Replace. *)
From Verif Require Import M_Syntax M_Hash M_Match M_List M_LibList.
Open Scope nat_scope.

Inductive replaced :=
| RpCall                  (* no rule applies, the call stays *)
| RpNull                  (* "Index too large for ReplacePart!" is printed *)
| RpValue (e : ex).
(* replacement.m 201-205; [ev] is the evaluation of a compound expression whose
   parts are evaluated (Part returns one for a span, and Head[e][r] is one) *)
Definition replace_at_m (ev : ex -> ex) (e r : ex) (i : Z) : replaced :=
  match e with
  | EExpr (h :: _) =>
      if (i <=? 0)%Z then RpCall
      else if (i <=? length_value e)%Z then
        let args := [ev (part_value e [span (EInt 1) (EInt (i - 1))]);
                     ev (EExpr [h; r]);
                     ev (part_value e [span (EInt (i + 1)) (EInt (length_value e))])] in
        RpValue (match join_eval args with Some x => ev x | None => EExpr (sys "Join" :: args) end)
      else RpNull
  | _ => RpCall
  end.
