(* The meaning of Boolean expressions, independent of the rules. *)
From Verif Require Import M_Syntax.

(* Expressions denote elements of some domain, in which the truth values are
   embedded.  True, False, And, Or and Not have their usual meaning; symbols and
   all other functions mean whatever [atom] and [func] say. *)
Record boolean_model : Type := {
  domain : Type;
  truth : domain -> bool;
  of_bool : bool -> domain;
  truth_of_bool : forall b, truth (of_bool b) = b;
  atom : ex -> domain;
  func : list domain -> domain }.

Fixpoint meaning (M : boolean_model) (e : ex) : domain M :=
  match e with
  | EExpr l =>
      let ds := List.map (meaning M) l in
      match l with
      | ESym h :: args =>
          if String.eqb h (sysname "And") then of_bool M (forallb (truth M) (tl ds))
          else if String.eqb h (sysname "Or") then of_bool M (existsb (truth M) (tl ds))
          else if String.eqb h (sysname "Not") then
            match tl ds with [d] => of_bool M (negb (truth M d)) | _ => func M ds end
          else func M ds
      | _ => func M ds
      end
  | ESym s => if String.eqb s (sysname "True") then of_bool M true
              else if String.eqb s (sysname "False") then of_bool M false else atom M e
  | _ => atom M e
  end.
(* is e true? *)
Definition holds_in (M : boolean_model) (e : ex) : bool := truth M (meaning M e).
