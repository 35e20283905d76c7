(* What a Graphics expression should draw. *)
From Verif Require Import M_Syntax M_Graphics.
From Coq Require Import List NArith Sorted.
Import ListNotations.
Open Scope nat_scope.

Definition gfn (h : string) (l : list ex) : ex := EExpr (ESym (append "System`" h) :: l).
Definition the_list (l : list ex) : ex := gfn "List" l.

(* the parts of the Directive elements of a list *)
Definition directives (l : list ex) : list ex :=
  flat_map (fun x => match x with EExpr (ESym h :: ds) => if String.eqb h "System`Directive" then ds else [] | _ => [] end) l.

(* There is a Line at this position (element number i of the outer list, ...),
   and these directives stand before it: in its own list or in a list around it *)
Inductive line_at : ex -> list nat -> list ex -> list ex -> Prop :=
| LA_here args : line_at (gfn "Line" args) [] [] args
| LA_in l i x p ds args : nth_error l i = Some x -> line_at x p ds args ->
    line_at (the_list l) (i :: p) (directives (firstn i l) ++ ds) args.

(* positions in reading order *)
Inductive before : list nat -> list nat -> Prop :=
| BF_lt i j p q : i < j -> before (i :: p) (j :: q)
| BF_eq i p q : before p q -> before (i :: p) (i :: q).

(* the points {{x, y}, ...} *)
Definition points (args : list ex) (ps : list (flt * flt)) : Prop :=
  args = [the_list (map (fun '(x, y) => the_list [EFlt x; EFlt y]) ps)].

(* what a directive sets *)
Inductive kind := KColor (r g b : flt) | KOpacity (a : flt) | KWidth (w : flt) | KOther.
Inductive directive_is : ex -> kind -> Prop :=
| DI_color r g b : directive_is (gfn "RGBColor" [EFlt r; EFlt g; EFlt b]) (KColor r g b)
| DI_opacity a : directive_is (gfn "Opacity" [EFlt a]) (KOpacity a)
| DI_width w : directive_is (gfn "AbsoluteThickness" [EFlt w]) (KWidth w)
| DI_other d : (forall l, d <> gfn "RGBColor" l /\ d <> gfn "Opacity" l /\ d <> gfn "AbsoluteThickness" l) -> directive_is d KOther.
Definition sets_color (k : kind) : Prop := match k with KColor _ _ _ => True | _ => False end.
Definition sets_alpha (k : kind) : Prop := match k with KColor _ _ _ | KOpacity _ => True | _ => False end.
Definition sets_width (k : kind) : Prop := match k with KWidth _ => True | _ => False end.

(* the last directive of a kind, if there is one *)
Definition last_of (P : kind -> Prop) (ks : list kind) (k : option kind) : Prop :=
  match k with
  | Some k => exists a b, ks = a ++ k :: b /\ P k /\ Forall (fun x => ~ P x) b
  | None => Forall (fun x => ~ P x) ks
  end.
(* the style in force: every property is given by the last directive that sets it;
   a colour resets the opacity *)
Definition style_is (byte : flt -> N) (ks : list kind) (st : style) : Prop :=
  (exists k, last_of sets_color ks k /\
     (sty_r st, sty_g st, sty_b st) = match k with Some (KColor r g b) => (byte r, byte g, byte b) | _ => (0%N, 0%N, 0%N) end) /\
  (exists k, last_of sets_alpha ks k /\ sty_a st = match k with Some (KOpacity a) => byte a | _ => 255%N end) /\
  (exists k, last_of sets_width ks k /\ sty_width st = match k with Some (KWidth w) => Some w | _ => None end).

(* everything that is looked at has the right form *)
Inductive drawable : ex -> Prop :=
| DR_line ps : drawable (gfn "Line" [the_list (map (fun '(x, y) => the_list [EFlt x; EFlt y]) ps)])
| DR_directive ds : Forall (fun d => exists k, directive_is d k) ds -> drawable (gfn "Directive" ds)
| DR_list l : Forall drawable l -> drawable (the_list l)
| DR_other e : (forall l, e <> gfn "Line" l /\ e <> gfn "Directive" l /\ e <> the_list l) -> drawable e.
