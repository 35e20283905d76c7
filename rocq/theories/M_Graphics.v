(* Rendering of Graphics[...] expressions to chart series
   (graphics/graphics.go). *)
From Verif Require Import M_Syntax.
From Coq Require Import List NArith.
Import ListNotations.
Open Scope nat_scope.

(* graphics.go 213-216 with go-chart's Style and drawing.Color: the fields that
   the code sets.  A stroke width is the float it was given, None for the zero
   value. *)
Record style := Style { sty_r : N; sty_g : N; sty_b : N; sty_a : N; sty_width : option flt }.
(* graphics.go 213-216: drawing.ColorBlack is {0, 0, 0, 255} *)
Definition black : style := Style 0 0 0 255 None.
(* graphics.go 48-57: ContinuousSeries.  Coordinates are the floats themselves:
   the conversion to float64 (Float64()) is left out. *)
Record series := Series { ser_style : style; ser_points : list (flt * flt) }.

(* graphics.go 14-30 *)
Definition list_to_point (e : ex) : option (flt * flt) :=
  match args_of e "System`List" with
  | Some [EFlt x; EFlt y] => Some (x, y)
  | _ => None
  end.
(* graphics.go 50-57: the loop over the points *)
Fixpoint points_of (l : list ex) : option (list (flt * flt)) :=
  match l with
  | [] => Some []
  | e :: t => match list_to_point e, points_of t with Some p, Some ps => Some (p :: ps) | _, _ => None end
  end.
(* graphics.go 32-60; an error is None *)
Definition render_line (args : list ex) (st : style) : option series :=
  match args with
  | [a] =>
      match args_of a "System`List" with
      | Some l => match points_of l with Some ps => Some (Series st ps) | None => None end
      | None => None
      end
  | _ => None
  end.

Section Render.
  (* uint8(float32(x) * 255): graphics.go 73-74, 97-98 *)
  Variable byte : flt -> N.

  (* graphics.go 62-87 *)
  Definition set_color (args : list ex) (st : style) : option style :=
    match args with
    | [EFlt r; EFlt g; EFlt b] => Some (Style (byte r) (byte g) (byte b) 255 (sty_width st))
    | _ => None
    end.
  (* graphics.go 89-101 *)
  Definition set_opacity (args : list ex) (st : style) : option style :=
    match args with
    | [EFlt a] => Some (Style (sty_r st) (sty_g st) (sty_b st) (byte a) (sty_width st))
    | _ => None
    end.
  (* graphics.go 103-119 *)
  Definition set_thickness (args : list ex) (st : style) : option style :=
    match args with
    | [EFlt w] => Some (Style (sty_r st) (sty_g st) (sty_b st) (sty_a st) (Some w))
    | _ => None
    end.
  (* graphics.go 121-142; the message about an unknown directive is left out *)
  Definition set_directive (st : style) (dir : ex) : option style :=
    match args_of dir "System`RGBColor" with
    | Some args => set_color args st
    | None =>
        match args_of dir "System`Opacity" with
        | Some args => set_opacity args st
        | None =>
            match args_of dir "System`AbsoluteThickness" with
            | Some args => set_thickness args st
            | None => Some st
            end
        end
    end.
  (* graphics.go 160-166: the loop over the parts of a Directive *)
  Fixpoint set_directives (st : style) (l : list ex) : option style :=
    match l with
    | [] => Some st
    | d :: t => match set_directive st d with Some st' => set_directives st' t | None => None end
    end.

  (* graphics.go 144-177: the style is changed in place for the caller by a
     Directive; a List works on a copy.  Gives the series appended and the style
     of the caller afterwards.  The message about a skipped primitive is left
     out. *)
  Fixpoint render_primitive (e : ex) (st : style) : option (list series * style) :=
    match e with
    | EExpr (ESym h :: args) =>
        if String.eqb h "System`List" then
          (fix go (l : list ex) (new : style) : option (list series * style) :=
             match l with
             | [] => Some ([], st)
             | x :: t =>
                 match render_primitive x new with
                 | Some (s1, new') => match go t new' with Some (s2, r) => Some (s1 ++ s2, r) | None => None end
                 | None => None
                 end
             end) args st
        else if String.eqb h "System`Directive" then
          match set_directives st args with Some st' => Some ([], st') | None => None end
        else if String.eqb h "System`Line" then
          match render_line args st with Some s => Some ([s], st) | None => None end
        else Some ([], st)
    | _ => Some ([], st)
    end.

  (* graphics.go 179-222: Render, without the size and the axes of the chart *)
  Definition render (e : ex) : option (list series) :=
    match args_of e "System`Graphics" with
    | Some (p :: _) => match render_primitive p black with Some (s, _) => Some s | None => None end
    | _ => None
    end.
End Render.
