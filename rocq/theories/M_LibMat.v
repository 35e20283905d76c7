(* resources/matrix.m 2-4: the rules for Inverse.  The right-hand sides are
   transcribed as expression trees; a/b is Times[a, Power[b, -1]] and -a is
   Times[-1, a] (parser/interp.go). *)
From Verif Require Import M_Syntax.

Definition plus_ (l : list ex) : ex := EExpr (sys "Plus" :: l).
Definition times_ (l : list ex) : ex := EExpr (sys "Times" :: l).
Definition recip (a : ex) : ex := EExpr [sys "Power"; a; EInt (-1)].
Definition over (a b : ex) : ex := times_ [a; recip b].
Definition minus (l : list ex) : ex := times_ (EInt (-1) :: l).

(* matrix.m 2 *)
Definition inverse1 (a : ex) : ex := mkList [mkList [recip a]].
(* matrix.m 3 *)
Definition inverse2 (a b c d : ex) : ex :=
  let det := plus_ [minus [b; c]; times_ [a; d]] in
  mkList [mkList [over d det; minus [over b det]];
          mkList [minus [over c det]; over a det]].
(* matrix.m 4: the pattern names are a, b, c, d, e, f, h, i, j *)
Definition inverse3 (a b c d e f h i j : ex) : ex :=
  let det := plus_ [minus [c; e; h]; times_ [b; f; h]; times_ [c; d; i]; minus [a; f; i]; minus [b; d; j]; times_ [a; e; j]] in
  mkList [mkList [over (plus_ [minus [f; i]; times_ [e; j]]) det; over (plus_ [times_ [c; i]; minus [b; j]]) det; over (plus_ [minus [c; e]; times_ [b; f]]) det];
          mkList [over (plus_ [times_ [f; h]; minus [d; j]]) det; over (plus_ [minus [c; h]; times_ [a; j]]) det; over (plus_ [times_ [c; d]; minus [a; f]]) det];
          mkList [over (plus_ [minus [e; h]; times_ [d; i]]) det; over (plus_ [times_ [b; h]; minus [a; i]]) det; over (plus_ [minus [b; d]; times_ [a; e]]) det]].

(* matrix.m 2-4: Inverse[m]; None: no rule matches and Inverse[m] is left as it is *)
Definition inverse_eval (m : ex) : option ex :=
  match m with
  | EExpr [L; EExpr [L1; a]] =>
      if ex_eqb L sList && ex_eqb L1 sList then Some (inverse1 a) else None
  | EExpr [L; EExpr [L1; a; b]; EExpr [L2; c; d]] =>
      if ex_eqb L sList && ex_eqb L1 sList && ex_eqb L2 sList then Some (inverse2 a b c d) else None
  | EExpr [L; EExpr [L1; a; b; c]; EExpr [L2; d; e; f]; EExpr [L3; h; i; j]] =>
      if ex_eqb L sList && ex_eqb L1 sList && ex_eqb L2 sList && ex_eqb L3 sList then Some (inverse3 a b c d e f h i j) else None
  | _ => None
  end.
