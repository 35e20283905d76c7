(* Solve as written in the language itself: resources/solve.m and equationdata.m.
   The formulas for polynomials of degree 2, 3 and 4 and for linear systems of two
   equations, and the isolation of a variable that occurs once.  Simplify and
   Sort, which Solve applies to its results, are left out; PowerExpand of a square
   root is taken to rewrite the root itself at most once. *)
From Verif Require Import M_Syntax M_LibCalc M_LibPower M_LibTrig M_LibComplex.
From Coq Require Import List Permutation.
Import ListNotations.
Open Scope Z_scope.

(* the parser's a - b, a / b, -a *)
Definition eneg (a : ex) : ex := cTimes [EInt (-1); a].
Definition esub (a b : ex) : ex := cPlus [a; eneg b].
Definition ediv (a b : ex) : ex := cTimes [a; cPower b (EInt (-1))].
Definition ipow (a : ex) (n : Z) : ex := cPower a (EInt n).
Definition esqrt (a : ex) : ex := app1 "Sqrt" a.
Definition ecbrt (a : ex) : ex := cPower a (ERat 1 3).

(* equationdata.m 1: solveQuadratic[a, b, c, x]: a x^2 + b x + c *)
Definition quadratic_roots (a b c : ex) : list ex :=
  let s := esqrt (cPlus [ipow b 2; cTimes [EInt (-4); a; c]]) in
  [ediv (esub (eneg b) s) (cTimes [EInt 2; a]); ediv (cPlus [eneg b; s]) (cTimes [EInt 2; a])].

(* equationdata.m 2: solveCubic[d, c, b, a, x]: d x^3 + c x^2 + b x + a *)
Definition cubic_p (d c b : ex) : ex := cPlus [eneg (ipow c 2); cTimes [EInt 3; b; d]].
Definition cubic_q (d c b a : ex) : ex :=
  cPlus [cTimes [EInt (-2); ipow c 3]; cTimes [EInt 9; b; c; d]; cTimes [EInt (-27); a; ipow d 2]].
Definition cubic_w (d c b a : ex) : ex :=
  cPlus [cubic_q d c b a; esqrt (cPlus [cTimes [EInt 4; ipow (cubic_p d c b) 3]; ipow (cubic_q d c b a) 2])].
Definition i_sqrt3 (sgn : Z) : ex := cPlus [EInt 1; cTimes [EInt sgn; eI; esqrt (EInt 3)]].
Definition cubic_roots (d c b a : ex) : list ex :=
  let p := cubic_p d c b in
  let w := ecbrt (cubic_w d c b a) in
  let shift := eneg (ediv c (cTimes [EInt 3; d])) in
  [cPlus [shift; eneg (ediv (cTimes [ecbrt (EInt 2); p]) (cTimes [EInt 3; d; w])); ediv w (cTimes [EInt 3; ecbrt (EInt 2); d])];
   cPlus [shift; ediv (cTimes [i_sqrt3 1; p]) (cTimes [EInt 3; cPower (EInt 2) (ERat 2 3); d; w]);
          eneg (cTimes [ediv (EInt 1) (cTimes [EInt 6; ecbrt (EInt 2); d]); i_sqrt3 (-1); w])];
   cPlus [shift; ediv (cTimes [i_sqrt3 (-1); p]) (cTimes [EInt 3; cPower (EInt 2) (ERat 2 3); d; w]);
          eneg (cTimes [ediv (EInt 1) (cTimes [EInt 6; ecbrt (EInt 2); d]); i_sqrt3 1; w])]].

(* equationdata.m 3: solveQuartic[e, d, c, b, a, x]: e x^4 + d x^3 + c x^2 + b x + a *)
Definition quartic_d0 (e d c b a : ex) : ex := cPlus [ipow c 2; cTimes [EInt (-3); b; d]; cTimes [EInt 12; a; e]].
Definition quartic_d1 (e d c b a : ex) : ex :=
  cPlus [cTimes [EInt 2; ipow c 3]; cTimes [EInt (-9); b; c; d]; cTimes [EInt 27; a; ipow d 2];
         cTimes [EInt 27; ipow b 2; e]; cTimes [EInt (-72); a; c; e]].
Definition quartic_w (e d c b a : ex) : ex :=
  cPlus [quartic_d1 e d c b a; esqrt (cPlus [cTimes [EInt (-4); ipow (quartic_d0 e d c b a) 3]; ipow (quartic_d1 e d c b a) 2])].
Definition quartic_q1 (e d c b a : ex) : ex :=
  ediv (cTimes [ecbrt (EInt 2); quartic_d0 e d c b a]) (cTimes [EInt 3; e; ecbrt (quartic_w e d c b a)]).
Definition quartic_q2 (e d c b a : ex) : ex :=
  cTimes [ediv (EInt 1) (cTimes [EInt 3; ecbrt (EInt 2); e]); ecbrt (quartic_w e d c b a)].
Definition quartic_s (e d c b a : ex) : ex :=
  esqrt (cPlus [ediv (ipow d 2) (cTimes [EInt 4; ipow e 2]); eneg (ediv (cTimes [EInt 2; c]) (cTimes [EInt 3; e]));
                quartic_q1 e d c b a; quartic_q2 e d c b a]).
Definition quartic_u (e d c b : ex) : ex :=
  cPlus [eneg (ediv (ipow d 3) (ipow e 3)); ediv (cTimes [EInt 4; c; d]) (ipow e 2); eneg (ediv (cTimes [EInt 8; b]) e)].
Definition quartic_r (sgn : Z) (e d c b a : ex) : ex :=
  esqrt (cPlus [ediv (ipow d 2) (cTimes [EInt 2; ipow e 2]); eneg (ediv (cTimes [EInt 4; c]) (cTimes [EInt 3; e]));
                eneg (quartic_q1 e d c b a); eneg (quartic_q2 e d c b a);
                cTimes [EInt sgn; ediv (quartic_u e d c b) (cTimes [EInt 4; quartic_s e d c b a])]]).
Definition quartic_root (s1 s2 : Z) (e d c b a : ex) : ex :=
  cPlus [eneg (ediv d (cTimes [EInt 4; e])); cTimes [ERat s1 2; quartic_s e d c b a]; cTimes [ERat s2 2; quartic_r s1 e d c b a]].
Definition quartic_roots (e d c b a : ex) : list ex :=
  [quartic_root (-1) (-1) e d c b a; quartic_root (-1) 1 e d c b a; quartic_root 1 (-1) e d c b a; quartic_root 1 1 e d c b a].
(* solve.m 186-187: e x^4 + d x^3 *)
Definition quartic_short_roots (e d : ex) : list ex := [EInt 0; EInt 0; EInt 0; eneg (ediv d e)].

(* solve.m 317, 318: two linear equations *)
Definition system_two (a b c d e f : ex) : ex * ex :=
  let den := esub (cTimes [b; d]) (cTimes [a; e]) in
  (eneg (ediv (esub (cTimes [c; e]) (cTimes [b; f])) den), eneg (ediv (cPlus [eneg (cTimes [c; d]); cTimes [a; f]]) den)).
Definition system_tri (a b c d f : ex) : ex * ex :=
  (ediv f d, eneg (ediv (cPlus [eneg (cTimes [c; d]); cTimes [a; f]]) (cTimes [b; d]))).

(* solve.m 23-46: applyInverse for sums, products and the powers -1, 2, ..., 5
   of a base that contains the variable: the equations lhs = rhs is taken to *)
Definition root_of_m1 (n d : Z) : ex := cPower (EInt (-1)) (ERat n d).
Inductive inverse (v : string) : ex -> ex -> list (ex * ex) -> Prop :=
| inv_plus l x nv rhs : Permutation l (x :: nv) -> occurs (ESym v) x = true -> Forall (freeq (ESym v)) nv ->
    inverse v (cPlus l) rhs [(x, esub rhs (cPlus nv))]
| inv_times l x nv rhs : Permutation l (x :: nv) -> occurs (ESym v) x = true -> Forall (freeq (ESym v)) nv ->
    inverse v (cTimes l) rhs [(x, ediv rhs (cTimes nv))]
| inv_recip x rhs : inverse v (ipow x (-1)) rhs [(x, ediv (EInt 1) rhs)]
| inv_2 x rhs s : s = esqrt rhs \/ (power_expand_rule (cPower rhs half) s /\ forall a, rhs <> cPower a (EInt 0)) ->
    inverse v (ipow x 2) rhs [(x, eneg s); (x, s)]
| inv_3 x rhs : let r := cPower rhs (ERat 1 3) in
    inverse v (ipow x 3) rhs [(x, r); (x, cTimes [EInt (-1); root_of_m1 1 3; r]); (x, cTimes [root_of_m1 2 3; r])]
| inv_4 x rhs : let r := cPower rhs (ERat 1 4) in
    inverse v (ipow x 4) rhs [(x, eneg r); (x, cTimes [EInt (-1); eI; r]); (x, cTimes [eI; r]); (x, r)]
| inv_5 x rhs : let r := cPower rhs (ERat 1 5) in
    inverse v (ipow x 5) rhs [(x, r); (x, cTimes [EInt (-1); root_of_m1 1 5; r]); (x, cTimes [root_of_m1 2 5; r]);
                              (x, cTimes [EInt (-1); root_of_m1 3 5; r]); (x, cTimes [root_of_m1 4 5; r])].
(* solve.m 115-133: isolate *)
Inductive isolate (v : string) : ex -> ex -> list ex -> Prop :=
| iso_var rest : isolate v (ESym v) rest [rest]
| iso_swap lhs rhs sols : freeq (ESym v) lhs -> occurs (ESym v) rhs = true -> isolate v rhs lhs sols -> isolate v lhs rhs sols
| iso_step lhs rhs eqs sols : lhs <> ESym v -> occurs (ESym v) lhs = true -> freeq (ESym v) rhs ->
    inverse v lhs rhs eqs -> isolate_all v eqs sols -> isolate v lhs rhs sols
with isolate_all (v : string) : list (ex * ex) -> list ex -> Prop :=
| ia_nil : isolate_all v [] []
| ia_cons l r eqs s sols : isolate v l r s -> isolate_all v eqs sols -> isolate_all v ((l, r) :: eqs) (s ++ sols).

(* solve.m 47-62: base^pow = rhs, the variable in pow, k for C[1] *)
Inductive inverse_pow : ex -> ex -> Z -> ex -> Prop :=
| ip_int b rhs k : b > 0 ->
    inverse_pow (EInt b) rhs k (cPlus [ediv (cTimes [EInt 2; eI; ePi; EInt k]) (app1 "Log" (EInt b)); ediv (app1 "Log" rhs) (app1 "Log" (EInt b))])
| ip_int_neg b rhs k : b <= 0 ->
    inverse_pow (EInt b) rhs k (ediv (cPlus [cTimes [EInt 2; eI; ePi; EInt k]; app1 "Log" rhs]) (app1 "Log" (EInt b)))
| ip_e rhs k : inverse_pow eE rhs k (cPlus [cTimes [EInt 2; eI; ePi; EInt k]; app1 "Log" rhs]).
(* solve.m 64: any other base *)
Definition inverse_pow_other (base rhs : ex) : ex := ediv (app1 "Log" rhs) (app1 "Log" base).
(* solve.m 43: base^(1/n) = rhs *)
Definition inverse_root (rhs : ex) (n : Z) : ex := cPower rhs (EInt n).
(* solve.m 67: Log[lhs] = rhs, under the condition -Pi < Im[rhs] <= Pi *)
Definition inverse_log (rhs : ex) : ex := cPower eE rhs.
(* solve.m 69: Abs[lhs] = rhs *)
Definition inverse_abs (rhs : ex) : list ex := [eneg rhs; rhs].
(* solve.m 72-92: the trigonometric functions, k for C[-1] or C[1] *)
Definition turns (k : Z) : ex := cTimes [EInt 2; ePi; EInt k].
Definition inverse_sin (rhs : ex) (k : Z) : list ex :=
  [cPlus [ePi; eneg (app1 "ArcSin" rhs); turns k]; cPlus [app1 "ArcSin" rhs; turns k]].
Definition inverse_cos (rhs : ex) (k : Z) : list ex :=
  [cPlus [eneg (app1 "ArcCos" rhs); turns k]; cPlus [app1 "ArcCos" rhs; turns k]].
Definition inverse_tan (rhs : ex) (k : Z) : list ex := [cPlus [app1 "ArcTan" rhs; cTimes [ePi; EInt k]]].
Definition inverse_sec (rhs : ex) (k : Z) : list ex :=
  [cPlus [eneg (app1 "ArcCos" (ediv (EInt 1) rhs)); turns k]; cPlus [app1 "ArcCos" (ediv (EInt 1) rhs); turns k]].
Definition inverse_csc (rhs : ex) (k : Z) : list ex :=
  [cPlus [ePi; eneg (app1 "ArcSin" (ediv (EInt 1) rhs)); turns k]; cPlus [app1 "ArcSin" (ediv (EInt 1) rhs); turns k]].
