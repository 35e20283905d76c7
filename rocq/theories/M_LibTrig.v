(* Rules of the trigonometric functions as written in the language itself:
   resources/trig.m, simplify.m 38-40, 127.  [trig_rule e e'] holds when a
   rule turns e into e'; where a pattern variable in a sum or product takes one or
   more of the arguments (Flat, Orderless) the split is stated with Permutation.
   Left out: the rules about complex arguments
   (I*a_), Indeterminate and TrigToExp. *)
From Verif Require Import M_Syntax M_LibCalc.
From Coq Require Import List Permutation.
Import ListNotations.
Open Scope Z_scope.

Definition ePi : ex := sys "Pi".
Definition neg_ (e : ex) : ex := cTimes [EInt (-1); e].
Definition recip (e : ex) : ex := cPower e (EInt (-1)).
Definition sqrt_ (e : ex) : ex := cPower e (ERat 1 2).
Definition sin_ := app1 "Sin". Definition cos_ := app1 "Cos".
Definition tan_ := app1 "Tan". Definition cot_ := app1 "Cot".
(* p/q * Pi *)
Definition pi_times (n d : Z) : ex := cTimes [ERat n d; ePi].
Definition half_pi : ex := pi_times 1 2.
(* Sqrt[3]/2 *)
Definition half_sqrt3 : ex := cTimes [ERat 1 2; sqrt_ (EInt 3)].

(* trig.m 9-19 *)
Definition sin_table : list (Z * Z * ex) :=
  [ (-5, 2, EInt (-1)); (-3, 2, EInt 1); (-2, 3, neg_ half_sqrt3); (-1, 2, EInt (-1)); (-1, 3, neg_ half_sqrt3);
    (1, 4, recip (sqrt_ (EInt 2))); (1, 3, half_sqrt3); (1, 2, EInt 1); (2, 3, half_sqrt3); (3, 2, EInt (-1)); (5, 2, EInt 1) ].
(* trig.m 30-39 *)
Definition cos_table : list (Z * Z * ex) :=
  [ (-5, 2, EInt 0); (-3, 2, EInt 0); (-1, 2, EInt 0); (-1, 3, ERat 1 2); (1, 4, recip (sqrt_ (EInt 2)));
    (1, 3, ERat 1 2); (1, 2, EInt 0); (2, 3, ERat (-1) 2); (3, 2, EInt 0); (5, 2, EInt 0) ].

Inductive trig_rule : ex -> ex -> Prop :=
(* Sin, trig.m 2-22 *)
| tr_sin0 : trig_rule (sin_ (EInt 0)) (EInt 0)
| tr_sin_neg l l1 : Permutation l (EInt (-1) :: l1) -> l1 <> [] -> trig_rule (sin_ (cTimes l)) (neg_ (sin_ (grouped "Times" l1)))
| tr_sin_plus l : trig_rule (sin_ (cPlus l)) (neg_ (sin_ (neg_ (cPlus l))))
| tr_sin_negint n : n < 0 -> trig_rule (sin_ (EInt n)) (neg_ (sin_ (EInt (- n))))
| tr_sin_pi : trig_rule (sin_ ePi) (EInt 0)
| tr_sin_npi n : trig_rule (sin_ (cTimes [EInt n; ePi])) (EInt 0)
| tr_sin_table n d e : In (n, d, e) sin_table -> trig_rule (sin_ (pi_times n d)) e
| tr_sin_arcsin a : trig_rule (sin_ (app1 "ArcSin" a)) a
| tr_sin_arctan : trig_rule (sin_ (app1 "ArcTan" (ERat 1 2))) (recip (sqrt_ (EInt 5)))
(* Cos, trig.m 26-46 *)
| tr_cos0 : trig_rule (cos_ (EInt 0)) (EInt 1)
| tr_cos_pi : trig_rule (cos_ ePi) (EInt (-1))
| tr_cos_even n : Z.even n = true -> trig_rule (cos_ (cTimes [EInt n; ePi])) (EInt 1)
| tr_cos_odd n : Z.odd n = true -> trig_rule (cos_ (cTimes [EInt n; ePi])) (EInt (-1))
| tr_cos_table n d e : In (n, d, e) cos_table -> trig_rule (cos_ (pi_times n d)) e
| tr_cos_neg l l1 : Permutation l (EInt (-1) :: l1) -> l1 <> [] -> trig_rule (cos_ (cTimes l)) (cos_ (grouped "Times" l1))
| tr_cos_negint n : n < 0 -> trig_rule (cos_ (EInt n)) (cos_ (EInt (- n)))
| tr_cos_arccos a : trig_rule (cos_ (app1 "ArcCos" a)) a
| tr_cos_arctan : trig_rule (cos_ (app1 "ArcTan" (ERat 1 2))) (cTimes [EInt 2; recip (sqrt_ (EInt 5))])
(* Tan, Cot, Sec, trig.m 50-64; a_+Pi/2: the rest of the sum is a group *)
| tr_tan_recip x : trig_rule (recip (tan_ x)) (cot_ x)
| tr_tan_shift l l1 : Permutation l (l1 ++ [half_pi]) -> l1 <> [] ->
    trig_rule (tan_ (cPlus l)) (cot_ (neg_ (grouped "Plus" l1)))
| tr_tan_arctan a : trig_rule (tan_ (app1 "ArcTan" a)) a
| tr_cot_recip x : trig_rule (recip (cot_ x)) (tan_ x)
| tr_cot_shift l l1 : Permutation l (l1 ++ [half_pi]) -> l1 <> [] ->
    trig_rule (cot_ (cPlus l)) (neg_ (tan_ (grouped "Plus" l1)))
| tr_sec_shift l l1 : Permutation l (l1 ++ [pi_times (-1) 2]) -> l1 <> [] ->
    trig_rule (app1 "Sec" (cPlus l)) (app1 "Csc" (grouped "Plus" l1))
(* trig.m 69 *)
| tr_cosh_csch l a b rest : Permutation l (app1 "Cosh" a :: cPower (app1 "Csch" a) (EInt b) :: rest) -> 0 < b ->
    trig_rule (cTimes l) (cTimes (app1 "Coth" a :: cPower (app1 "Csch" a) (EInt (b - 1)) :: rest))
(* inverse functions, trig.m 72-81 *)
| tr_asin_plus l : trig_rule (app1 "ArcSin" (cPlus l)) (neg_ (app1 "ArcSin" (neg_ (cPlus l))))
| tr_asin_neg l l1 : Permutation l (EInt (-1) :: l1) -> l1 <> [] ->
    trig_rule (app1 "ArcSin" (cTimes l)) (neg_ (app1 "ArcSin" (grouped "Times" l1)))
| tr_asin0 : trig_rule (app1 "ArcSin" (EInt 0)) (EInt 0)
| tr_atan_m1 : trig_rule (app1 "ArcTan" (EInt (-1))) (pi_times (-1) 4)
| tr_atan0 : trig_rule (app1 "ArcTan" (EInt 0)) (EInt 0)
| tr_atan1 : trig_rule (app1 "ArcTan" (EInt 1)) (pi_times 1 4)
(* TrigExpand, trig.m 91-92 *)
| tr_expand a : trig_rule (app1 "TrigExpand" (cos_ (cTimes [EInt 2; a])))
    (cPlus [cPower (cos_ a) (EInt 2); cTimes [EInt (-1); cPower (sin_ a) (EInt 2)]])
| tr_expand_cos a : trig_rule (app1 "TrigExpand" (cos_ a)) (cos_ a)
(* trigSimplify, simplify.m 38-40: Rational[1,2]*c_.*(a_ + b_*Cos[inner_]) /; a == -b;
   cs are the factors of c *)
| tr_half_angle l cs a inner : Permutation l (ERat 1 2 :: cs ++ [cPlus [a; cTimes [neg_ a; cos_ inner]]]) ->
    trig_rule (cTimes l) (cTimes (cs ++ [a; cPower (sin_ (cTimes [ERat 1 2; inner])) (EInt 2)]))
(* FullSimplify, simplify.m 127 *)
| tr_cosh x : trig_rule (cPlus [cPower (sys "E") (neg_ (ESym x)); cPower (sys "E") (ESym x)]) (cTimes [EInt 2; app1 "Cosh" (ESym x)]).

(* trig.m 59: Cot[Verbatim[Plus][-1*a_, b___]] := -Cot[a-b]; a-b is Plus[a, Times[-1, b]]
   and the sequence b is spliced into Times *)
Inductive cot_neg_rule : ex -> ex -> Prop :=
| tr_cot_neg l l1 bs : Permutation l (EInt (-1) :: l1) -> l1 <> [] ->
    cot_neg_rule (cot_ (cPlus (cTimes l :: bs))) (neg_ (cot_ (cPlus [grouped "Times" l1; cTimes (EInt (-1) :: bs)]))).

(* trig.m 82-88: ArcTan[x, y] for exact numbers x, y (Integer or Rational with
   a positive denominator, as evaluation leaves them): the comparisons look at
   the signs *)
Definition sign_of (e : ex) : option Z :=
  match e with EInt n => Some (Z.sgn n) | ERat n _ => Some (Z.sgn n) | _ => None end.
Definition arctan2 (x y : ex) : option ex :=
  match sign_of x, sign_of y with
  | Some sx, Some sy =>
      let q := app1 "ArcTan" (cTimes [y; recip x]) in
      Some (if 0 <? sx then q
            else if (sx <? 0) && (0 <=? sy) then cPlus [q; ePi]
            else if (sx <? 0) && (sy <? 0) then cPlus [q; neg_ ePi]
            else if (sx =? 0) && (0 <? sy) then pi_times 1 2
            else if (sx =? 0) && (sy <? 0) then pi_times (-1) 2
            else sys "Indeterminate")
  | _, _ => None
  end.

(* trig.m 130: RotationMatrix[t] *)
Definition rotation2 (t : ex) : ex :=
  mkList [mkList [cos_ t; neg_ (sin_ t)]; mkList [sin_ t; cos_ t]].
Definition conj_ (x : ex) : ex := app1 "Conjugate" x.
Definition abs_ (x : ex) : ex := app1 "Abs" x.
(* (x^p Conjugate[x]^q f...)/Abs[x]^k *)
Definition quot (p q : Z) (x : ex) (fs : list ex) (k : Z) : ex :=
  cTimes (cPower x (EInt p) :: cPower (conj_ x) (EInt q) :: fs ++ [cPower (abs_ x) (EInt (- k))]).
(* trig.m 131-133 *)
Definition rotation_x (t x : ex) : ex :=
  mkList [mkList [quot 3 3 x [] 6; EInt 0; EInt 0];
          mkList [EInt 0; cos_ t; neg_ (quot 2 1 x [sin_ t] 3)];
          mkList [EInt 0; quot 1 2 x [sin_ t] 3; quot 3 3 x [cos_ t] 6]].
Definition rotation_y (t y : ex) : ex :=
  mkList [mkList [cos_ t; EInt 0; quot 2 1 y [sin_ t] 3];
          mkList [EInt 0; quot 3 3 y [] 6; EInt 0];
          mkList [neg_ (quot 1 2 y [sin_ t] 3); EInt 0; quot 3 3 y [cos_ t] 6]].
Definition rotation_z (t z : ex) : ex :=
  mkList [mkList [cos_ t; neg_ (quot 1 0 z [sin_ t] 1); EInt 0];
          mkList [quot 0 1 z [sin_ t] 1; quot 1 1 z [cos_ t] 2; EInt 0];
          mkList [EInt 0; EInt 0; quot 1 1 z [] 2]].
