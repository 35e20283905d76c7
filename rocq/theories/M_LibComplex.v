(* Rules about complex numbers as written in the language itself: Re, Im
   (atoms.m 111-154), Arg, Conjugate, ComplexExpand, Exp, Log (power.m 231-240,
   861-889, 910), integer powers of complex numbers (power.m 71-73), Abs
   (arithmetic.m 248, 251), PowerExpand (power.m 842-849).
   [complex_rule e e'] holds when a rule turns e into e'; the choice of terms and
   factors (Plus and Times are Flat and Orderless) is stated with Permutation. *)
From Verif Require Import M_Syntax M_LibCalc M_LibPower M_LibTrig.
From Coq Require Import List Permutation QArith.
Import ListNotations.
Open Scope Z_scope.

Definition re_ (e : ex) : ex := app1 "Re" e.
Definition im_ (e : ex) : ex := app1 "Im" e.
Definition eE : ex := sys "E".
(* atoms.m 111-119: realNumberQ, without machine reals *)
Inductive real_number : ex -> Prop :=
| rn_lit e : literal e -> real_number e
| rn_root b n : 0 < b -> 0 < n -> real_number (cPower (EInt b) (ERat (-1) n))
| rn_sqrt b : 0 < b -> real_number (cPower (EInt b) half)
| rn_pi : real_number ePi.

Inductive complex_rule : ex -> ex -> Prop :=
(* atoms.m 122-130 *)
| cr_im_real x : real_number x -> complex_rule (im_ x) (EInt 0)
| cr_im_root l a x n d : Permutation l [EInt a; cPower (EInt x) (ERat n d)] -> 0 < x -> complex_rule (im_ (cTimes l)) (EInt 0)
| cr_im_cplx a b : literal a -> literal b -> complex_rule (im_ (ECplx a b)) b
| cr_im_plus l x rest : Permutation l (x :: rest) -> rest <> [] -> real_number x ->
    complex_rule (im_ (cPlus l)) (im_ (cPlus rest))
| cr_im_times l x rest : Permutation l (x :: rest) -> rest <> [] -> real_number x ->
    complex_rule (im_ (cTimes l)) (cTimes [x; im_ (cTimes rest)])
| cr_im_i l rest : Permutation l (eI :: rest) -> rest <> [] -> complex_rule (im_ (cTimes l)) (re_ (cTimes rest))
| cr_im_factor l a b rest : Permutation l (ECplx a b :: rest) -> rest <> [] -> literal a -> literal b ->
    complex_rule (im_ (cTimes l)) (cPlus [im_ (cTimes (a :: rest)); re_ (cTimes (b :: rest))])
| cr_im_term l l1 a b c d : Permutation l (cTimes l1 :: d) -> Permutation l1 (ECplx a b :: c) -> c <> [] -> d <> [] -> literal a -> literal b ->
    complex_rule (im_ (cPlus l)) (cPlus [im_ (cPlus (cTimes (a :: c) :: d)); re_ (cTimes (b :: c))])
| cr_im_exp x : complex_rule (im_ (cPower eE x)) (cTimes [cPower eE (re_ x); sin_ (im_ x)])
(* atoms.m 148-154 *)
| cr_re_real x : real_number x -> complex_rule (re_ x) x
| cr_re_cplx a b : literal a -> literal b -> complex_rule (re_ (ECplx a b)) a
| cr_re_plus_i l rest : Permutation l (eI :: rest) -> rest <> [] -> complex_rule (re_ (cPlus l)) (re_ (cPlus rest))
| cr_re_plus l x rest : Permutation l (x :: rest) -> rest <> [] -> real_number x ->
    complex_rule (re_ (cPlus l)) (cPlus [x; re_ (cPlus rest)])
| cr_re_times l x rest : Permutation l (x :: rest) -> rest <> [] -> real_number x ->
    complex_rule (re_ (cTimes l)) (cTimes [x; re_ (cTimes rest)])
| cr_re_times_i l rest : Permutation l (eI :: rest) -> rest <> [] ->
    complex_rule (re_ (cTimes l)) (cTimes [EInt (-1); im_ (cTimes rest)])
| cr_re_exp x : complex_rule (re_ (cPower eE x)) (cTimes [cPower eE (re_ x); cos_ (im_ x)])
(* power.m 870, 910; arithmetic.m 248, 251 *)
| cr_conj a : complex_rule (conj_ a) (cPlus [a; cTimes [EInt (-2); im_ a; eI]])
| cr_exp x : complex_rule (app1 "Exp" x) (cPower eE x)
| cr_abs_nonneg a : literal a -> (0 <= q_of a)%Q -> complex_rule (abs_ a) a
| cr_abs_neg a a' : literal a -> (q_of a < 0)%Q -> literal a' -> (q_of a' == - q_of a)%Q -> complex_rule (abs_ a) a'
| cr_abs_opp l rest : Permutation l (EInt (-1) :: rest) -> rest <> [] -> complex_rule (abs_ (cTimes l)) (abs_ (cTimes rest))
(* power.m 231, 237, 238 *)
| cr_log_neg n : n < 0 -> complex_rule (app1 "Log" (EInt n)) (cPlus [cTimes [eI; ePi]; app1 "Log" (EInt (- n))])
| cr_log_1 : complex_rule (app1 "Log" (EInt 1)) (EInt 0)
| cr_log_e : complex_rule (app1 "Log" eE) (EInt 1)
(* power.m 883-889: complexExpandInner *)
| cr_expand_neg a n d : a < 0 -> 0 < d ->
    let coeff := cPower (cPower (EInt a) (EInt 2)) (cTimes [half; ERat n d]) in
    let inner := cTimes [ERat n d; ePi] in
    complex_rule (cPower (EInt a) (ERat n d)) (cPlus [cTimes [coeff; cos_ inner]; cTimes [eI; coeff; sin_ inner]])
| cr_expand_exp l a b c : Permutation l [cPlus [a; cTimes [eI; b]]; c] ->
    complex_rule (cPower eE (cTimes l))
      (cPlus [cTimes [cPower eE (cTimes [a; c]); cos_ (cTimes [b; c])]; cTimes [eI; cPower eE (cTimes [a; c]); sin_ (cTimes [b; c])]])
| cr_expand_exp_num l a b c : Permutation l (ECplx a b :: c) -> literal a -> literal b ->
    complex_rule (cPower eE (cTimes l))
      (cPlus [cTimes [cPower eE (cTimes (a :: c)); cos_ (cTimes (b :: c))]; cTimes [eI; cPower eE (cTimes (a :: c)); sin_ (cTimes (b :: c))]])
(* power.m 71-73, with theta the value of ArcTan[re, im] *)
| cr_de_moivre re im n theta : literal re -> literal im -> ~ (q_of re == 0 /\ q_of im == 0)%Q -> n <> -1 -> arctan2 re im = Some theta ->
    complex_rule (cPower (ECplx re im) (EInt n))
      (cTimes [cPower (app1 "Sqrt" (cPlus [cPower re (EInt 2); cPower im (EInt 2)])) (EInt n);
               ECplx (cos_ (cTimes [EInt n; theta])) (sin_ (cTimes [EInt n; theta]))])
(* power.m 861; Arg[0] is Indeterminate *)
| cr_arg re im theta : literal re -> literal im -> ~ (q_of re == 0 /\ q_of im == 0)%Q -> arctan2 re im = Some theta -> complex_rule (app1 "Arg" (ECplx re im)) theta
| cr_arg_real x theta : literal x -> ~ (q_of x == 0)%Q -> arctan2 x (EInt 0) = Some theta -> complex_rule (app1 "Arg" x) theta.

(* power.m 239: Log[E^p_?NumberQ] := p *)
Inductive log_exp_rule : ex -> ex -> Prop :=
| le_number p : literal p -> log_exp_rule (app1 "Log" (cPower eE p)) p
| le_cplx a b : literal a -> literal b -> log_exp_rule (app1 "Log" (cPower eE (ECplx a b))) (ECplx a b).
(* power.m 240: Log[Rational[1,b_]] := -Log[a], with a symbol a that is not bound *)
Inductive log_rat_rule : ex -> ex -> Prop :=
| lr b : 0 < b -> log_rat_rule (app1 "Log" (ERat 1 b)) (cTimes [EInt (-1); app1 "Log" (ESym "Private`a")]).
(* power.m 842-849: the rules of PowerExpand *)
Inductive power_expand_rule : ex -> ex -> Prop :=
| pe_log_times l l1 l2 : Permutation l (l1 ++ l2) -> l1 <> [] -> l2 <> [] ->
    power_expand_rule (app1 "Log" (cTimes l)) (cPlus [app1 "Log" (grouped "Times" l1); app1 "Log" (grouped "Times" l2)])
| pe_log_power x k : power_expand_rule (app1 "Log" (cPower x k)) (cTimes [k; app1 "Log" x])
| pe_sqrt_neg a : power_expand_rule (cPower (cTimes [EInt (-1); a]) half) (cTimes [eI; cPower a half])
| pe_sqrt_sq a : power_expand_rule (cPower (cPower a (EInt 2)) half) a
| pe_sqrt_div a b : power_expand_rule (cPower (cTimes [a; cPower b (EInt (-1))]) half) (cTimes [cPower a half; cPower (cPower b half) (EInt (-1))])
| pe_nested a b n d : power_expand_rule (cPower (cPower a (EInt b)) (ERat n d)) (cPower a (cTimes [EInt b; ERat n d])).
