(* Random numbers: builtin_random.go, resources/random.m. *)
From Verif Require Import M_Syntax M_Float M_Sort M_Num M_Arith.
From Coq Require Import String.
Open Scope Z_scope.

(* Go's math/rand as used here: a state set by a 64-bit seed, and a step that
   produces the next value of rand.Float64.  The generator itself is a
   parameter. *)
Record generator := { gstate : Type; gseed : Z -> gstate; gnext : gstate -> flt * gstate }.

(* builtin_random.go 17-23: RandomReal[] draws; with arguments the builtin leaves
   the expression alone *)
Definition random_real (g : generator) (s : gstate g) (args : list ex) : option ex * gstate g :=
  match args with
  | [] => let '(r, s') := gnext g s in (Some (EFlt r), s')
  | _ => (None, s)
  end.

(* builtin_random.go 30-43: the seed is the low 64 bits of the integer *)
Definition seed_random (g : generator) (s : gstate g) (args : list ex) : option ex * gstate g :=
  match args with
  | [EInt z] => (Some (sys "Null"), gseed g (wrap64 z))
  | _ => (None, s)
  end.

(* evaluation of Plus and Times of numbers: the arguments are sorted (Orderless),
   then folded (builtin_arithmetic.go 223-266, 363-440) *)
Definition plus_of (l : list ex) : ex := plus_eval (insertion_sort l).
Definition times_of (l : list ex) : ex := times_eval (insertion_sort l).

(* random.m 6: RandomReal[{min_, max_}] := RandomReal[]*(max - min) + min, with
   the value r drawn and min, max numbers; max - min is Plus[max, Times[-1, min]]
   (parser/interp.go) *)
Definition random_between (r : flt) (mn mx : ex) : ex :=
  plus_of [times_of [EFlt r; plus_of [mx; times_of [EInt (-1); mn]]]; mn].
(* random.m 7: RandomReal[max_] := RandomReal[]*max *)
Definition random_upto (r : flt) (mx : ex) : ex := times_of [EFlt r; mx].
