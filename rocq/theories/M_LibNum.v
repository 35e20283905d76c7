(* The number theory functions that are written in the language itself:
   resources/numbertheory.m 22-27, 73-75, 96, 126-171, 194-213, 241-261,
   269-294, 305-316.
   These are rules, not Go code: each body is transcribed into a function.
   Simplifications: exact numbers are Z or Q (C01, C02 prove that the
   interpreter's integer and rational arithmetic is exact and canonical), "==="
   and literal patterns on Integers are equality (hash collisions are treated
   in C09), comparisons with 0 are exact (C12), and local variables of Module
   are let-bound.  While loops take fuel; None: the loop has not ended. *)
From Verif Require Import M_Syntax M_Num M_Order M_Sort M_NumTheory.
From Coq Require Import QArith Qabs.
Open Scope Z_scope.

(* ---- digits ---- *)
(* numbertheory.m 272-276: the While loop of IntegerDigits *)
Fixpoint digits_loop (fuel : nat) (n base : Z) (acc : list Z) : option (list Z) :=
  match fuel with
  | O => None
  | S k => if 0 <? n then digits_loop k ((n - big_mod n base) / base) base (big_mod n base :: acc)
           else Some acc
  end.

(* numbertheory.m 269-277, base Positive *)
Definition integer_digits (fuel : nat) (n base : Z) : option (list Z) :=
  digits_loop fuel (Z.abs n) base [].

(* numbertheory.m 288-294: sum += digits[[i]] * base^(n - i) for i = 1..n; the
   base is not 0, so that base^0 is 1 (C16) *)
Fixpoint from_digits_loop (ds : list Z) (base sum : Z) : Z :=
  match ds with
  | [] => sum
  | d :: t => from_digits_loop t base (sum + d * base ^ Z.of_nat (length t))
  end.
Definition from_digits (ds : list Z) (base : Z) : Z := from_digits_loop ds base 0.

(* ---- FactorInteger ---- *)
(* list.m: Tally[l] := {#, Count[l, #]} & /@ DeleteDuplicates[l] *)
Fixpoint dedup (seen l : list Z) : list Z :=
  match l with
  | [] => []
  | x :: t => if existsb (Z.eqb x) seen then dedup seen t else x :: dedup (x :: seen) t
  end.
Definition count_z (x : Z) (l : list Z) : Z := Z.of_nat (length (filter (Z.eqb x) l)).
Definition tally_m (l : list Z) : list (Z * Z) := map (fun x => (x, count_z x l)) (dedup [] l).

(* {p, k} *)
Definition pair_ex (pk : Z * Z) : ex := mkList [EInt (fst pk); EInt (snd pk)].
(* Sort on a list of pairs: the sort of builtin_sort.go 13-28 on the pairs as
   expressions *)
Definition ex_pair (e : ex) : Z * Z :=
  match e with EExpr [_; EInt a; EInt b] => (a, b) | _ => (0, 0) end.
Definition sort_pairs (l : list (Z * Z)) : list (Z * Z) := map ex_pair (insertion_sort (map pair_ex l)).
(* DeleteCases[l, {1, 1}] *)
Definition delete_11 (l : list (Z * Z)) : list (Z * Z) :=
  filter (fun pk => negb ((fst pk =? 1) && (snd pk =? 1))) l.

(* numbertheory.m 154-169; [factor_loop] is the nested While of 162-167 *)
Definition factor_positive (fuel : nat) (n : Z) : option (list (Z * Z)) :=
  if n =? 1 then Some [(1, 1)]
  else match factor_loop fuel n with Some fs => Some (sort_pairs (tally_m fs)) | None => None end.
Definition factor_integer (fuel : nat) (n : Z) : option (list (Z * Z)) :=
  if n =? 0 then Some [(0, 1)]
  else if 0 <? n then factor_positive fuel n
  else match factor_positive fuel (- n) with Some l => Some (delete_11 ((-1, 1) :: l)) | None => None end.
(* numbertheory.m 152-153 *)
Definition factor_rational (fuel : nat) (n d : Z) : option (list (Z * Z)) :=
  match factor_integer fuel n, factor_integer fuel d with
  | Some a, Some b => Some (delete_11 (sort_pairs (a ++ map (fun pk => (fst pk, - snd pk)) b)))
  | _, _ => None
  end.

(* ---- EulerPhi ---- *)
(* numbertheory.m 241-245 *)
Definition euler_phi_pos (fuel : nat) (n : Z) : option Q :=
  if n =? 1 then Some 1%Q
  else match factor_integer fuel n with
       | Some l => Some (inject_Z n * fold_left (fun acc pk => acc * (1 - 1 / inject_Z (fst pk))) l 1)%Q
       | None => None
       end.
Definition euler_phi (fuel : nat) (n : Z) : option Q :=
  if n =? 0 then Some 0%Q else euler_phi_pos fuel (Z.abs n).

(* ---- Fibonacci ---- *)
(* numbertheory.m 258-260.  The definitions stored so far for literal
   arguments are a finite map; a call that finds no literal definition
   evaluates the two recursive calls, left to right, and stores the sum. *)
Definition memo := list (Z * Z).
Fixpoint memo_get (m : memo) (n : Z) : option Z :=
  match m with [] => None | (k, v) :: t => if k =? n then Some v else memo_get t n end.
Fixpoint fib_call (fuel : nat) (m : memo) (n : Z) : option (Z * memo) :=
  match fuel with
  | O => None
  | S k =>
      match memo_get m n with
      | Some v => Some (v, m)
      | None =>
          match fib_call k m (n - 1) with
          | None => None
          | Some (a, m1) =>
              match fib_call k m1 (n - 2) with
              | None => None
              | Some (b, m2) => Some (a + b, (n, a + b) :: m2)
              end
          end
      end
  end.
(* numbertheory.m 258: the definitions at start *)
Definition fib_init : memo := [(0, 0); (1, 1)].

(* ---- GCD and LCM of rationals ---- *)
(* builtin_numbertheory.go 71-99, the computation of gcd_eval *)
Definition zgcd_list (l : list Z) : Z :=
  match map Z.abs (filter (fun z => negb (z =? 0)) l) with [] => 0 | g :: t => fold_left Z.gcd t g end.
(* numerator and denominator of the canonical form; denominator 1: an Integer *)
Definition rnum (x : Q) : Z := Qnum (Qred x).
Definition rden (x : Q) : Z := QDen (Qred x).
(* numbertheory.m 22-23 and 24-25: the right-hand sides *)
Definition gcd_rr (x y : Q) : Q :=
  (inject_Z (zgcd_list [(rnum x * rden y)%Z; (rnum y * rden x)%Z]) / inject_Z (rden x * rden y))%Q.
Definition gcd_ri (x y : Q) : Q :=
  (inject_Z (zgcd_list [rnum x; (rnum y * rden x)%Z]) / inject_Z (rden x))%Q.
(* numbertheory.m 22-25: one rewriting step of a GCD call with arguments l.
   GCD is Orderless, so the pattern may pick its two arguments anywhere. *)
Inductive gcd_step : list Q -> list Q -> Prop :=
| gcd_rat_rat : forall l1 l2 l3 x y, rden x <> 1 -> rden y <> 1 ->
    gcd_step (l1 ++ x :: l2 ++ y :: l3) (gcd_rr x y :: l1 ++ l2 ++ l3)
| gcd_rat_int : forall l1 l2 l3 x y, rden x <> 1 -> rden y = 1 ->
    gcd_step (l1 ++ x :: l2 ++ y :: l3) (gcd_ri x y :: l1 ++ l2 ++ l3)
| gcd_int_rat : forall l1 l2 l3 x y, rden x <> 1 -> rden y = 1 ->
    gcd_step (l1 ++ y :: l2 ++ x :: l3) (gcd_ri x y :: l1 ++ l2 ++ l3).
(* the final step: all arguments Integers (builtin_numbertheory.go 71-99), or a
   single Rational (numbertheory.m 27) *)
Inductive gcd_final : list Q -> Q -> Prop :=
| gcd_ints : forall l, (forall x, In x l -> rden x = 1) -> gcd_final l (inject_Z (zgcd_list (map rnum l)))
| gcd_one : forall x, rden x <> 1 -> gcd_final [x] (Qabs.Qabs x).
Inductive gcd_result : list Q -> Q -> Prop :=
| gcd_done : forall l g, gcd_final l g -> gcd_result l g
| gcd_more : forall l l' g, gcd_step l l' -> gcd_result l' g -> gcd_result l g.

(* numbertheory.m 73 on Integers; None: division by zero (Indeterminate) *)
Definition lcm2 (a b : Z) : option Z :=
  let g := zgcd_list [a; b] in if g =? 0 then None else Some (a / g * b).
(* numbertheory.m 74-75 *)
Fixpoint lcm_list (a : Z) (rest : list Z) : option Z :=
  match rest with
  | [] => Some a
  | b :: t => match lcm2 a b with Some c => lcm_list c t | None => None end
  end.

(* ---- Mod, IntegerPart and FractionalPart of a Rational ---- *)
(* numbertheory.m 96: Mod[Rational[a, b], c] *)
Definition mod_rat (x : Q) (c : Z) : Q :=
  (inject_Z (big_mod (rnum x) (c * rden x)) / inject_Z (rden x))%Q.
(* numbertheory.m 194-195.  Mod of a Rational by 1 *)
Definition fractional_part (x : Q) : Q :=
  if rden x =? 1 then 0%Q
  else if Qle_bool 0 x then mod_rat x 1 else (- mod_rat (- x) 1)%Q.
(* numbertheory.m 212-213 *)
Definition integer_part (x : Q) : Q :=
  if rden x =? 1 then x else (x - fractional_part x)%Q.

(* numbertheory.m 126, 139 *)
Definition even_q (n : Z) : bool := big_mod n 2 =? 0.
Definition odd_q (n : Z) : bool := big_mod n 2 =? 1.
(* numbertheory.m 305-316 *)
Definition sign_q (x : Q) : Z := if Qle_bool 0 x then (if Qle_bool x 0 then 0 else 1) else -1.
