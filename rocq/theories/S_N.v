(* What a machine real is worth, and what it means to approximate. *)
From Verif Require Import M_Syntax S_Num.
From Coq Require Import QArith Qpower Qabs.
Open Scope Q_scope.

(* the rational number a finite machine real stands for: (-1)^neg * m * 2^e *)
Definition flt_q (f : flt) : option Q :=
  match f with
  | FInf _ => None
  | FFin neg m e _ => Some ((if neg then - inject_Z (Z.of_N m) else inject_Z (Z.of_N m)) * (2 # 1) ^ e)
  end.

(* the numbers a machine real can hold: a 53-bit mantissa times a power of two *)
Definition representable (q : Q) : Prop := exists m e : Z, (Z.abs m < 2 ^ 53)%Z /\ q == inject_Z m * (2 # 1) ^ e.

(* f is a machine real nearest to q *)
Definition nearest (f : flt) (q : Q) : Prop :=
  exists x, flt_q f = Some x /\ representable x /\ forall y, representable y -> Qabs (x - q) <= Qabs (y - q).

(* same shape: the approximation replaces numbers and constants inside, and
   changes nothing else *)
Inductive approximated (num : ex -> ex -> Prop) : ex -> ex -> Prop :=
| ap_number e e' : num e e' -> approximated num e e'
| ap_same e : (forall l, e <> EExpr l) -> approximated num e e
| ap_expr l l' : Forall2 (approximated num) l l' -> approximated num (EExpr l) (EExpr l').

(* an exact real number occurs somewhere, outside complex numbers *)
Inductive has_exact : ex -> Prop :=
| he_int z : has_exact (EInt z)
| he_rat n d : has_exact (ERat n d)
| he_expr l e : In e l -> has_exact e -> has_exact (EExpr l).
