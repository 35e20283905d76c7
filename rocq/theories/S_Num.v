(* Mathematical value of exact real numbers. *)
From Verif Require Import M_Syntax.
From Coq Require Import QArith Qfield.
Open Scope Z_scope.

(* None for everything that is not an Integer or a Rational with non-zero
   denominator *)
Definition qval (e : ex) : option Q :=
  match e with
  | EInt z => Some (inject_Z z)
  | ERat n d => if d =? 0 then None else Some (inject_Z n / inject_Z d)%Q
  | _ => None
  end.

Definition exact_real (e : ex) : bool :=
  match e with EInt _ => true | ERat _ d => negb (d =? 0) | _ => false end.

(* the two exact reals are in strict / weak numeric order *)
Definition num_lt (a b : ex) : Prop :=
  exists p q, qval a = Some p /\ qval b = Some q /\ (p < q)%Q.
Definition num_le (a b : ex) : Prop :=
  exists p q, qval a = Some p /\ qval b = Some q /\ (p <= q)%Q.
Definition num_eq (a b : ex) : Prop :=
  exists p q, qval a = Some p /\ qval b = Some q /\ (p == q)%Q.

(* e is the canonical representation of the rational number q: an Integer, or
   a Rational in lowest terms with denominator > 1 *)
Definition canonical_of (q : Q) (e : ex) : Prop :=
  match e with
  | EInt z => (q == inject_Z z)%Q
  | ERat n d => 1 < d /\ Z.gcd n d = 1 /\ (q == inject_Z n / inject_Z d)%Q
  | _ => False
  end.

(* values of a list of exact reals *)
Definition qval0 (e : ex) : Q := match qval e with Some q => q | None => 0%Q end.
Definition qsum (l : list ex) : Q := fold_right (fun e q => (qval0 e + q)%Q) 0%Q l.
Definition qprod (l : list ex) : Q := fold_right (fun e q => (qval0 e * q)%Q) 1%Q l.

(* complex values with rational components *)
Definition exact_number (e : ex) : bool :=
  match e with ECplx re im => exact_real re && exact_real im | _ => exact_real e end.
Definition cval (e : ex) : Q * Q :=
  match e with ECplx re im => (qval0 re, qval0 im) | _ => (qval0 e, 0%Q) end.
Definition cadd (x y : Q * Q) : Q * Q := (fst x + fst y, snd x + snd y)%Q.
Definition cmul (x y : Q * Q) : Q * Q :=
  (fst x * fst y - snd x * snd y, fst x * snd y + snd x * fst y)%Q.
Definition ceq (x y : Q * Q) : Prop := (fst x == fst y)%Q /\ (snd x == snd y)%Q.
Definition csum (l : list ex) : Q * Q := fold_right (fun e q => cadd (cval e) q) (0, 0)%Q l.
Definition cprod (l : list ex) : Q * Q := fold_right (fun e q => cmul (cval e) q) (1, 0)%Q l.
(* e represents the complex number c canonically: real when the imaginary part
   is zero, both components canonical *)
Definition canonical_cof (c : Q * Q) (e : ex) : Prop :=
  match e with
  | ECplx re im => ~ (snd c == 0)%Q /\ canonical_of (fst c) re /\ canonical_of (snd c) im
  | _ => (snd c == 0)%Q /\ canonical_of (fst c) e
  end.
