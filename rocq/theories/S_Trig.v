(* Real meaning of the trigonometric functions, and where expressions have one. *)
From Verif Require Import M_Syntax M_LibCalc S_Real.
From Coq Require Import Reals List.
Import ListNotations.
Open Scope R_scope.

Definition is_fn (h name : string) : bool := String.eqb h (sysname name).
Definition trig_fn (h : string) (vs : list R) : R :=
  match vs with
  | [x] =>
      if is_fn h "Tan" then sin x / cos x
      else if is_fn h "Cot" then cos x / sin x
      else if is_fn h "Sec" then / cos x
      else if is_fn h "Csc" then / sin x
      else if is_fn h "Sinh" then sinh x
      else if is_fn h "Cosh" then cosh x
      else if is_fn h "Coth" then cosh x / sinh x
      else if is_fn h "Csch" then / sinh x
      else if is_fn h "ArcSin" then asin x
      else if is_fn h "ArcCos" then acos x
      else if is_fn h "ArcTan" then atan x
      else if is_fn h "TrigExpand" then x
      else if is_fn h "Conjugate" then x
      else 0
  | _ => 0
  end.
Definition val (r : var -> R) : ex -> R := den trig_fn r.
(* the constants have their values *)
Definition constants (r : var -> R) : Prop := r (VSym (sysname "Pi")) = PI /\ r (VSym (sysname "E")) = exp 1.

(* no division by zero, inverse functions within their domain, at any depth *)
Definition defined_at (h : string) (args : list ex) (vs : list R) : Prop :=
  match args, vs with
  | [_; EInt n], [x; _] => is_fn h "Power" = true -> (n < 0)%Z -> x <> 0
  | [_], [x] =>
      (is_fn h "Tan" = true -> cos x <> 0) /\ (is_fn h "Sec" = true -> cos x <> 0) /\
      (is_fn h "Cot" = true -> sin x <> 0) /\ (is_fn h "Csc" = true -> sin x <> 0) /\
      (is_fn h "Coth" = true -> sinh x <> 0) /\ (is_fn h "Csch" = true -> sinh x <> 0) /\
      (is_fn h "ArcSin" = true -> -1 <= x <= 1) /\ (is_fn h "ArcCos" = true -> -1 <= x <= 1)
  | _, _ => True
  end.
Fixpoint defined (r : var -> R) (e : ex) : Prop :=
  match e with
  | EExpr (ESym h :: args) => defined_at h args (List.map (val r) args) /\
      (fix all (l : list ex) : Prop := match l with [] => True | a :: t => defined r a /\ all t end) args
  | _ => True
  end.

(* exact numbers *)
Definition exact_number (e : ex) : Prop := (exists n, e = EInt n) \/ (exists n d, e = ERat n d /\ (0 < d)%Z).

(* a List of Lists as a matrix of reals, and a matrix times a column *)
Definition row_val (r : var -> R) (e : ex) : list R :=
  match e with EExpr (ESym h :: args) => if is_fn h "List" then List.map (val r) args else [] | _ => [] end.
Definition mat_val (r : var -> R) (e : ex) : list (list R) :=
  match e with EExpr (ESym h :: rows) => if is_fn h "List" then List.map (row_val r) rows else [] | _ => [] end.
Fixpoint dot (a b : list R) : R :=
  match a, b with x :: a', y :: b' => x * y + dot a' b' | _, _ => 0 end.
Definition mat_vec (m : list (list R)) (v : list R) : list R := List.map (fun row => dot row v) m.

(* the rotation of v about the axis w by the angle t, right-handed (Rodrigues'
   formula, with u = w / |w|): v cos t + (u x v) sin t + u (u . v) (1 - cos t) *)
Definition norm3 (a b c : R) : R := sqrt (a * a + b * b + c * c).
Definition rodrigues (t a b c v1 v2 v3 : R) : list R :=
  let u1 := a / norm3 a b c in let u2 := b / norm3 a b c in let u3 := c / norm3 a b c in
  let uv := u1 * v1 + u2 * v2 + u3 * v3 in
  [ v1 * cos t + (u2 * v3 - u3 * v2) * sin t + u1 * uv * (1 - cos t);
    v2 * cos t + (u3 * v1 - u1 * v3) * sin t + u2 * uv * (1 - cos t);
    v3 * cos t + (u1 * v2 - u2 * v1) * sin t + u3 * uv * (1 - cos t) ].
