(* The formulas of Cardano and Ferrari in any field of characteristic 0 (2 and 3
   are not 0). *)
From Coq Require Import Ring Field Setoid.

Section Algebra.
Variables (F : Type) (f0 f1 : F) (add mul sub : F -> F -> F) (opp : F -> F) (div : F -> F -> F) (inv : F -> F).
Hypothesis FT : field_theory f0 f1 add mul sub opp div inv (@eq F).
Add Field ff : FT.
Local Infix "+" := add.
Local Infix "*" := mul.
Local Infix "-" := sub.
Local Infix "/" := div.
Local Notation "- x" := (opp x).
Local Notation "1" := f1.
Local Notation "0" := f0.
Local Notation two := (1 + 1).
Local Notation three := (1 + 1 + 1).
Hypothesis N2 : two <> 0.
Hypothesis N3 : three <> 0.

Lemma mul_ne x y : x <> 0 -> y <> 0 -> x * y <> 0.
Proof. intros Hx Hy E. apply Hy. transitivity (x * y / x); [field; auto|rewrite E; field; auto]. Qed.
Ltac nz1 := first [assumption | apply mul_ne].
Ltac const :=
  match goal with |- ?c <> 0 =>
    first [ replace c with three by ring | replace c with (two * three) by ring | replace c with (three * three) by ring
          | replace c with (three * three * three) by ring | replace c with (two * three * three) by ring | replace c with (two * two * three) by ring
          | replace c with (two * two * three * three) by ring | replace c with (two * three * three * three) by ring
          | replace c with (two * two * three * three * three) by ring ]; repeat nz1
  end.
Ltac fld := field; repeat split; repeat nz1; try const.
Lemma quadratic_fact a b c s x : a <> 0 -> s * s = b * b - two * two * (a * c) ->
  a * (x * x) + b * x + c = a * ((x - (- b - s) / (two * a)) * (x - (- b + s) / (two * a))).
Proof.
  intros Ha Hs. transitivity (a * (x * x) + b * x + (b * b - s * s) / (two * two * a)).
  - rewrite Hs. fld.
  - fld.
Qed.

Definition cub_p (d c b : F) := - (c * c) + three * (b * d).
Definition cub_q (d c b a : F) := - two * (c * (c * c)) + three * three * (b * (c * d)) - three * three * three * (a * (d * d)).
Lemma cubic_fact d c b a s w t j x : d <> 0 -> w <> 0 -> t * (t * t) = two -> j * j = - three ->
  s * s = two * two * (cub_p d c b * (cub_p d c b * cub_p d c b)) + cub_q d c b a * cub_q d c b a ->
  w * (w * w) = cub_q d c b a + s ->
  d * (x * (x * x)) + c * (x * x) + b * x + a =
  d * ((x - (- (c / (three * d)) + (- (t * cub_p d c b / (three * (d * w))) + w / (three * (t * d)))))
     * ((x - (- (c / (three * d)) + ((1 + j) * cub_p d c b / (three * (t * t * (d * w))) - 1 / (two * three * (t * d)) * ((1 - j) * w))))
      * (x - (- (c / (three * d)) + ((1 - j) * cub_p d c b / (three * (t * t * (d * w))) - 1 / (two * three * (t * d)) * ((1 + j) * w)))))).
Proof.
  intros Hd Hw Ht Hj Hs HW.
  assert (Nt : t <> 0) by (intros ->; apply N2; rewrite <- Ht; ring).
  set (p := cub_p d c b) in *. set (q := cub_q d c b a) in *.
  pose (u := w / (three * (t * d))). pose (v := - (t * p / (three * (d * w)))). pose (y := x + c / (three * d)).
  assert (E2 : (1 + j) * p / (three * (t * t * (d * w))) = - ((1 + j) / two) * v).
  { unfold v. transitivity ((1 + j) * t * p / (three * (t * (t * t) * (d * w)))); [fld|rewrite Ht; fld]. }
  assert (E3 : (1 - j) * p / (three * (t * t * (d * w))) = - ((1 - j) / two) * v).
  { unfold v. transitivity ((1 - j) * t * p / (three * (t * (t * t) * (d * w)))); [fld|rewrite Ht; fld]. }
  assert (E4 : forall k, 1 / (two * three * (t * d)) * (k * w) = k / two * u) by (intros k; unfold u; fld).
  rewrite E2, E3, !E4. fold u v.
  assert (Huv : u * v = - (p / (three * three * (d * d)))) by (unfold u, v; fld).
  assert (HWne : w * (w * w) <> 0).
  { intros E. apply Hw. transitivity (w * (w * w) * (1 / (w * w))); [fld|rewrite E; fld]. }
  assert (Hww : w * (w * w) * (w * (w * w)) - two * two * (p * (p * p)) = two * q * (w * (w * w))).
  { rewrite HW. transitivity (q * q + two * q * s + (s * s) - two * two * (p * (p * p))); [ring|rewrite Hs; ring]. }
  assert (Hcub : u * (u * u) + v * (v * v) = q / (three * three * three * (d * (d * d)))).
  { transitivity ((w * (w * w) * (w * (w * w)) - (t * (t * t)) * (t * (t * t)) * (p * (p * p))) / (three * three * three * (t * (t * t)) * (d * (d * d)) * (w * (w * w)))).
    - unfold u, v. fld.
    - rewrite Ht, Hww. fld. }
  transitivity (d * (y * (y * y) - three * (u * v) * y - (u * (u * u) + v * (v * v)))).
  - rewrite Huv, Hcub. unfold y, p, q, cub_p, cub_q. fld.
  - assert (Hj' : forall A B, (y + (1 / two) * A + j * B) * (y + (1 / two) * A - j * B) = (y + (1 / two) * A) * (y + (1 / two) * A) + three * (B * B)).
    { intros A B. transitivity ((y + (1 / two) * A) * (y + (1 / two) * A) - (j * j) * (B * B)); [ring|rewrite Hj; ring]. }
    transitivity (d * ((y - (u + v)) * ((y + (1 / two) * (u + v) + j * ((v - u) / two)) * (y + (1 / two) * (u + v) - j * ((v - u) / two))))).
    + rewrite Hj'. fld.
    + unfold y. fld.
Qed.

Definition qua_d0 (e d c b a : F) := c * c - three * (b * d) + three * two * two * (a * e).
Definition qua_d1 (e d c b a : F) :=
  two * (c * (c * c)) - three * three * (b * (c * d)) + three * three * three * (a * (d * d)) + three * three * three * (b * b * e)
  - three * three * (two * two * two) * (a * (c * e)).
Definition qua_u (e d c b : F) := - (d * (d * d) / (e * (e * e))) + two * two * (c * d) / (e * e) - two * two * two * b / e.
Lemma quartic_fact e d c b a s w t S r1 r2 x : e <> 0 -> w <> 0 -> S <> 0 -> t * (t * t) = two ->
  let D0 := qua_d0 e d c b a in let D1 := qua_d1 e d c b a in let U := qua_u e d c b in
  let q1 := t * D0 / (three * (e * w)) in let q2 := 1 / (three * (t * e)) * w in
  s * s = - (two * two) * (D0 * (D0 * D0)) + D1 * D1 ->
  w * (w * w) = D1 + s ->
  S * S = d * d / (two * two * (e * e)) - two * c / (three * e) + q1 + q2 ->
  r1 * r1 = d * d / (two * (e * e)) - two * two * c / (three * e) - q1 - q2 - U / (two * two * S) ->
  r2 * r2 = d * d / (two * (e * e)) - two * two * c / (three * e) - q1 - q2 + U / (two * two * S) ->
  e * (x * x * (x * x)) + d * (x * (x * x)) + c * (x * x) + b * x + a =
  e * ((x - (- (d / (two * two * e)) - S / two - r1 / two) ) * (x - (- (d / (two * two * e)) - S / two + r1 / two))
     * ((x - (- (d / (two * two * e)) + S / two - r2 / two)) * (x - (- (d / (two * two * e)) + S / two + r2 / two)))).
Proof.
  intros He Hw HS Ht D0 D1 U q1 q2 Hs HW HSS Hr1 Hr2.
  assert (Nt : t <> 0) by (intros ->; apply N2; rewrite <- Ht; ring).
  assert (Hq12 : q1 * q2 = D0 / (three * three * (e * e))) by (unfold q1, q2; fld).
  assert (HWne : w * (w * w) <> 0).
  { intros E. apply Hw. transitivity (w * (w * w) * (1 / (w * w))); [fld|rewrite E; fld]. }
  assert (Hww : w * (w * w) * (w * (w * w)) + two * two * (D0 * (D0 * D0)) = two * D1 * (w * (w * w))).
  { rewrite HW. transitivity (D1 * D1 + two * D1 * s + s * s + two * two * (D0 * (D0 * D0))); [ring|rewrite Hs; ring]. }
  assert (Hcub : q1 * (q1 * q1) + q2 * (q2 * q2) = D1 / (three * three * three * (e * (e * e)))).
  { transitivity ((w * (w * w) * (w * (w * w)) + (t * (t * t)) * (t * (t * t)) * (D0 * (D0 * D0))) / (three * three * three * (t * (t * t)) * (e * (e * e)) * (w * (w * w)))).
    - unfold q1, q2. fld.
    - rewrite Ht, Hww. fld. }
  set (Q := q1 + q2).
  assert (HQ : Q * (Q * Q) = three * (D0 / (three * three * (e * e))) * Q + D1 / (three * three * three * (e * (e * e)))).
  { rewrite <- Hcub, <- Hq12. unfold Q. ring. }
  pose (T := d * d / (two * (e * e)) - two * two * c / (three * e) - Q).
  assert (Hr1' : r1 * r1 = T - U / (two * two * S)) by (rewrite Hr1; unfold T, Q; ring).
  assert (Hr2' : r2 * r2 = T + U / (two * two * S)) by (rewrite Hr2; unfold T, Q; ring).
  assert (HS' : S * S = d * d / (two * two * (e * e)) - two * c / (three * e) + Q) by (rewrite HSS; unfold Q; ring).
  clearbody Q. clear Hr1 Hr2 HSS Hcub Hww HWne Hq12 HW Hs. clearbody q1 q2. clear q1 q2 w s t Hw Ht Nt.
  pose (y := x + d / (two * two * e)).
  transitivity (e * ((y + S / two) * (y + S / two) - (r1 * r1) / (two * two)) * ((y - S / two) * (y - S / two) - (r2 * r2) / (two * two))).
  2:{ unfold y. fld. }
  rewrite Hr1', Hr2'.
  transitivity (e * (y * y * (y * y) - (S * S + T) / two * (y * y) - U / (two * two * two) * y
     + ((S * S - T) * (S * S - T) / (two * two * two * two) - U * U / (two * two * two * two * two * two * two * two * (S * S))))).
  2:{ fld. }
  assert (HSne : S * S <> 0).
  { intros E. apply HS. transitivity (S * S * (1 / S)); [fld|rewrite E; fld]. }
  assert (Hr : (S * S - T) * (S * S - T) / (two * two * two * two) - U * U / (two * two * two * two * two * two * two * two * (S * S))
    = a / e - b * d / (two * two * (e * e)) + c * (d * d) / (two * two * two * two * (e * (e * e))) - three * (d * d * (d * d)) / (two * two * two * two * two * two * two * two * (e * e * (e * e)))).
  { assert (Hk : forall k l, k * (S * S) = l -> k = l / (S * S)) by (intros k l <-; fld).
    enough (Hm : (S * S - T) * (S * S - T) * (S * S) * (two * two * two * two) - U * U
       = (a / e - b * d / (two * two * (e * e)) + c * (d * d) / (two * two * two * two * (e * (e * e))) - three * (d * d * (d * d)) / (two * two * two * two * two * two * two * two * (e * e * (e * e)))) * (S * S) * (two * two * two * two * two * two * two * two)).
    - transitivity (((S * S - T) * (S * S - T) * (S * S) * (two * two * two * two) - U * U) / (two * two * two * two * two * two * two * two * (S * S))); [fld|].
      rewrite Hm. fld.
    - rewrite !HS'. unfold T, U, qua_u. clear Hk HSne HS' Hr1' Hr2' y.
      match goal with |- ?L = ?R => enough (E : L - R = two * two * two * two * two * two * (Q * (Q * Q) - (three * (D0 / (three * three * (e * e))) * Q + D1 / (three * three * three * (e * (e * e)))))) end.
      + rewrite HQ in E. match goal with |- ?L = ?R => transitivity (L - R + R); [ring|rewrite E; ring] end.
      + unfold D0, D1, qua_d0, qua_d1. fld. }
  rewrite Hr, HS'. unfold T, U, qua_u, y. fld.
Qed.
Lemma system_fact a b c d e f x y : b * d - a * e <> 0 ->
  (a * x + b * y = c /\ d * x + e * y = f) <->
  (x = - ((c * e - b * f) / (b * d - a * e)) /\ y = - ((- (c * d) + a * f) / (b * d - a * e))).
Proof.
  intros H. split.
  - intros [<- <-]. split; field; exact H.
  - intros [-> ->]. split; field; exact H.
Qed.
Lemma system_tri_fact a b c d f x y : b <> 0 -> d <> 0 ->
  (a * x + b * y = c /\ d * x = f) <-> (x = f / d /\ y = - ((- (c * d) + a * f) / (b * d))).
Proof.
  intros Hb Hd. split.
  - intros [<- <-]. split; field; auto.
  - intros [-> ->]. split; field; auto.
Qed.
Lemma inv_mul_fact x y : x <> 0 -> y <> 0 -> inv (x * y) = inv x * inv y.
Proof. intros Hx Hy. field. auto. Qed.
Lemma inv_inv_fact x : x <> 0 -> inv (inv x) = x.
Proof. intros Hx. field. split; [exact Hx|exact (F_1_neq_0 FT)]. Qed.
End Algebra.
