From Verif Require Import M_LibPoly.
From mathcomp Require Import all_ssreflect all_algebra.
Set Implicit Arguments.
Unset Strict Implicit.
Unset Printing Implicit Defensive.
Import GRing.Theory Pdiv.Field.
Local Open Scope ring_scope.

Section proofs.
  Variable F : fieldType.
  Implicit Types (a b q r u v g : {poly F}).

  Lemma qr_loop_inv k b d c q r : let qr := qr_loop k b d c q r in qr.1 * b + qr.2 = q * b + r.
  Proof.
    elim: k q r => [|k IH] q r //=. case: ifP => // _. rewrite IH mulrDl -!addrA. congr (_ + _). by rewrite addrC subrK.
  Qed.
  Lemma step_size b r : b != 0 -> r != 0 -> (exponent b <= exponent r)%N ->
    (size (r - ((r`_(exponent r) / b`_(exponent b)) *: 'X^(exponent r - exponent b)) * b)%R < size r)%N.
  Proof.
    move=> b0 r0 le. have sb : (0 < size b)%N by rewrite size_poly_gt0. have sr : (0 < size r)%N by rewrite size_poly_gt0.
    rewrite -(prednK sr) ltnS. apply/leq_sizeP => j. rewrite -/(exponent r) => lj.
    rewrite coefB -scalerAl coefZ coefXnM.
    have lej : (exponent r - exponent b <= j)%N by rewrite (leq_trans _ lj) // leq_subr.
    rewrite ltnNge lej /=. move: lj. rewrite leq_eqVlt => /orP [/eqP <-|lj].
    - rewrite subKn // mulfVK ?subrr //. rewrite -/(lead_coef b) lead_coef_eq0. exact: b0.
    - have -> : r`_j = 0 by apply/nth_default; rewrite -(prednK sr).
      have -> : b`_(j - (exponent r - exponent b)) = 0; last by rewrite mulr0 subrr.
      apply/nth_default. rewrite -(prednK sb) -/(exponent b) ltn_subRL. by rewrite subnK.
  Qed.
  Lemma qr_loop_small k b q r : b != 0 -> (size r <= exponent b + k)%N -> (0 < exponent b)%N ->
    (size (qr_loop k b (exponent b) b`_(exponent b) q r).2 < size b)%N.
  Proof.
    move=> b0 + d0. have sb : size b = (exponent b).+1 by rewrite /exponent prednK // size_poly_gt0.
    elim: k q r => [|k IH] q r le /=; first by rewrite sb ltnS -(addn0 (exponent b)).
    case: ifP => [/andP [r0 ed]|].
    - apply: IH. rewrite -ltnS -addnS. apply: leq_trans le. exact: step_size.
    - move/negbT. rewrite negb_and negbK => /orP [/eqP -> /=|]; first by rewrite size_poly0 size_poly_gt0.
      rewrite -ltnNge /exponent => lt /=. rewrite sb /exponent. move: lt. by case: (size r).
  Qed.
  Lemma pqr_eq a b : b != 0 -> (poly_quotient_remainder a b).1 * b + (poly_quotient_remainder a b).2 = a.
  Proof.
    move=> b0. rewrite /poly_quotient_remainder. case: ifP => [/eqP d0 /=|_]; last by rewrite qr_loop_inv mul0r add0r.
    have sb : size b == 1%N by rewrite -(prednK (n := size b)) ?size_poly_gt0 // -/(exponent b) d0.
    case/size_poly1P: sb => c c0 ->. rewrite coefC eqxx addr0 mulrC mul_polyC scalerA divff // scale1r. by [].
  Qed.
  Lemma pqr_small a b : b != 0 -> (exponent a <= exponent b + 18)%N -> (size (poly_quotient_remainder a b).2 < size b)%N.
  Proof.
    move=> b0 le. rewrite /poly_quotient_remainder. case: ifP => [_ /=|/negbT d0]; first by rewrite size_poly0 size_poly_gt0.
    apply: qr_loop_small => //; last by rewrite lt0n. rewrite /rounds.
    rewrite addnS -addSn. apply: leq_trans (leqSpred _) _. by rewrite ltnS.
  Qed.
  Lemma pqr_divp a b : b != 0 -> (exponent a <= exponent b + 18)%N -> poly_quotient a b = a %/ b /\ poly_remainder a b = a %% b.
  Proof.
    move=> b0 le. have E := pqr_eq a b0. have S := pqr_small b0 le. rewrite /poly_quotient /poly_remainder.
    by split; [rewrite -[in RHS]E divp_addl_mul_small|rewrite -[in RHS]E modp_addl_mul_small].
  Qed.
  (* ---- gcd ---- *)
  Hypothesis char0 : [char F] =i pred0.
  Lemma nat_ne0 n : (0 < n)%N -> n%:R != 0 :> F.
  Proof. move=> n0. have/(GRing.charf0P F) -> := char0. by rewrite -lt0n. Qed.
  Lemma zpow_ne0 (x : F) m n : x != 0 -> zpow x m n != 0.
  Proof. move=> x0. rewrite /zpow. case: ifP => _; by rewrite ?invr_eq0 expf_neq0. Qed.
  Lemma beta_ne0 (h : F) m n : h != 0 -> (0 < m)%N -> (if odd (m + n).+1 then -1 else 1) * m%:R * zpow h m n != 0.
  Proof.
    move=> h0 m0. rewrite !mulf_neq0 ?nat_ne0 ?zpow_ne0 //. case: ifP => _; by rewrite ?oppr_eq0 oner_neq0.
  Qed.
  Lemma rem_gcdp u v : v != 0 -> gcdp v (poly_remainder u v) %= gcdp u v.
  Proof.
    move=> v0. have E := pqr_eq u v0. rewrite -[X in _ %= gcdp X _]E eqp_sym. apply: eqp_trans (gcdpC _ _) _. exact: gcdp_addl_mul.
  Qed.
  Lemma const_rem u v : exponent v = 0%N -> poly_remainder u v = 0.
  Proof. move=> e. by rewrite /poly_remainder /poly_quotient_remainder e eqxx. Qed.
  Lemma gcd_loop_ok k u v h : (v == 0) || ((0 < exponent u)%N && (h != 0)) ->
    let: (g, ended) := gcd_loop k u v h in ended -> g %= gcdp u v.
  Proof.
    elim: k u v h => [|k IH] u v h inv /=.
    - move=> /eqP ->. by rewrite gcdp0 eqpxx.
    - case: ifP => [/eqP -> _|/negbT v0]; first by rewrite gcdp0 eqpxx.
      move: inv. rewrite (negbTE v0) /= => /andP [ue h0].
      set be := (_ * _ * _). have be0 : be != 0 by exact: beta_ne0.
      set h' := (h * _). set v' := (_ *: _).
      have inv' : (v' == 0) || ((0 < exponent v)%N && (h' != 0)).
      { case: (posnP (exponent v)) => ve.
        - by rewrite /v' const_rem // scaler0 eqxx.
        - apply/orP; right. rewrite /= mulf_neq0 // zpow_ne0 // mulf_neq0 ?nat_ne0 // invr_eq0. exact: h0. }
      move: (IH _ _ _ inv'). case: (gcd_loop k v v' h') => g e H /H {H} G.
      apply: eqp_trans G _. apply: eqp_trans (rem_gcdp u v0).
      rewrite /v'. apply: eqp_gcdr. apply: eqp_scale. by rewrite invr_eq0.
  Qed.
  Lemma gcd_loop_ends k u v h : (size v <= k)%N -> (exponent u <= exponent v + 18)%N -> (size v <= 19)%N ->
    (gcd_loop k u v h).2.
  Proof.
    elim: k u v h => [|k IH] u v h le d18 s19 /=.
    - by rewrite -size_poly_leq0.
    - case: ifP => // /negbT v0. have lt := pqr_small v0 d18. 
      have le' : (size ((((if odd (exponent u + exponent v).+1 then -1 else 1) * (exponent u)%:R * zpow h (exponent u) (exponent v))^-1)%R *: poly_remainder u v)%R < size v)%N.
      { apply: leq_ltn_trans lt. exact: size_scale_leq. }
      apply: IH.
      + by rewrite -ltnS (leq_trans le').
      + rewrite (leq_trans _ (leq_addl _ _)) // /exponent. move: s19. by case: (size v).
      + by rewrite (leq_trans (ltnW le')).
  Qed.
  Lemma finish_eqp g : g != 0 -> finish g %= g.
  Proof.
    move=> g0. rewrite /finish. case: ifP => [/eqP e|_]; last by rewrite eqpxx. rewrite eqp_sym -size_poly_eq1. by rewrite -(prednK (n := size g)) ?size_poly_gt0 // -/(exponent g) e.
  Qed.
  Lemma poly_gcd_ok u v : (0 < exponent u)%N -> (gcd_loop rounds u v 1).2 -> poly_gcd u v %= gcdp u v.
  Proof.
    move=> ue. have inv : (v == 0) || ((0 < exponent u)%N && ((1 : F) != 0)) by rewrite ue oner_neq0 orbT.
    move: (gcd_loop_ok rounds inv). rewrite /poly_gcd. case: (gcd_loop rounds u v 1) => g e /= H e1. have G := H e1.
    apply: eqp_trans (_) (G). apply: finish_eqp. apply/eqP => g0. move: G. rewrite g0 eqp_sym eqp0 gcdp_eq0 => /andP [/eqP u0 _].
    move: ue. by rewrite u0 /exponent size_poly0.
  Qed.
End proofs.
