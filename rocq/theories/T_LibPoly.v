(* C73: PolynomialQuotient / PolynomialRemainder; C74: PolynomialGCD and
   SquareFreeQ, as written in resources/power.m.
   The specification is mathcomp's theory of polynomials over a field:
   [p %| q] is divisibility, [size p] is the degree plus one (0 for the zero
   polynomial), [[char F] =i pred0] says that F has characteristic 0 (such as
   the rationals, or the rational functions in the other variables). *)
From Verif Require Import M_LibPoly P_LibPoly.
From mathcomp Require Import all_ssreflect all_algebra.
Set Implicit Arguments.
Unset Strict Implicit.
Unset Printing Implicit Defensive.
Import GRing.Theory Pdiv.Field.
Local Open Scope ring_scope.

(* ---------------- C73 ---------------- *)
(* whatever the degrees, the two answers recombine to the dividend *)
Theorem C73_recombine (F : fieldType) (a b : {poly F}) : b != 0 ->
  a = poly_quotient a b * b + poly_remainder a b.
Proof. move=> b0. by rewrite -[LHS](pqr_eq a b0). Qed.
Print Assumptions C73_recombine.

(* the remainder has smaller degree than the divisor, and the two answers are
   the only ones with these two properties.  Missing (see C73_refuted): degree
   of a larger than degree of b by more than 18 *)
Theorem C73_division_partial (F : fieldType) (a b : {poly F}) : b != 0 -> (size a <= size b + 18)%N ->
  (size (poly_remainder a b) < size b)%N /\
  (forall q r, a = q * b + r -> (size r < size b)%N -> poly_quotient a b = q /\ poly_remainder a b = r).
Proof.
  move=> b0 le. have le' : (exponent a <= exponent b + 18)%N.
  { rewrite /exponent. move: le. have : (0 < size b)%N by rewrite size_poly_gt0. case: (size b) => // m _. by case: (size a). }
  split; first exact: (pqr_small b0 le'). move=> q r E lt. have [-> ->] := pqr_divp b0 le'.
  by rewrite E divp_addl_mul_small // modp_addl_mul_small.
Qed.
Print Assumptions C73_division_partial.

(* exact division: the quotient of a product by one of its factors *)
Theorem C73_exact_partial (F : fieldType) (q b : {poly F}) : b != 0 -> (size q <= 19)%N ->
  poly_quotient (q * b) b = q /\ poly_remainder (q * b) b = 0.
Proof.
  move=> b0 le. have sz : (size (q * b)%R <= size b + 18)%N.
  { case: (altP (q =P 0)) => [->|q0]; first by rewrite mul0r size_poly0.
    rewrite size_mul // addnC. move: le. have : (0 < size q)%N by rewrite size_poly_gt0. case: (size q) => // m _ le.
    by rewrite addnS /= leq_add2l. }
  have [_ U] := C73_division_partial b0 sz. apply: U; first by rewrite addr0. by rewrite size_poly0 size_poly_gt0.
Qed.
Print Assumptions C73_exact_partial.

(* a concrete division to which the theorems apply: 3x^2+2 by x+1 *)
Example C73_nonvacuous : let b := 'X + 1 : {poly rat} in let a := 3%:R *: 'X^2 + 2%:R%:P in
  b != 0 /\ (size a <= size b + 18)%N /\ poly_quotient a b = 3%:R *: 'X - 3%:R%:P /\ poly_remainder a b = 5%:R%:P.
Proof.
  move=> b a. have sb : size b = 2%N by rewrite /b -[1]opprK -polyC1 -polyCN size_XsubC.
  have b0 : b != 0 by rewrite -size_poly_gt0 sb.
  have sa : (size a <= size b + 18)%N.
  { rewrite sb. apply: leq_trans (size_add _ _) _. rewrite geq_max. apply/andP; split.
    - apply: leq_trans (size_scale_leq _ _) _. by rewrite size_polyXn.
    - by apply: leq_trans (size_polyC_leq1 _) _. }
  split=> //; split=> //. have [_ U] := C73_division_partial b0 sa. apply: U.
  - rewrite /a /b -!mul_polyC -[5%N]/(3 + 2)%N natrD polyCD. set t := 3%:R%:P. set w := 2%:R%:P.
    by rewrite mulrDr mulr1 mulrBl -mulrA -expr2 !addrA subrK subrK.
  - rewrite sb. by apply: leq_ltn_trans (size_polyC_leq1 _) _.
Qed.

(* the refutation: after 19 rounds the loop stops, whatever is left *)
Lemma rem_unfold (F : fieldType) (a b : {poly F}) : (0 < exponent b)%N ->
  poly_remainder a b = (qr_loop rounds b (exponent b) b`_(exponent b) 0 a).2.
Proof.
  rewrite /poly_remainder /poly_quotient_remainder. move: rounds => k. move: (qr_loop _ _ _ _ _ _) => w. by case: (exponent b).
Qed.
Lemma qr_loop_stop (F : fieldType) k (b : {poly F}) d c q r : ~~ (d <= exponent r)%N -> qr_loop k b d c q r = (q, r).
Proof. move=> /negbTE H. by case: k => [|k] //=; rewrite H andbF. Qed.
Section linear.
  Variable F : fieldType.
  Let b : {poly F} := 'X + 1.
  Lemma lin_size : size b = 2%N. Proof. by rewrite /b -[1]opprK -polyC1 -polyCN size_XsubC. Qed.
  Lemma lin_exp : exponent b = 1%N. Proof. by rewrite /exponent lin_size. Qed.
  Lemma lin_lead : b`_1 = 1. Proof. by rewrite /b coefD coefX coef1 addr0. Qed.
  Lemma lin_ne0 : b != 0. Proof. by rewrite -size_poly_gt0 lin_size. Qed.
  Lemma mon_size (c : F) n : c != 0 -> size (c *: 'X^n) = n.+1.
  Proof. move=> c0. by rewrite size_scale // size_polyXn. Qed.
  Variable d : F.
  Hypothesis d0 : d != 0.
  Lemma mon_round k q (c : F) n : c != 0 -> (k <= n)%N -> (qr_loop k (d *: b) 1 d q (c *: 'X^n)).2 = ((-1) ^+ k * c) *: 'X^(n - k).
  Proof.
    elim: k q c n => [|k IH] q c n c0 le /=; first by rewrite subn0 mul1r.
    case: n le => // n le. rewrite /exponent mon_size //= -size_poly_gt0 mon_size //= subn1 /=.
    rewrite coefZ coefXn eqxx mulr1.
    have -> : c *: 'X^n.+1 - ((c / d) *: 'X^n) * (d *: b) = (- c) *: 'X^n.
    { rewrite -scalerAr -scalerAl scalerA mulrC divfK // /b mulrDr mulr1 -exprSr scalerDr opprD addrA subrr add0r scaleNr. by []. }
    rewrite IH ?oppr_eq0 //. by rewrite subSS exprSr -mulrA mulN1r.
  Qed.
  Lemma mon_rem (c : F) n : c != 0 -> (19 <= n)%N -> poly_remainder (c *: 'X^n) (d *: b) = (- c) *: 'X^(n - 19).
  Proof.
    have ed : exponent (d *: b) = 1%N by rewrite /exponent size_scale // lin_size.
    move=> c0 le. have -> : forall a, poly_remainder a (d *: b) = (qr_loop rounds (d *: b) (exponent (d *: b)) (d *: b)`_(exponent (d *: b)) 0 a).2.
    { move=> a. apply: rem_unfold. by rewrite ed. }
    rewrite ed coefZ lin_lead mulr1 mon_round //. by rewrite -signr_odd expr1 mulN1r.
  Qed.
  (* dividing by a power of x of higher degree leaves everything *)
  Lemma rem_big (c : F) n : c != 0 -> (1 < n)%N -> poly_remainder (d *: b) (c *: 'X^n) = d *: b.
  Proof.
    move=> c0 le. have en : exponent (c *: 'X^n) = n by rewrite /exponent mon_size.
    have ed : exponent (d *: b) = 1%N by rewrite /exponent size_scale // lin_size.
    rewrite rem_unfold ?en; last exact: ltnW. by rewrite qr_loop_stop // ed -ltnNge.
  Qed.
End linear.

Theorem C73_refuted : exists a b : {poly rat}, b != 0 /\ ~~ (size (poly_remainder a b) < size b)%N /\
  poly_remainder a b <> a %% b.
Proof.
  exists (1 *: 'X^20), (1 *: ('X + 1)). have c0 : (1 : rat) != 0 by rewrite oner_neq0.
  have c0' : (-1 : rat) != 0 by rewrite oppr_eq0.
  have l20 : (19 <= 20)%N by []. rewrite (mon_rem c0 c0 l20) scale1r (mon_size _ c0') lin_size lin_ne0.
  split; first by []. split; first by [].
  move=> E. have := ltn_modp (1 *: 'X^20 : {poly rat}) ('X + 1). by rewrite -E (mon_size _ c0') lin_size lin_ne0.
Qed.
Print Assumptions C73_refuted.

(* ---------------- C74 ---------------- *)
(* PolynomialGCD[a, b] is a greatest common divisor: the polynomials dividing
   it are exactly the common divisors.  Missing (see C74_gcd_refuted): degrees
   for which one of the two loops stops after 19 rounds *)
Theorem C74_gcd_partial (F : fieldType) (a b : {poly F}) : [char F] =i pred0 ->
  (1 < size a)%N -> (size b <= 19)%N -> (size a <= size b + 18)%N ->
  forall p, (p %| poly_gcd a b) = (p %| a) && (p %| b).
Proof.
  move=> ch sa sb sab p. rewrite -dvdp_gcd. apply: eqp_dvdr. apply: poly_gcd_ok => //.
  - rewrite /exponent. move: sa. by case: (size a) => [|[]].
  - apply: gcd_loop_ends => //. rewrite /exponent. move: sab. case: (size b) => [|m]; case: (size a) => [|n] //=. exact: ltnW.
Qed.
Print Assumptions C74_gcd_partial.

(* without bounds: whenever the loop runs to its end and no division was cut
   short, the answer is a greatest common divisor *)
Theorem C74_gcd_when_finished_partial (F : fieldType) (a b : {poly F}) : [char F] =i pred0 ->
  (1 < size a)%N -> (gcd_loop rounds a b 1).2 ->
  forall p, (p %| poly_gcd a b) = (p %| a) && (p %| b).
Proof.
  move=> ch sa e p. rewrite -dvdp_gcd. apply: eqp_dvdr. apply: poly_gcd_ok => //.
  rewrite /exponent. move: sa. by case: (size a) => [|[]].
Qed.
Print Assumptions C74_gcd_when_finished_partial.

Section squarefree.
  Variable F : fieldType.
  Hypothesis char0 : [char F] =i pred0.
  Implicit Types (f p g : {poly F}).
  Lemma deriv_size f : (1 < size f)%N -> size f^`() = (size f).-1.
  Proof.
    move=> sf. apply/eqP. rewrite eqn_leq. apply/andP; split.
    - rewrite -ltnS (ltn_predK sf). apply: lt_size_deriv. by rewrite -size_poly_gt0 (ltn_trans _ sf).
    - rewrite leqNgt. apply/negP => lt. have H : f^`()`_(size f).-2 = 0.
      { apply: nth_default. move: lt sf. by case: (size f) => [|[|n]]. }
      move: H. rewrite coef_deriv. have -> : (size f).-2.+1 = (size f).-1 by move: sf; case: (size f) => [|[|n]].
      rewrite -/(lead_coef f) => /eqP. rewrite -mulr_natr mulf_eq0 lead_coef_eq0. rewrite -size_poly_eq0.
      rewrite (negbTE (nat_ne0 char0 _)); first by move: sf; case: (size f) => [|[|n]]. by move: sf; case: (size f) => [|[|n]].
  Qed.
  Lemma deriv_coprime f : (1 < size f)%N ->
    (gcdp f f^`() %= 1 <-> forall p, (1 < size p)%N -> ~~ (p ^+ 2 %| f)).
  Proof.
    move=> sf. split.
    - move=> co p sp. apply/negP => /dvdpP [q E]. have : p %| gcdp f f^`().
      { rewrite dvdp_gcd. apply/andP; split; first by rewrite E dvdp_mull // expr2 dvdp_mulr.
        rewrite E expr2 !derivM dvdp_add //; first by rewrite dvdp_mull // dvdp_mulr.
        apply: dvdp_mull; apply: dvdp_add; [exact: dvdp_mull|exact: dvdp_mulr]. }
      rewrite (eqp_dvdr _ co) dvdp1 => /eqP s1. by rewrite s1 in sp.
    - move=> sq. have N : forall n p, (size p <= n)%N -> (1 < size p)%N -> p %| gcdp f f^`() -> False.
      { elim=> [|n IH] p le sp dv; first by move: le sp; case: (size p).
        move: (dv). rewrite dvdp_gcd => /andP [df df'].
        have p0 : p != 0 by rewrite -size_poly_gt0 (ltn_trans _ sp).
        have sd := deriv_size sp.
        have co : coprimep p p^`().
        { rewrite /coprimep. have g0 : gcdp p p^`() != 0 by rewrite gcdp_eq0 negb_and p0.
          case: (ltnP 1 (size (gcdp p p^`()))) => [big|small]; last first.
          - by rewrite eqn_leq small size_poly_gt0.
          - case: (IH (gcdp p p^`()) _ big).
            + apply: leq_trans (leq_gcdpr _ _) _; first by rewrite -size_poly_gt0 sd; move: sp; case: (size p) => [|[]].
              rewrite sd. move: le. by case: (size p).
            + apply: dvdp_trans dv. exact: dvdp_gcdl. }
        case/dvdpP: df => q E. move: df'. rewrite E derivM dvdp_addr; last by rewrite dvdp_mull.
        rewrite Gauss_dvdpl // => dq. move: (sq p sp). by rewrite E expr2 dvdp_mul. }
      have g0 : gcdp f f^`() != 0 by rewrite gcdp_eq0 negb_and -size_poly_gt0 (ltn_trans _ sf).
      rewrite -size_poly_eq1. case: (ltnP 1 (size (gcdp f f^`()))) => [big|small].
      + by case: (N _ _ (leqnn _) big (dvdpp _)).
      + by rewrite eqn_leq small size_poly_gt0.
  Qed.
End squarefree.

Lemma finish_1 (F : fieldType) (g : {poly F}) : finish g %= 1 -> finish g = 1.
Proof. rewrite -size_poly_eq1 /finish. case: ifP => // ne /eqP e. by rewrite /exponent e in ne. Qed.

Lemma deriv_gcd_ends (F : fieldType) (f : {poly F}) : [char F] =i pred0 -> (1 < size f)%N -> (size f <= 19)%N ->
  (gcd_loop rounds f f^`() 1).2.
Proof.
  move=> ch sf s19. have sd := deriv_size ch sf. apply: gcd_loop_ends.
  - rewrite sd. apply: leq_trans (leq_pred _) _. exact: s19.
  - rewrite /exponent sd. move: sf. case: (size f) => [|[|n]] //= _. by rewrite addnS ltnS leq_addr.
  - rewrite sd. by apply: leq_trans (leq_pred _) _.
Qed.
Lemma deriv_gcd (F : fieldType) (f : {poly F}) : [char F] =i pred0 -> (1 < size f)%N -> (size f <= 19)%N ->
  poly_gcd f f^`() %= gcdp f f^`().
Proof.
  move=> ch sf s19. apply: (poly_gcd_ok ch); last exact: deriv_gcd_ends.
  rewrite /exponent. by move: (size f) sf => [|[]].
Qed.
Lemma poly_gcd_1 (F : fieldType) (u v : {poly F}) : poly_gcd u v %= 1 -> poly_gcd u v = 1.
Proof. rewrite /poly_gcd. by move: (gcd_loop _ _ _ _).1 => g /finish_1. Qed.

(* SquareFreeQ[f] is True exactly when no square of a non-constant polynomial
   divides f.  Missing: degrees above 18 *)
Theorem C74_squarefree_partial (F : fieldType) (f : {poly F}) : [char F] =i pred0 ->
  (1 < size f <= 19)%N ->
  squarefree_q f <-> (forall p : {poly F}, (1 < size p)%N -> ~~ (p ^+ 2 %| f)).
Proof.
  move=> ch /andP [sf s19]. have H := deriv_gcd ch sf s19.
  have H1 := @poly_gcd_1 F f f^`(). rewrite /squarefree_q. move: H H1. move: (poly_gcd f f^`()) => g H H1.
  apply: (iff_trans _ (deriv_coprime ch sf)). split.
  - move/eqP => E. by rewrite eqp_sym -E.
  - move=> G. by rewrite (H1 (eqp_trans H G)).
Qed.
Print Assumptions C74_squarefree_partial.

(* x^2+x = x (x+1) meets the hypotheses, with a common divisor x *)
Example C74_nonvacuous : let a := 'X * ('X + 1) : {poly rat} in let b := 'X : {poly rat} in
  [/\ (1 < size a)%N, (size b <= 19)%N, (size a <= size b + 18)%N & 'X %| poly_gcd a b].
Proof.
  move=> a b. have sa : size a = 3%N.
  { rewrite /a size_mul ?polyX_eq0 ?lin_ne0 // size_polyX lin_size. by []. }
  have sb : size b = 2%N by rewrite size_polyX.
  split; rewrite ?sa ?sb //. rewrite C74_gcd_partial ?sa ?sb //; last exact: Num.Theory.char_num.
  by rewrite /a dvdp_mulr // dvdpp.
Qed.
Example C74_squarefree_nonvacuous : squarefree_q ('X : {poly rat}) /\ ~ squarefree_q ('X^2 : {poly rat}).
Proof.
  have ch := Num.Theory.char_num [numDomainType of rat]. split.
  - apply/(C74_squarefree_partial ch); first by rewrite size_polyX. move=> p sp. apply/negP => dv.
    have p0 : p != 0 by rewrite -size_poly_gt0 (ltn_trans _ sp).
    have := dvdp_leq (negbT (polyX_eq0 _)) dv. rewrite size_polyX expr2 size_mul //. move: sp. case: (size p) => [|[|n]] // _.
    by rewrite !addSn !addnS.
  - move=> /(C74_squarefree_partial ch) H. have := H _ 'X. rewrite dvdpp size_polyX size_polyXn => H'. by have := H' erefl erefl.
Qed.

(* the refutation: PolynomialGCD[x^400, x+1] answers (a multiple of) x+1,
   although the two have no common factor *)
Section linear_gcd.
  Variable F : fieldType.
  Hypothesis char0 : [char F] =i pred0.
  Let b : {poly F} := 'X + 1.
  Lemma gcd_loop_S k (u v : {poly F}) h : v != 0 -> gcd_loop k.+1 u v h =
    gcd_loop k v (((if odd (exponent u + exponent v).+1 then -1 else 1) * (exponent u)%:R * zpow h (exponent u) (exponent v))^-1 *: poly_remainder u v)
                 (h * zpow ((exponent v)%:R / h) (exponent u) (exponent v)).
  Proof. move=> /negbTE v0. by rewrite /= v0. Qed.
  Let z c n := c *: 'X^n : {poly F}.
  (* two rounds take 19 off the exponent *)
  Lemma two_rounds k c d h n : c != 0 -> d != 0 -> h != 0 -> (21 <= n)%N -> exists c' d' h', [/\ c' != 0, d' != 0, h' != 0 &
    gcd_loop k.+2 (z c n) (d *: b) h = gcd_loop k (z c' (n - 19)) (d' *: b) h'].
  Proof.
    move=> c0 d0 h0 le. have n0 : (0 < n)%N by apply: leq_trans le. have l19 : (19 <= n)%N by exact: leq_trans le.
    have ed : exponent (d *: b) = 1%N by rewrite /exponent size_scale // lin_size.
    have en c1 m : c1 != 0 -> exponent (z c1 m) = m by move=> c10; rewrite /exponent mon_size.
    have b0 : d *: b != 0 by rewrite scaler_eq0 negb_or d0 lin_ne0.
    have zn0 c1 m : c1 != 0 -> z c1 m != 0 by move=> c10; rewrite -size_poly_gt0 mon_size.
    have one : 1%:R != 0 :> F by rewrite oner_neq0.
    rewrite gcd_loop_S // mon_rem // -/(z _ _) ed en //.
    set be := (_ * _ * _). have be0 : be != 0 by exact: (beta_ne0 char0).
    set h1 := (h * _). have h10 : h1 != 0.
    { rewrite mulf_neq0 // zpow_ne0 // mulf_neq0 // invr_eq0. exact: h0. }
    have -> : be^-1 *: z (- c) (n - 19) = z (be^-1 * - c) (n - 19) by rewrite /z scalerA.
    have c20 : be^-1 * - c != 0 by rewrite mulf_neq0 ?invr_eq0 ?oppr_eq0.
    move: (be^-1 * - c) c20 => c2 c20. rewrite gcd_loop_S ?zn0 // rem_big //; last by rewrite ltn_subRL.
    rewrite en // ed. set be2 := (_ * _ * _). have be20 : be2 != 0 by exact: (beta_ne0 char0).
    set h2 := (h1 * _). have h20 : h2 != 0.
    { rewrite mulf_neq0 // zpow_ne0 // mulf_neq0 ?(nat_ne0 char0) ?invr_eq0 // subn_gt0. by apply: leq_trans le. }
    exists c2, (be2^-1 * d), h2. rewrite scalerA. split=> //. by rewrite mulf_neq0 ?invr_eq0.
  Qed.
  Lemma many_rounds k c d h n : c != 0 -> d != 0 -> h != 0 -> (19 * k + 21 <= n)%N -> exists d', d' != 0 /\
    gcd_loop (k.*2).+1 (z c n) (d *: b) h = (d' *: b, false).
  Proof.
    elim: k c d h n => [|k IH] c d h n c0 d0 h0 le.
    - exists d; split=> //. have b0 : d *: b != 0 by rewrite scaler_eq0 negb_or d0 lin_ne0.
      rewrite gcd_loop_S // mon_rem //; last by apply: leq_trans le.
      have -> : forall (u v : {poly F}) h, gcd_loop (0.*2) u v h = (u, v == 0) by []. congr (_, _). apply/negbTE. rewrite scaler_eq0 negb_or invr_eq0 (beta_ne0 char0) //.
      + by rewrite -size_poly_gt0 mon_size ?oppr_eq0.
      + have -> : exponent (c *: 'X^n) = n by rewrite /exponent mon_size. by apply: leq_trans le.
    - rewrite doubleS. have [|c' [d' [h' [c1 d1 h1 ->]]]] := @two_rounds (k.*2).+1 c d h n c0 d0 h0.
      + apply: leq_trans le. by rewrite leq_addl.
      + apply: IH => //. rewrite leq_subRL. { by rewrite addnA -mulnS. }
        apply: leq_trans le. by rewrite mulnS -addnA leq_addr.
  Qed.
  Lemma wrong_gcd n : (192 <= n)%N -> exists d, d != 0 /\ poly_gcd 'X^n b = d *: b.
  Proof.
    move=> le. have o : (1 : F) != 0 by rewrite oner_neq0. have [//|d [d0 E]] := @many_rounds 9 1 1 1 n o o o.
    exists d. split=> //. rewrite /poly_gcd. have -> : gcd_loop rounds 'X^n b 1 = (d *: b, false).
    { rewrite -E. by rewrite /z !scale1r. }
    by rewrite /finish /exponent size_scale // lin_size.
  Qed.
End linear_gcd.

Theorem C74_gcd_refuted : forall n, (192 <= n)%N ->
  coprimep ('X^n : {poly rat}) ('X + 1) /\ ('X + 1 : {poly rat}) %| poly_gcd ('X^n) ('X + 1) /\ ~~ (('X + 1 : {poly rat}) %| 'X^n).
Proof.
  move=> n le. have ch := Num.Theory.char_num [numDomainType of rat].
  have cop : coprimep ('X^n : {poly rat}) ('X + 1).
  { apply: coprimep_expl. rewrite coprimep_sym coprimepX. by rewrite /root hornerD hornerX hornerC add0r oner_neq0. }
  split=> //. have [d [d0 ->]] := wrong_gcd ch le. split.
  - by rewrite dvdpZr // dvdpp.
  - apply/negP => dv. move: cop. rewrite coprimep_sym => cop. have := coprimep_dvdl dv cop. by rewrite coprimepp lin_size.
Qed.
Print Assumptions C74_gcd_refuted.
