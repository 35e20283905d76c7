(* C123: random numbers stay in the interval asked for. *)
From Verif Require Import M_Syntax M_Float P_Float M_Order S_Num S_Sort M_Sort P_Sort M_Num M_Arith M_N S_N S_MReal T_N P_Num T_MReal M_Random.
From Coq Require Import QArith Qpower Qabs Qfield Lqa Lia String ZArith List.
Open Scope Q_scope.

(* ---- rounding respects order ---- *)
Lemma nearest_le f q y : nearest f q -> representable y -> q <= y -> exists x, flt_q f = Some x /\ x <= y.
Proof.
  intros [x [X [_ N]]] R L. exists x. split; [exact X|]. specialize (N y R).
  revert N. repeat apply Qabs_case; intros; lra.
Qed.
Lemma nearest_ge f q y : nearest f q -> representable y -> y <= q -> exists x, flt_q f = Some x /\ y <= x.
Proof.
  intros [x [X [_ N]]] R L. exists x. split; [exact X|]. specialize (N y R).
  revert N. repeat apply Qabs_case; intros; lra.
Qed.

Lemma pow_le_Z a b : (0 <= a)%Z -> (a <= b)%Z -> (2 ^ a <= 2 ^ b)%Z.
Proof. intros. apply Z.pow_le_mono_r; lia. Qed.

(* positive representable numbers have a full mantissa *)
Lemma full_mantissa d : representable d -> 0 < d ->
  exists m e, (2 ^ 52 <= m < 2 ^ 53)%Z /\ d == inject_Z m * (2 # 1) ^ e.
Proof.
  intros [m [e [B E]]] P.
  assert (M : (0 < m)%Z).
  { rewrite E in P. pose proof (p2_pos e). rewrite Zlt_Qlt. change (inject_Z 0) with 0. nra. }
  pose proof (Z.log2_spec m M) as L. pose proof (Z.log2_nonneg m) as L0.
  assert (L1 : (Z.log2 m <= 52)%Z). { apply Z.lt_succ_r. apply Z.log2_lt_pow2; [exact M|]. change (2 ^ Z.succ 52)%Z with (2 ^ 53)%Z. lia. }
  exists (m * 2 ^ (52 - Z.log2 m))%Z, (e - (52 - Z.log2 m))%Z. split.
  - assert (H1 : (2 ^ 52 = 2 ^ Z.log2 m * 2 ^ (52 - Z.log2 m))%Z) by (rewrite <- Z.pow_add_r by lia; f_equal; lia).
    assert (H2 : (2 ^ 53 = 2 ^ Z.succ (Z.log2 m) * 2 ^ (52 - Z.log2 m))%Z) by (rewrite <- Z.pow_add_r by lia; f_equal; lia).
    pose proof (pow2_pos (52 - Z.log2 m) ltac:(lia)). rewrite H1, H2. nia.
  - rewrite E, inject_Z_mult, <- Qmult_assoc. rewrite <- p2_z by lia. rewrite <- p2_plus.
    replace (52 - Z.log2 m + (e - (52 - Z.log2 m)))%Z with e by lia. reflexivity.
Qed.

Lemma qmono a b c d : 0 <= a -> a <= b -> 0 <= c -> c <= d -> a * c <= b * d.
Proof. intros. nra. Qed.
(* the next machine real below *)
Lemma below m e : (2 ^ 52 <= m < 2 ^ 53)%Z ->
  exists p, representable p /\ p < inject_Z m * (2 # 1) ^ e /\ (m = (2 ^ 52)%Z -> p == (1 - u) * (inject_Z m * (2 # 1) ^ e)) /\
    (forall y, representable y -> y < inject_Z m * (2 # 1) ^ e -> y <= p) /\
    (forall r, r <= 1 - u -> r * (inject_Z m * (2 # 1) ^ e) <= p \/
       r * (inject_Z m * (2 # 1) ^ e) - p < inject_Z m * (2 # 1) ^ e - r * (inject_Z m * (2 # 1) ^ e)).
Proof.
  intro B. assert (UE : u * inject_Z (2 ^ 53) == 1) by reflexivity. pose proof u_pos as U.
  pose proof (p2_pos e) as Pe.
  assert (E1 : (2 # 1) ^ (e - 1) * 2 == (2 # 1) ^ e).
  { change 2 with ((2 # 1) ^ 1) at 2. rewrite <- p2_plus. replace (e - 1 + 1)%Z with e by lia. reflexivity. }
  pose proof (p2_pos (e - 1)) as Pe1.
  assert (I53 : inject_Z (2 ^ 53) == 2 * inject_Z (2 ^ 52)) by reflexivity.
  (* representable numbers between 2^52 2^e and 2^53 2^e are multiples of 2^e *)
  assert (Grid : forall y k x, representable y -> (2 ^ 52 <= k)%Z -> x = (k)%Z -> inject_Z k * (2 # 1) ^ e < y -> inject_Z (k + 1) * (2 # 1) ^ e <= y).
  { intros y k _ [n [j [N Y]]] K _ L. rewrite Y in *.
    destruct (Z.le_gt_cases e j) as [J|J].
    - assert (EJ : (2 # 1) ^ j == inject_Z (2 ^ (j - e)) * (2 # 1) ^ e) by (symmetry; apply p2_shift; exact J).
      rewrite EJ in *. rewrite Qmult_assoc in *. rewrite <- inject_Z_mult in *.
      assert (k < n * 2 ^ (j - e))%Z.
      { rewrite Zlt_Qlt. apply (Qmult_lt_r _ _ _ Pe). exact L. }
      apply Qmult_le_compat_r; [|lra]. rewrite <- Zle_Qle. lia.
    - exfalso. assert (EJ : (2 # 1) ^ (e - 1) == inject_Z (2 ^ (e - 1 - j)) * (2 # 1) ^ j) by (symmetry; apply p2_shift; lia).
      pose proof (p2_pos j) as Pj. assert (1 <= inject_Z (2 ^ (e - 1 - j))).
      { change 1 with (inject_Z 1). rewrite <- Zle_Qle. pose proof (pow2_pos (e - 1 - j) ltac:(lia)). lia. }
      assert (inject_Z n <= inject_Z (2 ^ 53)) by (rewrite <- Zle_Qle; lia).
      assert (inject_Z (2 ^ 52) <= inject_Z k) by (rewrite <- Zle_Qle; exact K).
      assert (inject_Z (2 ^ 52) * 2 * (2 # 1) ^ (e - 1) <= inject_Z k * (2 # 1) ^ e).
      { setoid_replace (inject_Z (2 ^ 52) * 2 * (2 # 1) ^ (e - 1)) with (inject_Z (2 ^ 52) * (2 # 1) ^ e) by (rewrite <- E1; ring).
        apply Qmult_le_compat_r; [assumption|lra]. }
      rewrite I53 in *. set (a := inject_Z (2 ^ 52)) in *. assert (0 <= a) by (vm_compute; discriminate).
      assert (inject_Z n * (2 # 1) ^ j <= 2 * a * (2 # 1) ^ j) by (apply Qmult_le_compat_r; lra).
      assert ((2 # 1) ^ j <= (2 # 1) ^ (e - 1)) by (apply p2_le; lia).
      assert (2 * a * (2 # 1) ^ j <= 2 * a * (2 # 1) ^ (e - 1)) by (apply qmono; lra). lra. }
  destruct (Z.eq_dec m (2 ^ 52)) as [->|NE].
  - (* a power of two: half the spacing *)
    exists (inject_Z (2 ^ 53 - 1) * (2 # 1) ^ (e - 1)).
    assert (EP : inject_Z (2 ^ 53 - 1) * (2 # 1) ^ (e - 1) == inject_Z (2 ^ 52) * (2 # 1) ^ e - (2 # 1) ^ (e - 1)).
    { rewrite <- E1. change (inject_Z (2 ^ 53 - 1)) with (inject_Z (2 ^ 53) - 1). rewrite I53. ring. }
    assert (UD : u * (inject_Z (2 ^ 52) * (2 # 1) ^ e) == (2 # 1) ^ (e - 1)).
    { rewrite <- E1. setoid_replace (u * (inject_Z (2 ^ 52) * ((2 # 1) ^ (e - 1) * 2))) with (u * (2 * inject_Z (2 ^ 52)) * (2 # 1) ^ (e - 1)) by ring.
      rewrite <- I53, UE. ring. }
    split; [exists (2 ^ 53 - 1)%Z, (e - 1)%Z; split; [reflexivity|reflexivity]|]. split; [rewrite EP; lra|].
    split; [intros _; rewrite EP; set (d := inject_Z (2 ^ 52) * (2 # 1) ^ e) in *; lra|]. split.
    + intros y [n [j [N Y]]] L. rewrite Y in *. destruct (Z.le_gt_cases (e - 1) j) as [J|J].
      * assert (EJ : (2 # 1) ^ j == inject_Z (2 ^ (j - (e - 1))) * (2 # 1) ^ (e - 1)) by (symmetry; apply p2_shift; exact J).
        rewrite EJ in *. rewrite <- E1 in L. rewrite Qmult_assoc in *. rewrite <- inject_Z_mult in *.
        assert (n * 2 ^ (j - (e - 1)) < 2 ^ 53)%Z.
        { rewrite Zlt_Qlt. apply (Qmult_lt_r _ _ _ Pe1). rewrite I53. lra. }
        apply Qmult_le_compat_r; [|lra]. rewrite <- Zle_Qle. lia.
      * assert (EJ : (2 # 1) ^ (e - 1) == inject_Z (2 ^ (e - 1 - j)) * (2 # 1) ^ j) by (symmetry; apply p2_shift; lia).
        pose proof (p2_pos j) as Pj. assert (1 <= inject_Z (2 ^ (e - 1 - j))).
        { change 1 with (inject_Z 1). rewrite <- Zle_Qle. pose proof (pow2_pos (e - 1 - j) ltac:(lia)). lia. }
        assert (inject_Z n <= inject_Z (2 ^ 53 - 1)) by (rewrite <- Zle_Qle; lia).
        set (a := inject_Z (2 ^ 53 - 1)) in *. assert (0 <= a) by (vm_compute; discriminate).
        assert (inject_Z n * (2 # 1) ^ j <= a * (2 # 1) ^ j) by (apply Qmult_le_compat_r; lra).
        assert ((2 # 1) ^ j <= (2 # 1) ^ (e - 1)) by (apply p2_le; lia).
        assert (a * (2 # 1) ^ j <= a * (2 # 1) ^ (e - 1)) by (apply qmono; lra). lra.
    + intros r R. left. rewrite EP.
      assert (0 < inject_Z (2 ^ 52) * (2 # 1) ^ e) by (assert (0 < inject_Z (2 ^ 52)) by reflexivity; nra).
      set (d := inject_Z (2 ^ 52) * (2 # 1) ^ e) in *. nra.
  - exists (inject_Z (m - 1) * (2 # 1) ^ e).
    assert (EP : inject_Z (m - 1) * (2 # 1) ^ e == inject_Z m * (2 # 1) ^ e - (2 # 1) ^ e).
    { unfold Z.sub. rewrite inject_Z_plus. change (inject_Z (- (1))) with (- (1)). ring. }
    split; [exists (m - 1)%Z, e; split; [lia|reflexivity]|]. split; [rewrite EP; lra|]. split; [intro K; contradiction|]. split.
    + intros y Y L. apply Qnot_lt_le. intro K. pose proof (Grid y (m - 1)%Z _ Y ltac:(lia) eq_refl K) as H.
      replace (m - 1 + 1)%Z with m in H by lia. lra.
    + intros r R. right. rewrite EP.
      assert (inject_Z (2 ^ 52) + 1 <= inject_Z m).
      { change 1 with (inject_Z 1). rewrite <- inject_Z_plus, <- Zle_Qle. lia. }
      assert (UU : u * (2 * inject_Z (2 ^ 52)) == 1) by (rewrite <- I53; exact UE).
      assert (H1 : 1 < u * (2 * inject_Z m)) by nra.
      assert (H2 : 2 * (u * (inject_Z m * (2 # 1) ^ e)) > (2 # 1) ^ e) by nra.
      assert (0 < inject_Z m * (2 # 1) ^ e) by (assert (0 < inject_Z (2 ^ 52)) by reflexivity; nra).
      set (d := inject_Z m * (2 # 1) ^ e) in *.
      assert (r * d <= (1 - u) * d) by nra. lra.
Qed.

(* a machine real below 1 is at most 1 - 2^-53 *)
Lemma below_one r : representable r -> r < 1 -> r <= 1 - u.
Proof.
  intros R L. destruct (below (2 ^ 52) (- 52)) as [p [_ [P1 [P0 [P2 _]]]]]; [split; [lia|reflexivity]|].
  assert (E : inject_Z (2 ^ 52) * (2 # 1) ^ (-52) == 1) by reflexivity.
  specialize (P2 r R ltac:(rewrite E; exact L)). rewrite (P0 eq_refl), E in P2. lra.
Qed.

(* a value drawn by RandomReal[]: a machine real in [0, 1) *)
Definition unit_real (r : flt) : Prop := exists x, flt_q r = Some x /\ representable x /\ 0 <= x < 1.
(* a number a machine real holds exactly: a finite machine real or a small integer *)
Definition machine (e : ex) (q : Q) : Prop :=
  (exists f, e = EFlt f /\ flt_q f = Some q /\ representable q) \/
  (exists z, e = EInt z /\ q = inject_Z z /\ (Z.abs z <= 2 ^ 53)%Z).

Lemma machine_representable e q : machine e q -> representable q.
Proof.
  intros [[f [_ [_ R]]]|[z [_ [-> B]]]]; [exact R|]. destruct (Z.eq_dec (Z.abs z) (2 ^ 53)) as [E|E].
  - exists (Z.sgn z * 2 ^ 52)%Z, 1%Z. split; [lia|]. change ((2 # 1) ^ 1) with (inject_Z 2). rewrite <- inject_Z_mult.
    rewrite inject_Z_injective. lia.
  - apply whole_representable. lia.
Qed.

Lemma int_exact z : (Z.abs z <= 2 ^ 53)%Z -> exists y, flt_q (int_to_flt z) = Some y /\ y == inject_Z z.
Proof.
  intro B. destruct (fround_rounded z 1 (inject_Z z) ltac:(lia)) as [N _]; [change (inject_Z 1) with 1; field|].
  apply nearest_exact; [exact N|]. apply (machine_representable (EInt z)). right. exists z. auto.
Qed.

(* one operation on two numbers, at least one a machine real *)
Lemma op_machine fn f x e q : flt_q f = Some x -> machine e q ->
  (exists h, compute_numeric_part fn [EFlt f; e] = (Some (EFlt h), []) /\ nearest h (opq fn x q)) /\
  (exists h, compute_numeric_part fn [e; EFlt f] = (Some (EFlt h), []) /\ nearest h (opq fn x q)).
Proof.
  intros F M. destruct M as [[g [-> [Gq _]]]|[z [-> [-> B]]]].
  - split; (eexists; split; [reflexivity|]).
    + apply (flt_flt_rounded fn f g x q F Gq).
    + apply (nearest_ext _ (opq fn q x)); [apply opq_comm|]. apply (flt_flt_rounded fn g f q x Gq F).
  - destruct (int_exact z B) as [y [Y E]].
    split; (eexists; split; [reflexivity|]); cbn [aF aI aR real_part];
      (apply (nearest_ext _ (opq fn x y)); [rewrite E; reflexivity|]; apply (flt_flt_rounded fn f (int_to_flt z) x y F Y)).
Qed.

Lemma sort2 a b : insertion_sort [a; b] = [a; b] \/ insertion_sort [a; b] = [b; a].
Proof. unfold insertion_sort. cbn [fold_left sift rev app]. destruct (less b a); [right|left]; reflexivity. Qed.

Lemma plus_of_machine f x e q : flt_q f = Some x -> machine e q -> exists h, plus_of [EFlt f; e] = EFlt h /\ nearest h (x + q).
Proof.
  intros F M. destruct (op_machine FoldAdd f x e q F M) as [[h [E N]] [h' [E' N']]]. unfold plus_of.
  destruct (sort2 (EFlt f) e) as [-> | ->]; eexists; unfold plus_eval; [rewrite E|rewrite E']; split; try reflexivity; assumption.
Qed.
Lemma times_of_machine f x e q : flt_q f = Some x -> machine e q -> exists h, times_of [EFlt f; e] = EFlt h /\ nearest h (x * q).
Proof.
  intros F M. destruct (op_machine FoldMul f x e q F M) as [[h [E N]] [h' [E' N']]]. unfold times_of.
  destruct (sort2 (EFlt f) e) as [-> | ->]; eexists; unfold times_eval; [rewrite E|rewrite E']; split; try reflexivity; assumption.
Qed.

(* ---- RandomReal[max] ---- *)
(* rounding the product with a number below 1 stays below *)
Lemma scaled_below r x f d : flt_q r = Some x -> representable x -> 0 <= x < 1 -> representable d -> 0 < d ->
  nearest f (x * d) -> exists y p, flt_q f = Some y /\ 0 <= y <= p /\ p < d /\ representable p /\
    (forall z, representable z -> z < d -> z <= p).
Proof.
  intros X R [R0 R1] D P N. destruct (full_mantissa d D P) as [m [e [B E]]].
  destruct (below m e B) as [p [Rp [Lp [_ [Gp Hp]]]]]. pose proof (below_one x R R1) as U1.
  destruct (nearest_ge f (x * d) 0 N) as [y [Y Y0]]; [exists 0%Z, 0%Z; split; reflexivity|nra|].
  exists y, p. split; [exact Y|]. split; [|split; [rewrite E; exact Lp|split; [exact Rp|intros z Z L; apply Gp; [exact Z|rewrite <- E; exact L]]]].
  split; [exact Y0|]. specialize (Hp x U1). rewrite <- E in Hp, Lp.
  destruct Hp as [Hp|Hp].
  - destruct (nearest_le f (x * d) p N Rp Hp) as [y' [Y' L]]. rewrite Y in Y'. injection Y' as <-. exact L.
  - apply Qnot_lt_le. intro K. destruct N as [y' [Y' [Ry N]]]. rewrite Y in Y'. injection Y' as <-.
    assert (d <= y). { apply Qnot_lt_le. intro L. rewrite E in L. pose proof (Gp y Ry L). lra. }
    specialize (N p Rp). revert N. repeat apply Qabs_case; intros; nra.
Qed.

(* RandomReal[max], max > 0, is a machine real x with 0 <= x < max *)
Theorem C123_upto : forall r mx d, unit_real r -> machine mx d -> 0 < d ->
  exists f y, random_upto r mx = EFlt f /\ flt_q f = Some y /\ 0 <= y < d.
Proof.
  intros r mx d [x [X [R B]]] M P. destruct (times_of_machine r x mx d X M) as [f [E N]].
  destruct (scaled_below r x f d X R B (machine_representable _ _ M) P N) as [y [p [Y [L [Lp _]]]]].
  exists f, y. split; [exact E|]. split; [exact Y|]. lra.
Qed.
Print Assumptions C123_upto.

(* ---- RandomReal[{min, max}] ---- *)
Lemma qopp_machine e q : machine e q -> exists v, times_of [EInt (-1); e] = v /\ exists q', machine v q' /\ q' == - q /\
  ((exists z, e = EInt z) -> exists z, e = EInt z /\ v = EInt (- z)) /\ ((exists f, e = EFlt f) -> exists f, v = EFlt f).
Proof.
  intro M. eexists. split; [reflexivity|]. destruct M as [[f [-> [F R]]]|[z [-> [-> B]]]].
  - destruct (times_of_machine f q (EInt (-1)) (inject_Z (-1)) F) as [h [E N]]; [right; exists (-1)%Z; split; [reflexivity|]; split; [reflexivity|lia]|].
    assert (E' : times_of [EInt (-1); EFlt f] = EFlt h).
    { revert E. unfold times_of. destruct (sort2 (EFlt f) (EInt (-1))) as [-> | ->], (sort2 (EInt (-1)) (EFlt f)) as [-> | ->]; intro E; exact E. }
    rewrite E'. apply (nearest_ext _ _ (- q)) in N; [|change (inject_Z (-1)) with (- (1)); ring].
    destruct (nearest_exact h (- q) N (representable_opp _ R)) as [y [Y V]].
    exists y. split; [left; exists h; split; [reflexivity|]; split; [exact Y|]|].
    { destruct N as [y' [Y' [R' _]]]. rewrite Y in Y'. injection Y' as <-. exact R'. }
    split; [exact V|]. split; [intros [z Z]; discriminate Z|]. intros _. exists h. reflexivity.
  - exists (inject_Z (- z)). assert (E : times_of [EInt (-1); EInt z] = EInt (- z)).
    { unfold times_of. destruct (sort2 (EInt (-1)) (EInt z)) as [-> | ->]; unfold times_eval;
        cbn [compute_numeric_part np acc_num acc_real acc0 aI aR aF aC int_op typed_real_part real_part].
      - replace (-1 * z)%Z with (- z)%Z by lia. destruct (- z)%Z; reflexivity.
      - replace (z * -1)%Z with (- z)%Z by lia. destruct (- z)%Z; reflexivity. }
    rewrite E. split; [right; exists (- z)%Z; split; [reflexivity|]; split; [reflexivity|lia]|].
    split; [rewrite inject_Z_opp; reflexivity|]. split; [|intros [f F]; discriminate F]. intros _. exists z. auto.
Qed.

Lemma times_of_int r x k : flt_q r = Some x -> exists h g d, times_of [EFlt r; EInt k] = EFlt h /\ nearest h (x * d) /\
  flt_q g = Some d /\ nearest g (inject_Z k).
Proof.
  intro X. destruct (fround_rounded k 1 (inject_Z k) ltac:(lia)) as [N _]; [change (inject_Z 1) with 1; field|].
  pose proof N as [d [D _]]. exists (fmul r (int_to_flt k)), (int_to_flt k), d.
  split; [|split; [apply (fmul_rounded r (int_to_flt k) x d X D)|split; [exact D|exact N]]].
  unfold times_of. destruct (sort2 (EFlt r) (EInt k)) as [-> | ->]; reflexivity.
Qed.

Lemma plus_ints a b : plus_of [EInt a; EInt b] = EInt (a + b).
Proof.
  unfold plus_of. destruct (sort2 (EInt a) (EInt b)) as [-> | ->]; [reflexivity|].
  rewrite (Z.add_comm a b). reflexivity.
Qed.
Lemma plus_of_swap f e : plus_of [e; EFlt f] = plus_of [EFlt f; e] \/
  (insertion_sort [e; EFlt f] = [e; EFlt f] /\ insertion_sort [EFlt f; e] = [EFlt f; e]) \/
  (insertion_sort [e; EFlt f] = [EFlt f; e] /\ insertion_sort [EFlt f; e] = [e; EFlt f]).
Proof.
  unfold plus_of. destruct (sort2 (EFlt f) e) as [-> | ->], (sort2 e (EFlt f)) as [-> | ->]; auto.
Qed.
Lemma plus_of_machine' f x e q : flt_q f = Some x -> machine e q -> exists h, plus_of [e; EFlt f] = EFlt h /\ nearest h (x + q).
Proof.
  intros F M. destruct (op_machine FoldAdd f x e q F M) as [[h [E N]] [h' [E' N']]]. unfold plus_of.
  destruct (sort2 e (EFlt f)) as [-> | ->]; eexists; unfold plus_eval; [rewrite E'|rewrite E]; split; try reflexivity; assumption.
Qed.

(* the factor max - min, rounded, and the product *)
Lemma spread r x mn mx a b : flt_q r = Some x -> machine mn a -> machine mx b ->
  exists h g d, times_of [EFlt r; plus_of [mx; times_of [EInt (-1); mn]]] = EFlt h /\ nearest h (x * d) /\
    flt_q g = Some d /\ nearest g (b - a).
Proof.
  intros X A B. destruct (qopp_machine mn a A) as [v [-> [a' [V [Va [VI VF]]]]]].
  assert (G0 : forall w g d, plus_of [mx; v] = EFlt g -> flt_q g = Some d -> nearest g (b - a) -> w = plus_of [mx; v] ->
    exists h g d, times_of [EFlt r; w] = EFlt h /\ nearest h (x * d) /\ flt_q g = Some d /\ nearest g (b - a)).
  { intros w g d E D N ->. rewrite E. pose proof N as [d0 [D0 [Rd _]]]. rewrite D in D0. injection D0 as <-.
    destruct (times_of_machine r x (EFlt g) d X) as [h [Eh Nh]]; [left; exists g; auto|].
    exists h, g, d. auto. }
  destruct B as [[f [-> [F R]]]|[z [-> [-> Bz]]]].
  - destruct (plus_of_machine f b v a' F V) as [g [E N]]. apply (nearest_ext _ _ (b - a)) in N; [|rewrite Va; ring].
    pose proof N as [d [D _]]. eapply G0; eauto.
  - destruct A as [[f [-> [F R]]]|[y [-> [-> By]]]].
    + destruct (VF (ex_intro _ f eq_refl)) as [g0 ->]. destruct V as [[g1 [E1 [Fg _]]]|[k [E1 _]]]; [injection E1 as <-|discriminate E1].
      destruct (plus_of_machine' g0 a' (EInt z) (inject_Z z) Fg) as [g [E N]]; [right; exists z; auto|].
      apply (nearest_ext _ _ (inject_Z z - a)) in N; [|rewrite Va; ring].
      pose proof N as [d [D _]]. eapply G0; eauto.
    + destruct (VI (ex_intro _ y eq_refl)) as [y' [E1 ->]]. injection E1 as <-. rewrite plus_ints.
      destruct (times_of_int r x (z + - y)%Z X) as [h [g [d [E [N [D Ng]]]]]]. exists h, g, d.
      split; [exact E|]. split; [exact N|]. split; [exact D|].
      apply (nearest_ext _ _ (inject_Z z - inject_Z y)) in Ng; [exact Ng|]. rewrite inject_Z_plus, inject_Z_opp. reflexivity.
Qed.

(* RandomReal[{min, max}], min <= max, is a machine real between them *)
Theorem C123_between : forall r mn mx a b, unit_real r -> machine mn a -> machine mx b -> a <= b ->
  exists f y, random_between r mn mx = EFlt f /\ flt_q f = Some y /\ a <= y <= b.
Proof.
  intros r mn mx a b [x [X [R B]]] A M L. unfold random_between.
  destruct (spread r x mn mx a b X A M) as [h [g [d [-> [Nh [D Ng]]]]]].
  assert (Rd : representable d). { destruct Ng as [d' [D' [R' _]]]. rewrite D in D'. injection D' as <-. exact R'. }
  assert (D0 : 0 <= d).
  { destruct (nearest_ge g (b - a) 0 Ng) as [d' [D' L']]; [exists 0%Z, 0%Z; split; reflexivity|lra|]. rewrite D in D'. injection D' as <-. exact L'. }
  assert (Y : exists y, flt_q h = Some y /\ 0 <= y <= b - a).
  { destruct (Qlt_le_dec 0 d) as [P|P].
    - destruct (scaled_below r x h d X R B Rd P Nh) as [y [p [Y [Ly [Lp [Rp _]]]]]]. exists y. split; [exact Y|].
      split; [lra|]. destruct (Qlt_le_dec (b - a) p) as [K|K]; [|lra]. exfalso.
      destruct Ng as [d' [D' [_ N]]]. rewrite D in D'. injection D' as <-. specialize (N p Rp).
      revert N. repeat apply Qabs_case; intros; lra.
    - destruct (nearest_exact h (x * d) Nh) as [y [Y E]].
      + exists 0%Z, 0%Z. split; [reflexivity|]. assert (d == 0) as -> by lra. ring.
      + exists y. split; [exact Y|]. rewrite E. assert (d == 0) as -> by lra. lra. }
  destruct Y as [y [Y Ly]]. destruct (plus_of_machine h y mn a Y A) as [f [-> N]].
  destruct (nearest_ge f (y + a) a N (machine_representable _ _ A)) as [w [W Lw]]; [lra|].
  destruct (nearest_le f (y + a) b N (machine_representable _ _ M)) as [w' [W' Lw']]; [lra|].
  rewrite W in W'. injection W' as <-. exists f, w. auto.
Qed.
Print Assumptions C123_between.

(* ... and may be max itself *)
Theorem C123_half_open_refuted : exists r mn mx a b f y, unit_real r /\ machine mn a /\ machine mx b /\ a < b /\
  random_between r mn mx = EFlt f /\ flt_q f = Some y /\ y == b.
Proof.
  exists (fround (2 ^ 53 - 1) (2 ^ 53)), (EInt 1), (EInt 2), (inject_Z 1), (inject_Z 2).
  eexists _, _. split; [|split; [|split; [|split; [reflexivity|split; [vm_compute; reflexivity|split; [reflexivity|vm_compute; reflexivity]]]]]].
  - eexists. split; [vm_compute; reflexivity|]. split; [|vm_compute; split; [discriminate|reflexivity]].
    exists (2 ^ 53 - 1)%Z, (-53)%Z. split; [reflexivity|vm_compute; reflexivity].
  - right. exists 1%Z. split; [reflexivity|]. split; [reflexivity|lia].
  - right. exists 2%Z. split; [reflexivity|]. split; [reflexivity|lia].
Qed.
Print Assumptions C123_half_open_refuted.

(* ---- seeding ---- *)
(* n draws in a row *)
Fixpoint draws (g : generator) (s : gstate g) (n : nat) : list (option ex) :=
  match n with O => [] | Datatypes.S k => fst (random_real g s []) :: draws g (snd (random_real g s [])) k end.

(* the first n values of the generator's stream from state s *)
Fixpoint stream (g : generator) (s : gstate g) (n : nat) : list (option ex) :=
  match n with O => [] | Datatypes.S k => Some (EFlt (fst (gnext g s))) :: stream g (snd (gnext g s)) k end.
(* Successive calls of RandomReal[] return the successive values of the
   generator: no value is returned twice and none is skipped. *)
Theorem C123_draws : forall g n s, draws g s n = stream g s n.
Proof.
  intros g n. induction n as [|n IH]; intro s; [reflexivity|]. cbn [draws stream]. unfold random_real at 1 2.
  destruct (gnext g s) as [r s'] eqn:E. cbn [fst snd]. rewrite IH. reflexivity.
Qed.
Print Assumptions C123_draws.

(* After SeedRandom[n] the numbers drawn do not depend on what happened before ... *)
Theorem C123_reproducible : forall g s s' z n,
  draws g (snd (seed_random g s [EInt z])) n = draws g (snd (seed_random g s' [EInt z])) n /\
  fst (seed_random g s [EInt z]) = Some (sys "Null").
Proof. intros. split; reflexivity. Qed.
Print Assumptions C123_reproducible.

(* ... but only the low 64 bits of the seed count, whatever the generator *)
Theorem C123_seeds_refuted : exists z z', z <> z' /\ forall g s n,
  draws g (snd (seed_random g s [EInt z])) n = draws g (snd (seed_random g s [EInt z'])) n.
Proof. exists 3%Z, (3 + 2 ^ 64)%Z. split; [discriminate|]. intros g s n. reflexivity. Qed.
Print Assumptions C123_seeds_refuted.

(* anything but one integer leaves SeedRandom, the generator and RandomReal's
   builtin alone *)
Theorem C123_other_arguments : forall g s args,
  ((forall z, args <> [EInt z]) -> seed_random g s args = (None, s)) /\ (args <> [] -> random_real g s args = (None, s)).
Proof.
  intros g s args. split.
  - intro H. destruct args as [|[| |z| | | |] [|]]; try reflexivity. exfalso. exact (H z eq_refl).
  - intro H. destruct args; [contradiction|reflexivity].
Qed.
Print Assumptions C123_other_arguments.

Example C123_ex : unit_real (fround 1 3) /\ machine (EInt (-5)) (inject_Z (-5)) /\
  exists f, random_between (fround 1 3) (EInt (-5)) (EFlt (fround 7 2)) = EFlt f.
Proof.
  split; [|split].
  - eexists. split; [vm_compute; reflexivity|]. split; [exists 6004799503160661%Z, (-54)%Z; split; [reflexivity|vm_compute; reflexivity]|vm_compute; split; [discriminate|reflexivity]].
  - right. exists (-5)%Z. split; [reflexivity|]. split; [reflexivity|lia].
  - eexists. vm_compute. reflexivity.
Qed.
