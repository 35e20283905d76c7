From Verif Require Import M_Syntax M_Float P_Float S_Num M_N S_N.
From Coq Require Import QArith Qpower Qabs Qfield Lqa Lia String ZArith List.
Open Scope Q_scope.

(* powers of two *)
Notation p2 := (fun e : Z => (2 # 1) ^ e).
Lemma p2_pos e : 0 < (2 # 1) ^ e. Proof. apply Qpower_0_lt. reflexivity. Qed.
Lemma p2_nz e : ~ (2 # 1) ^ e == 0. Proof. intro H. pose proof (p2_pos e). lra. Qed.
Lemma p2_plus a b : (2 # 1) ^ (a + b) == (2 # 1) ^ a * (2 # 1) ^ b.
Proof. apply Qpower_plus. intro H; discriminate H. Qed.
Lemma p2_z n : (0 <= n)%Z -> (2 # 1) ^ n == inject_Z (2 ^ n).
Proof.
  intro H. rewrite <- (Z2Nat.id n H). induction (Z.to_nat n) as [|k IH]; [reflexivity|].
  rewrite Nat2Z.inj_succ. unfold Z.succ. rewrite p2_plus, IH. rewrite Z.pow_add_r, inject_Z_mult by lia. reflexivity.
Qed.
Lemma p2_split e : (2 # 1) ^ e * inject_Z (2 ^ Z.max (- e) 0) == inject_Z (2 ^ Z.max e 0).
Proof.
  rewrite <- !p2_z by lia. rewrite <- p2_plus. replace (e + Z.max (- e) 0)%Z with (Z.max e 0) by lia. reflexivity.
Qed.
Lemma p2_le a b : (a <= b)%Z -> (2 # 1) ^ a <= (2 # 1) ^ b.
Proof.
  intro H. replace b with (a + (b - a))%Z by lia. rewrite p2_plus, (p2_z (b - a)) by lia.
  pose proof (p2_pos a). assert (1 <= inject_Z (2 ^ (b - a))).
  { change 1 with (inject_Z 1). rewrite <- Zle_Qle. pose proof (pow2_pos (b - a)); lia. }
  nra.
Qed.

Lemma rne_half a b : (0 < b)%Z -> (2 * Z.abs (rne a b * b - a) <= b)%Z.
Proof.
  intro H. unfold rne. pose proof (Z.div_mod a b ltac:(lia)) as D. pose proof (Z.mod_pos_bound a b H) as M.
  set (q := (a / b)%Z) in *. set (r := (a mod b)%Z) in *.
  destruct (Z.compare_spec (2 * r) b) as [C|C|C]; [destruct (Z.even q)| |]; lia.
Qed.

(* an integer m within 1/2 of x is at least as near as any other integer *)
Lemma half_nearest (m k : Z) (x : Q) : 2 * Qabs (inject_Z m - x) <= 1 -> Qabs (inject_Z m - x) <= Qabs (inject_Z k - x).
Proof.
  intro H. destruct (Z.lt_trichotomy k m) as [L|[->|L]]; [|apply Qle_refl|].
  - assert (E : inject_Z k <= inject_Z m - 1).
    { change 1 with (inject_Z 1). unfold Qminus. rewrite <- inject_Z_opp, <- inject_Z_plus, <- Zle_Qle. lia. }
    revert H. generalize dependent (inject_Z m). generalize (inject_Z k). intros u v E.
    apply (Qabs_case (v - x)); apply (Qabs_case (u - x)); intros; lra.
  - assert (E : inject_Z m + 1 <= inject_Z k).
    { change 1 with (inject_Z 1). rewrite <- inject_Z_plus, <- Zle_Qle. lia. }
    revert H. generalize dependent (inject_Z m). generalize (inject_Z k). intros u v E.
    apply (Qabs_case (v - x)); apply (Qabs_case (u - x)); intros; lra.
Qed.

Lemma abs_scale u v c : 0 < c -> Qabs (u * c - v * c) == Qabs (u - v) * c.
Proof.
  intro H. rewrite <- Qmult_minus_distr_r || idtac.
  setoid_replace (u * c - v * c) with ((u - v) * c) by ring. rewrite Qabs_Qmult.
  rewrite (Qabs_pos c) by lra. reflexivity.
Qed.

Lemma inject_pow_pos k : (0 <= k)%Z -> 0 < inject_Z (2 ^ k).
Proof. intro H. change 0 with (inject_Z 0). rewrite <- Zlt_Qlt. apply pow2_pos. exact H. Qed.

(* the quotient, in units of 2^e *)
Lemma scaled a b e : (0 < b)%Z ->
  inject_Z a / inject_Z b == inject_Z (scale_num a e) / inject_Z (scale_den b e) * (2 # 1) ^ e.
Proof.
  intro H. unfold scale_num, scale_den. rewrite !inject_Z_mult.
  rewrite <- (p2_split e).
  assert (0 < inject_Z b) by (change 0 with (inject_Z 0); rewrite <- Zlt_Qlt; exact H).
  pose proof (p2_pos e). pose proof (inject_pow_pos (Z.max (- e) 0) ltac:(lia)).
  field. repeat split; lra.
Qed.

Lemma scale_low a b : (0 < a)%Z -> (0 < b)%Z ->
  (2 ^ 52 * scale_den b (flog2q a b - 52) <= scale_num a (flog2q a b - 52))%Z.
Proof.
  intros Ha Hb. set (e := (flog2q a b - 52)%Z).
  set (K := (Z.max (- flog2q a b) 0 + Z.max (- e) 0)%Z).
  destruct (flog2q_spec a b K Ha Hb ltac:(unfold K; lia)) as [L U].
  destruct (scale_max e K ltac:(unfold K; lia)) as [E1 [E2 E3]].
  unfold scale_den, scale_num.
  apply Z.mul_le_mono_pos_r with (2 ^ (K - Z.max (- e) 0))%Z; [assumption|].
  rewrite <- !Z.mul_assoc, <- E1, <- E2.
  replace (flog2q a b + K)%Z with (52 + (e + K))%Z in L by (unfold e; lia).
  rewrite pow2_split in L by (unfold K; lia). lia.
Qed.

Lemma fround_pos_near a b y : (0 < a)%Z -> (0 < b)%Z -> representable y ->
  Qabs (inject_Z (fst (fround_pos a b)) * (2 # 1) ^ snd (fround_pos a b) - inject_Z a / inject_Z b) <=
  Qabs (y - inject_Z a / inject_Z b).
Proof.
  intros Ha Hb [m' [e' [B Y]]]. rewrite Y. clear y Y.
  pose proof (scale_low a b Ha Hb) as R.
  unfold fround_pos in *. set (e := (flog2q a b - 52)%Z) in *. cbn [fst snd] in *.
  rewrite !(scaled a b e) by exact Hb.
  pose proof (rne_half (scale_num a e) (scale_den b e) (scale_den_pos b e Hb)) as N.
  set (m := rne (scale_num a e) (scale_den b e)) in *.
  set (x := inject_Z (scale_num a e) / inject_Z (scale_den b e)).
  assert (N' : 2 * Qabs (inject_Z m - x) <= 1).
  { unfold x. pose proof (scale_den_pos b e Hb) as P.
    assert (0 < inject_Z (scale_den b e)) as P' by (change 0 with (inject_Z 0); rewrite <- Zlt_Qlt; exact P).
    setoid_replace (inject_Z m - inject_Z (scale_num a e) / inject_Z (scale_den b e))
      with (inject_Z (m * scale_den b e - scale_num a e) * / inject_Z (scale_den b e)).
    2: { unfold Z.sub. rewrite inject_Z_plus, inject_Z_mult, inject_Z_opp. field. lra. }
    rewrite Qabs_Qmult. rewrite (Qabs_pos (/ _)) by (apply Qlt_le_weak, Qinv_lt_0_compat; exact P').
    apply Qle_trans with (inject_Z (scale_den b e) * / inject_Z (scale_den b e)).
    2: { rewrite Qmult_inv_r by lra. lra. }
    rewrite Qmult_assoc. apply Qmult_le_compat_r; [|apply Qlt_le_weak, Qinv_lt_0_compat; exact P'].
    change 2 with (inject_Z 2). change (Qabs (inject_Z ?z)) with (inject_Z (Z.abs z)).
    rewrite <- inject_Z_mult, <- Zle_Qle. exact N. }
  rewrite abs_scale by apply p2_pos.
  destruct (Z.le_gt_cases e e') as [L|L].
  - (* a multiple of 2^e *)
    replace e' with ((e' - e) + e)%Z by lia. rewrite p2_plus, Qmult_assoc, (p2_z (e' - e)) by lia.
    rewrite <- inject_Z_mult. rewrite abs_scale by apply p2_pos.
    apply Qmult_le_compat_r; [|apply Qlt_le_weak, p2_pos]. apply half_nearest. exact N'.
  - (* below 2^52 units *)
    replace e' with ((e' - e) + e)%Z at 1 by lia. rewrite p2_plus, Qmult_assoc.
    rewrite abs_scale by apply p2_pos.
    apply Qmult_le_compat_r; [|apply Qlt_le_weak, p2_pos].
    apply Qle_trans with (Qabs (inject_Z (2 ^ 52) - x)); [apply half_nearest; exact N'|].
    assert (X : inject_Z (2 ^ 52) <= x).
    { unfold x. pose proof (scale_den_pos b e Hb) as P. apply Qle_shift_div_l.
      - change 0 with (inject_Z 0). rewrite <- Zlt_Qlt. exact P.
      - rewrite <- inject_Z_mult, <- Zle_Qle. exact R. }
    assert (Y : inject_Z m' * (2 # 1) ^ (e' - e) <= inject_Z (2 ^ 52) - (1 # 2)).
    { pose proof (p2_le (e' - e) (-1) ltac:(lia)) as P. pose proof (p2_pos (e' - e)) as P'.
      change ((2 # 1) ^ (-1)) with (1 # 2) in P.
      assert (M : inject_Z m' <= inject_Z (2 ^ 53 - 1)) by (rewrite <- Zle_Qle; lia).
      apply Qle_trans with (inject_Z (2 ^ 53 - 1) * (2 # 1) ^ (e' - e)); [apply Qmult_le_compat_r; lra|].
      apply Qle_trans with (inject_Z (2 ^ 53 - 1) * (1 # 2)).
      - rewrite !(Qmult_comm (inject_Z (2 ^ 53 - 1))). apply Qmult_le_compat_r; [exact P|]. vm_compute. discriminate.
      - vm_compute. discriminate. }
    revert X Y. generalize (inject_Z m' * (2 # 1) ^ (e' - e)) (inject_Z (2 ^ 52)). intros u v X Y.
    apply (Qabs_case (v - x)); apply (Qabs_case (u - x)); intros; lra.
Qed.

Lemma fround_pos_error a b : (0 < a)%Z -> (0 < b)%Z ->
  Qabs (inject_Z (fst (fround_pos a b)) * (2 # 1) ^ snd (fround_pos a b) - inject_Z a / inject_Z b) <=
  (2 # 1) ^ (-53) * (inject_Z a / inject_Z b).
Proof.
  intros Ha Hb. pose proof (scale_low a b Ha Hb) as R.
  unfold fround_pos. set (e := (flog2q a b - 52)%Z) in *. cbn [fst snd] in *.
  rewrite !(scaled a b e) by exact Hb.
  pose proof (rne_half (scale_num a e) (scale_den b e) (scale_den_pos b e Hb)) as N.
  set (m := rne (scale_num a e) (scale_den b e)) in *.
  pose proof (scale_den_pos b e Hb) as P.
  assert (0 < inject_Z (scale_den b e)) as P' by (change 0 with (inject_Z 0); rewrite <- Zlt_Qlt; exact P).
  set (x := inject_Z (scale_num a e) / inject_Z (scale_den b e)).
  rewrite abs_scale by apply p2_pos. rewrite Qmult_assoc.
  apply Qmult_le_compat_r; [|apply Qlt_le_weak, p2_pos].
  assert (X : inject_Z (2 ^ 52) <= x).
  { unfold x. apply Qle_shift_div_l; [exact P'|]. rewrite <- inject_Z_mult, <- Zle_Qle. exact R. }
  apply Qle_trans with (1 # 2).
  - unfold x. setoid_replace (inject_Z m - inject_Z (scale_num a e) / inject_Z (scale_den b e))
      with (inject_Z (m * scale_den b e - scale_num a e) * / inject_Z (scale_den b e)).
    2: { unfold Z.sub. rewrite inject_Z_plus, inject_Z_mult, inject_Z_opp. field. lra. }
    rewrite Qabs_Qmult. rewrite (Qabs_pos (/ _)) by (apply Qlt_le_weak, Qinv_lt_0_compat; exact P').
    change (Qabs (inject_Z ?z)) with (inject_Z (Z.abs z)).
    apply Qle_shift_div_r; [exact P'|].
    assert (N' : 2 * inject_Z (Z.abs (m * scale_den b e - scale_num a e)) <= inject_Z (scale_den b e)).
    { change 2 with (inject_Z 2). rewrite <- inject_Z_mult, <- Zle_Qle. exact N. }
    lra.
  - apply Qle_trans with ((2 # 1) ^ (-53) * inject_Z (2 ^ 52)); [vm_compute; discriminate|].
    rewrite !(Qmult_comm ((2 # 1) ^ (-53))). apply Qmult_le_compat_r; [exact X|]. vm_compute. discriminate.
Qed.

(* what fround stands for *)
Lemma fround_q n d : (0 < d)%Z -> n <> 0%Z ->
  exists x, flt_q (fround n d) = Some x /\
    x == inject_Z (Z.sgn n) * (inject_Z (fst (fround_pos (Z.abs n) d)) * (2 # 1) ^ snd (fround_pos (Z.abs n) d)) /\
    representable x.
Proof.
  intros Hd Hn. unfold fround. destruct (Z.eqb_spec n 0) as [|_]; [contradiction|].
  pose proof (fround_pos_range (Z.abs n) d ltac:(lia) Hd) as R.
  destruct (fround_pos (Z.abs n) d) as [m e]. cbn [fst snd] in *.
  pose proof (pow2_pos 52 ltac:(lia)) as P52.
  assert (F : forall neg k x acc, (0 <= k)%Z -> (k < 2 ^ 53)%Z ->
     exists y, flt_q (FFin neg (Z.to_N k) x acc) = Some y /\ y == inject_Z ((if neg then -1 else 1) * k) * (2 # 1) ^ x /\ representable y).
  { intros neg k x acc K1 K2. eexists. split; [reflexivity|]. rewrite Z2N.id by exact K1.
    assert (E : (if neg then - inject_Z k else inject_Z k) * (2 # 1) ^ x == inject_Z ((if neg then -1 else 1) * k) * (2 # 1) ^ x).
    { destruct neg; [|rewrite Z.mul_1_l; reflexivity]. replace (-1 * k)%Z with (- k)%Z by lia. rewrite inject_Z_opp. reflexivity. }
    split; [exact E|]. eexists _, _. split; [|exact E]. destruct neg; lia. }
  assert (SG : Z.sgn n = if (n <? 0)%Z then (-1)%Z else 1%Z).
  { destruct (Z.ltb_spec n 0); [apply Z.sgn_neg|apply Z.sgn_pos]; lia. }
  destruct (Z.eqb_spec m (2 ^ 53)) as [E|E].
  - destruct (F (n <? 0)%Z (2 ^ 52)%Z (e + 1)%Z
       (acc_of (n <? 0)%Z (m * scale_den d e ?= scale_num (Z.abs n) e)%Z)) as [y [Y1 [Y2 Y3]]]; [lia|reflexivity|].
    exists y. split; [exact Y1|]. split; [|exact Y3]. rewrite Y2, SG. clear Y1 Y2 Y3 F. subst m.
    rewrite p2_plus, inject_Z_mult. change (inject_Z (2 ^ 53)) with (inject_Z (2 ^ 52) * inject_Z 2).
    change ((2 # 1) ^ 1) with (inject_Z 2). generalize (inject_Z (2 ^ 52)). intro u. ring.
  - destruct (F (n <? 0)%Z m e (acc_of (n <? 0)%Z (m * scale_den d e ?= scale_num (Z.abs n) e)%Z)) as [y [Y1 [Y2 Y3]]]; [lia|lia|].
    exists y. split; [exact Y1|]. split; [|exact Y3]. rewrite Y2, SG, inject_Z_mult. ring.
Qed.

Lemma representable_opp y : representable y -> representable (- y).
Proof.
  intros [m [e [B Y]]]. exists (- m)%Z, e. split; [lia|]. rewrite Y, inject_Z_opp. ring.
Qed.

Lemma fround_nearest n d : (0 < d)%Z -> nearest (fround n d) (inject_Z n / inject_Z d).
Proof.
  intro Hd. destruct (Z.eq_dec n 0) as [->|Hn].
  - exists (0 * (2 # 1) ^ 0). split; [reflexivity|]. split.
    + exists 0%Z, 0%Z. split; reflexivity.
    + intros y _. setoid_replace (0 * (2 # 1) ^ 0 - inject_Z 0 / inject_Z d) with 0 by (unfold Qdiv; change (inject_Z 0) with 0; ring).
      apply Qabs_nonneg.
  - destruct (fround_q n d Hd Hn) as [x [X [E R]]]. exists x. split; [exact X|]. split; [exact R|].
    intros y Y. rewrite E.
    pose proof (fround_pos_near (Z.abs n) d) as P.
    set (m := inject_Z (fst (fround_pos (Z.abs n) d)) * (2 # 1) ^ snd (fround_pos (Z.abs n) d)) in *.
    destruct (Z.lt_trichotomy n 0) as [L|[L|L]]; [|contradiction|].
    + rewrite (Z.sgn_neg n L). specialize (P (- y) ltac:(lia) Hd (representable_opp _ Y)).
      rewrite (Z.abs_neq n) in P by lia. rewrite inject_Z_opp in P.
      setoid_replace (inject_Z (-1) * m - inject_Z n / inject_Z d) with (- (m - (- inject_Z n) / inject_Z d)) by (unfold Qdiv; change (inject_Z (-1)) with (-1 # 1); ring).
      setoid_replace (y - inject_Z n / inject_Z d) with (- (- y - (- inject_Z n) / inject_Z d)) by (unfold Qdiv; ring).
      rewrite !Qabs_opp. exact P.
    + rewrite (Z.sgn_pos n L). specialize (P y ltac:(lia) Hd Y). rewrite (Z.abs_eq n) in P by lia.
      change (inject_Z 1) with 1. rewrite Qmult_1_l. exact P.
Qed.

Lemma fround_error n d x : (0 < d)%Z -> flt_q (fround n d) = Some x ->
  Qabs (x - inject_Z n / inject_Z d) <= (2 # 1) ^ (-53) * Qabs (inject_Z n / inject_Z d).
Proof.
  intros Hd F. destruct (Z.eq_dec n 0) as [->|Hn].
  - change (Some (0 * (2 # 1) ^ 0) = Some x) in F. injection F as <-.
    setoid_replace (0 * (2 # 1) ^ 0 - inject_Z 0 / inject_Z d) with 0 by (unfold Qdiv; change (inject_Z 0) with 0; ring).
    change (Qabs 0) with 0. apply Qmult_le_0_compat; [vm_compute; discriminate|first [apply Qabs_nonneg | apply Qle_refl]].
  - destruct (fround_q n d Hd Hn) as [y [X [E R]]]. rewrite X in F. injection F as <-. rewrite E. clear X.
    pose proof (fround_pos_error (Z.abs n) d ltac:(lia) Hd) as P.
    set (m := inject_Z (fst (fround_pos (Z.abs n) d)) * (2 # 1) ^ snd (fround_pos (Z.abs n) d)) in *.
    assert (0 < inject_Z d) as D by (change 0 with (inject_Z 0); rewrite <- Zlt_Qlt; exact Hd).
    assert (A : Qabs (inject_Z n / inject_Z d) == inject_Z (Z.abs n) / inject_Z d).
    { unfold Qdiv. rewrite Qabs_Qmult. rewrite (Qabs_pos (/ _)) by (apply Qlt_le_weak, Qinv_lt_0_compat; exact D). reflexivity. }
    rewrite A.
    destruct (Z.lt_trichotomy n 0) as [L|[L|L]]; [|contradiction|].
    + rewrite (Z.sgn_neg n L). revert P. rewrite (Z.abs_neq n) by lia. rewrite inject_Z_opp. intro P.
      setoid_replace (inject_Z (-1) * m - inject_Z n / inject_Z d) with (- (m - (- inject_Z n) / inject_Z d)) by (unfold Qdiv; change (inject_Z (-1)) with (-1 # 1); ring).
      rewrite Qabs_opp. exact P.
    + rewrite (Z.sgn_pos n L). revert P. rewrite (Z.abs_eq n) by lia. intro P.
      change (inject_Z 1) with 1. rewrite Qmult_1_l. exact P.
Qed.

Lemma nearest_ext f p q : p == q -> nearest f p -> nearest f q.
Proof.
  intros E [x [X [R N]]]. exists x. split; [exact X|]. split; [exact R|]. intros y Y. rewrite <- E. apply N; exact Y.
Qed.

Lemma to_n_number def e q : qval e = Some q -> exists n d, (0 < d)%Z /\ to_n def e = EFlt (fround n d) /\ inject_Z n / inject_Z d == q.
Proof.
  destruct e as [s|s|z|n d|f|a b|l]; try discriminate.
  - intro H. injection H as <-. exists z, 1%Z. repeat split. unfold Qdiv. change (/ inject_Z 1) with 1. ring.
  - cbn [qval]. destruct (Z.eqb_spec d 0) as [|D]; [discriminate|]. intro H. injection H as <-.
    exists (Z.sgn d * n)%Z, (Z.abs d). split; [lia|]. split.
    + cbn [to_n]. unfold rat_to_flt. destruct (Z.eqb_spec d 0); [contradiction|reflexivity].
    + assert (~ inject_Z d == 0) by (change 0 with (inject_Z 0); rewrite inject_Z_injective; exact D).
      destruct (Z.lt_trichotomy d 0) as [L|[L|L]]; [|contradiction|].
      * rewrite (Z.sgn_neg d L), (Z.abs_neq d) by lia. rewrite inject_Z_mult, inject_Z_opp.
        change (inject_Z (-1)) with (-1 # 1). field. exact H.
      * rewrite (Z.sgn_pos d L), (Z.abs_eq d) by lia. rewrite Z.mul_1_l. reflexivity.
Qed.

(* N of an exact number is a machine real nearest to it ... *)
Theorem C115_nearest : forall def e q, qval e = Some q -> exists f, n_fn def [e] = Some (EFlt f) /\ nearest f q.
Proof.
  intros def e q H. destruct (to_n_number def e q H) as [n [d [D [E V]]]].
  exists (fround n d). split; [cbn [n_fn]; rewrite E; reflexivity|].
  apply (nearest_ext _ _ _ V). apply fround_nearest. exact D.
Qed.
Print Assumptions C115_nearest.

(* ... off by at most one part in 2^53, and not at all if it can be represented *)
Theorem C115_error : forall def e q, qval e = Some q -> exists f x, n_fn def [e] = Some (EFlt f) /\ flt_q f = Some x /\
  Qabs (x - q) <= (2 # 1) ^ (-53) * Qabs q /\ (representable q -> x == q).
Proof.
  intros def e q H. destruct (to_n_number def e q H) as [n [d [D [E V]]]].
  destruct (nearest_ext _ _ _ V (fround_nearest n d D)) as [x [X [R N]]].
  exists (fround n d), x. split; [cbn [n_fn]; rewrite E; reflexivity|]. split; [exact X|]. split.
  - rewrite <- V. apply fround_error; assumption.
  - intro Q. specialize (N q Q). setoid_replace (q - q) with 0 in N by ring. change (Qabs 0) with 0 in N.
    revert N. apply Qabs_case; intros; lra.
Qed.
Print Assumptions C115_error.

(* every rational in an expression is a number (Go panics on the others, C01) *)
Fixpoint sound (e : ex) : bool :=
  match e with ERat _ d => negb (d =? 0)%Z | EExpr l => forallb sound l | _ => true end.

Definition approximation (e e' : ex) : Prop :=
  (exists q f, qval e = Some q /\ e' = EFlt f /\ nearest f q) \/
  (e = sys "Pi" /\ e' = EFlt pi_flt) \/ (e = sys "E" /\ e' = EFlt e_flt).

Lemma rules_part p : match n_rules p with Some r => r | None => to_n n_rules p end = to_n n_rules p.
Proof. destruct p as [s|s|z|n d|f|a b|l]; try reflexivity. cbn [to_n n_rules]. destruct (String.eqb _ _); [reflexivity|]. destruct (String.eqb _ _); reflexivity. Qed.
Lemma to_n_expr l : to_n n_rules (EExpr l) = EExpr (map (to_n n_rules) l).
Proof. cbn [to_n n_rules]. f_equal. apply map_ext. apply rules_part. Qed.

(* Inside an expression, with the definitions that come with the library, N
   replaces numbers, Pi and E, and changes nothing else; no exact real number
   remains *)
Theorem C115_structure : forall e, sound e = true ->
  approximated approximation e (to_n n_rules e) /\ ~ has_exact (to_n n_rules e).
Proof.
  induction e as [s|s|z|n d|f|a b IH1 IH2|l IH] using ex_ind'; intro W.
  - split.
    + cbn [to_n n_rules]. destruct (String.eqb_spec s (sysname "Pi")) as [->|_].
      { apply ap_number. right. left. split; reflexivity. }
      destruct (String.eqb_spec s (sysname "E")) as [->|_].
      { apply ap_number. right. right. split; reflexivity. }
      apply ap_same. discriminate.
    + cbn [to_n n_rules]. destruct (String.eqb _ _); [intro H; inversion H|]. destruct (String.eqb _ _); intro H; inversion H.
  - split; [apply ap_same; discriminate|intro H; inversion H].
  - destruct (C115_nearest n_rules (EInt z) (inject_Z z) eq_refl) as [f [F N]]. cbn [n_fn] in F. injection F as F.
    split; [|intro H; inversion H]. apply ap_number. left. exists (inject_Z z), f. repeat split; [cbn [to_n]; rewrite F; reflexivity|exact N].
  - cbn [sound] in W. assert (Q : qval (ERat n d) = Some (inject_Z n / inject_Z d)).
    { cbn [qval]. destruct (d =? 0)%Z; [discriminate|reflexivity]. }
    destruct (C115_nearest n_rules (ERat n d) _ Q) as [f [F N]]. cbn [n_fn] in F. injection F as F.
    split; [|cbn [to_n]; intro H; inversion H]. apply ap_number. left. exists (inject_Z n / inject_Z d), f.
    split; [exact Q|]. split; [cbn [to_n]; rewrite F; reflexivity|exact N].
  - split; [apply ap_same; discriminate|intro H; inversion H].
  - split; [apply ap_same; discriminate|intro H; inversion H].
  - rewrite to_n_expr. cbn [sound] in W. split.
    + apply ap_expr. induction IH as [|x t Hx Ht IHt]; [constructor|]. cbn [forallb] in W. apply andb_prop in W. destruct W as [W1 W2].
      cbn [map]. constructor; [apply Hx; exact W1|apply IHt; exact W2].
    + intro H. remember (EExpr (map (to_n n_rules) l)) as e eqn:E. destruct H as [z|n d|l' x I H]; try discriminate E.
      injection E as ->. apply in_map_iff in I. destruct I as [y [<- Y]].
      rewrite forallb_forall in W. rewrite Forall_forall in IH. exact (proj2 (IH y Y (W y Y)) H).
Qed.
Print Assumptions C115_structure.

(* Approximating twice is approximating once *)
Theorem C115_idempotent : forall e, to_n n_rules (to_n n_rules e) = to_n n_rules e.
Proof.
  induction e as [s|s|z|n d|f|a b IH1 IH2|l IH] using ex_ind'; try reflexivity.
  - cbn [to_n n_rules]. destruct (String.eqb s (sysname "Pi")) eqn:E1; [reflexivity|].
    destruct (String.eqb s (sysname "E")) eqn:E2; [reflexivity|]. cbn [to_n n_rules]. rewrite E1, E2. reflexivity.
  - rewrite !to_n_expr. f_equal. rewrite map_map. apply map_ext_in. rewrite Forall_forall in IH. exact IH.
Qed.
Print Assumptions C115_idempotent.

(* A definition given for N[e], e a symbol or an expression, takes precedence,
   also where e is a part of a larger expression *)
Theorem C115_definitions : forall def e r, def e = Some r -> (exists s, e = ESym s) \/ (exists l, e = EExpr l) ->
  n_fn def [e] = Some r /\
  forall l, In e l -> def (EExpr l) = None -> exists l', n_fn def [EExpr l] = Some (EExpr l') /\ In r l'.
Proof.
  intros def e r D S. split.
  - cbn [n_fn]. destruct S as [[s ->]|[l ->]]; cbn [to_n]; rewrite D; reflexivity.
  - intros l I N. eexists. split; [cbn [n_fn to_n]; rewrite N; reflexivity|].
    apply in_map_iff. exists e. rewrite D. split; [reflexivity|exact I].
Qed.
Print Assumptions C115_definitions.

(* Complex numbers are left exact, and positions in Part are made inexact *)
Theorem C115_everything_refuted :
  n_fn n_rules [ECplx (ERat 1 2) (EInt 1)] = Some (ECplx (ERat 1 2) (EInt 1)) /\
  exists f, n_fn n_rules [EExpr [sys "Part"; ESym "Global`x"; EInt 1]] = Some (EExpr [sys "Part"; ESym "Global`x"; EFlt f]).
Proof. split; [reflexivity|]. eexists. reflexivity. Qed.
Print Assumptions C115_everything_refuted.

(* 1/3 in an expression; 2^53 + 1 is not representable, 2^60 is *)
Example n_third : n_fn n_rules [EExpr [sys "f"; ERat 1 3; sys "Pi"; EStr "x"]] =
  Some (EExpr [sys "f"; EFlt (FFin false 6004799503160661 (-54) (-1)); EFlt pi_flt; EStr "x"]).
Proof. reflexivity. Qed.
Example n_power : representable (inject_Z (2 ^ 60)) /\ to_n n_rules (EInt (2 ^ 60)) = EFlt (FFin false (2 ^ 52) 8 0).
Proof. split; [exists 1%Z, 60%Z; split; reflexivity|reflexivity]. Qed.
Example n_round : to_n n_rules (EInt (2 ^ 53 + 1)) = EFlt (FFin false (2 ^ 52) 1 (-1)).
Proof. reflexivity. Qed.
Example n_defs : let def e := if ex_eqb e (ESym "Global`c") then Some (EInt 7) else None in
  n_fn def [EExpr [sys "f"; ESym "Global`c"; EInt 2]] = Some (EExpr [sys "f"; EInt 7; EFlt (FFin false (2 ^ 52) (-51) 0)]).
Proof. reflexivity. Qed.
