(* Facts about 53-bit rounding and comparison. *)
From Verif Require Import M_Syntax M_Float.
From Coq Require Import ZifyBool ZifyN.
Open Scope Z_scope.

Lemma pow2_pos k : 0 <= k -> 0 < 2 ^ k.
Proof. intro; apply Z.pow_pos_nonneg; lia. Qed.

Lemma pow2_split a b : 0 <= a -> 0 <= b -> 2 ^ (a + b) = 2 ^ a * 2 ^ b.
Proof. intros; apply Z.pow_add_r; lia. Qed.

Lemma compare_mul_pos (x y p : Z) : 0 < p -> Z.compare (x * p) (y * p) = Z.compare x y.
Proof.
  intro Hp. destruct (Z.compare_spec x y) as [->|H|H].
  - apply Z.compare_refl.
  - apply Z.compare_lt_iff. nia.
  - apply Z.compare_gt_iff. nia.
Qed.

(* fcmp on finite values, at any common exponent below both *)
Lemma fcmp_fin_shift s m e a s' m' e' a' k :
  k <= e -> k <= e' ->
  fcmp (FFin s m e a) (FFin s' m' e' a') =
  Z.compare (smant s m * 2 ^ (e - k)) (smant s' m' * 2 ^ (e' - k)).
Proof.
  intros H H'. cbn [fcmp]. set (k0 := Z.min e e').
  assert (Hk : k <= k0) by (unfold k0; lia).
  replace (e - k) with ((e - k0) + (k0 - k)) by lia.
  replace (e' - k) with ((e' - k0) + (k0 - k)) by lia.
  rewrite !pow2_split by (unfold k0; lia).
  rewrite !Z.mul_assoc. rewrite compare_mul_pos; [reflexivity|].
  apply pow2_pos; lia.
Qed.

Lemma fcmp_opp x y : fcmp y x = CompOpp (fcmp x y).
Proof.
  destruct x as [a|s m e a], y as [b|s' m' e' a'].
  - destruct a, b; reflexivity.
  - destruct a; reflexivity.
  - destruct b; reflexivity.
  - cbn [fcmp]. rewrite (Z.min_comm e' e). apply Z.compare_antisym.
Qed.

Lemma fcmp_refl x : fcmp x x = Eq.
Proof. destruct x as [[]|s m e a]; cbn; try reflexivity. apply Z.compare_refl. Qed.

Definition fle (x y : flt) : Prop := fcmp x y <> Gt.
Definition flt_lt (x y : flt) : Prop := fcmp x y = Lt.

Lemma fcmp_common x y z :
  exists (g : flt -> Z), forall u v, In u [x;y;z] -> In v [x;y;z] -> fcmp u v = Z.compare (g u) (g v).
Proof.
  set (ex := fun u => match u with FInf _ => 0 | FFin _ _ e _ => e end).
  set (k := Z.min (ex x) (Z.min (ex y) (ex z))).
  set (mag := fun u => match u with FInf _ => 0 | FFin s m e _ => Z.abs (smant s m * 2 ^ (e - k)) end).
  set (B := 1 + mag x + mag y + mag z).
  exists (fun u => match u with FInf true => - B | FInf false => B | FFin s m e _ => smant s m * 2 ^ (e - k) end).
  assert (Hm : forall u, 0 <= mag u) by (intro u; unfold mag; destruct u; [lia|apply Z.abs_nonneg]).
  assert (HB : forall u, In u [x;y;z] -> mag u < B).
  { pose proof (Hm x); pose proof (Hm y); pose proof (Hm z).
    intros u [<-|[<-|[<-|[]]]]; unfold B; lia. }
  assert (Hk : forall u, In u [x;y;z] -> k <= ex u).
  { intros u [<-|[<-|[<-|[]]]]; unfold k; lia. }
  intros u v Hu Hv. pose proof (HB u Hu) as Bu. pose proof (HB v Hv) as Bv.
  pose proof (Hm u) as Mu. pose proof (Hm v) as Mv.
  pose proof (Hk u Hu) as Ku; pose proof (Hk v Hv) as Kv.
  destruct u as [nu|s m e a], v as [nv|s' m' e' a'].
  - destruct nu, nv; cbn [fcmp]; symmetry;
      first [apply Z.compare_eq_iff; lia | apply Z.compare_lt_iff; unfold B in *; lia
            | apply Z.compare_gt_iff; unfold B in *; lia].
  - cbn [mag] in Bv. destruct nu; cbn [fcmp]; symmetry;
      [apply Z.compare_lt_iff|apply Z.compare_gt_iff]; lia.
  - cbn [mag] in Bu. destruct nv; cbn [fcmp]; symmetry;
      [apply Z.compare_gt_iff|apply Z.compare_lt_iff]; lia.
  - apply fcmp_fin_shift; assumption.
Qed.

Lemma fle_trans x y z : fle x y -> fle y z -> fle x z.
Proof.
  destruct (fcmp_common x y z) as [g Hg]. unfold fle.
  rewrite !Hg by (cbn; tauto). rewrite !Z.compare_ngt_iff. lia.
Qed.

Lemma fcmp_eq_trans x y z : fcmp x y = Eq -> fcmp y z = Eq -> fcmp x z = Eq.
Proof.
  destruct (fcmp_common x y z) as [g Hg].
  rewrite !Hg by (cbn; tauto). rewrite !Z.compare_eq_iff. lia.
Qed.

Lemma fcmp_lt_le_trans x y z : fcmp x y = Lt -> fle y z -> fcmp x z = Lt.
Proof.
  destruct (fcmp_common x y z) as [g Hg]. unfold fle.
  rewrite !Hg by (cbn; tauto). rewrite !Z.compare_ngt_iff, !Z.compare_lt_iff. lia.
Qed.

Lemma fcmp_le_lt_trans x y z : fle x y -> fcmp y z = Lt -> fcmp x z = Lt.
Proof.
  destruct (fcmp_common x y z) as [g Hg]. unfold fle.
  rewrite !Hg by (cbn; tauto). rewrite !Z.compare_ngt_iff, !Z.compare_lt_iff. lia.
Qed.

(* ---- rounding to nearest even ---- *)
Lemma rne_spec a b : 0 < b ->
  (2 * rne a b - 1) * b <= 2 * a <= (2 * rne a b + 1) * b /\
  (2 * a = (2 * rne a b - 1) * b -> Z.even (rne a b) = true) /\
  (2 * a = (2 * rne a b + 1) * b -> Z.even (rne a b) = true).
Proof.
  intro Hb. unfold rne.
  pose proof (Z.div_mod a b) as Hdm. pose proof (Z.mod_pos_bound a b Hb) as Hr.
  set (q := a / b) in *. set (r := a mod b) in *.
  assert (Ha : a = b * q + r) by lia. clear Hdm. clearbody q r. subst a.
  destruct (Z.compare_spec (2 * r) b) as [He|Hl|Hg].
  - destruct (Z.even q) eqn:Hq.
    + repeat split; try nia; auto.
    + repeat split; try nia; intro H; try nia;
        rewrite Z.even_add, Hq; reflexivity.
  - repeat split; try nia; intro H; exfalso; nia.
  - repeat split; try nia; intro H; exfalso; nia.
Qed.

Lemma rne_mono a b a' b' : 0 < b -> 0 < b' -> a * b' <= a' * b -> rne a b <= rne a' b'.
Proof.
  intros Hb Hb' H.
  destruct (rne_spec a b Hb) as [[H1 H2] [H3 H4]].
  destruct (rne_spec a' b' Hb') as [[H1' H2'] [H3' H4']].
  set (q := rne a b) in *. set (q' := rne a' b') in *.
  destruct (Z.le_gt_cases q q') as [|Hgt]; [assumption|exfalso].
  assert (Hbb : 0 < b * b') by nia.
  assert (E1 : (2 * q - 1) * (b * b') <= (2 * q' + 1) * (b * b')) by nia.
  assert (E2 : q = q' + 1) by nia.
  assert (T1 : 2 * a * b' = (2 * q - 1) * b * b') by nia.
  assert (T2 : 2 * a' * b = (2 * q' + 1) * b' * b) by nia.
  assert (T1' : 2 * a = (2 * q - 1) * b) by nia.
  assert (T2' : 2 * a' = (2 * q' + 1) * b') by nia.
  specialize (H3 T1'). specialize (H4' T2').
  rewrite E2, Z.even_add, H4' in H3. discriminate H3.
Qed.

Lemma rne_exact n b : 0 < b -> rne (n * b) b = n.
Proof.
  intro Hb. unfold rne. rewrite Z.div_mul, Z.mod_mul by lia.
  destruct (Z.compare_spec (2 * 0) b); try lia. 
Qed.

(* ---- flog2q ---- *)
Lemma scale_max e K : Z.max (- e) 0 <= K ->
  2 ^ K = 2 ^ (Z.max (- e) 0) * 2 ^ (K - Z.max (- e) 0) /\
  2 ^ (e + K) = 2 ^ (Z.max e 0) * 2 ^ (K - Z.max (- e) 0) /\ 0 < 2 ^ (K - Z.max (- e) 0).
Proof.
  intro H. rewrite <- !pow2_split by lia. repeat split.
  - f_equal; lia.
  - f_equal; lia.
  - apply pow2_pos; lia.
Qed.

Lemma flog2q_spec a b K : 0 < a -> 0 < b ->
  Z.max (- flog2q a b) 0 <= K ->
  b * 2 ^ (flog2q a b + K) <= a * 2 ^ K < b * 2 ^ (flog2q a b + 1 + K).
Proof.
  intros Ha Hb.
  pose proof (Z.log2_spec a Ha) as [La1 La2]. pose proof (Z.log2_spec b Hb) as [Lb1 Lb2].
  pose proof (Z.log2_nonneg a) as Na. pose proof (Z.log2_nonneg b) as Nb.
  set (g := Z.log2 a - Z.log2 b).
  assert (Hlow : forall K, 0 <= K -> 0 <= g - 1 + K -> b * 2 ^ (g - 1 + K) <= a * 2 ^ K).
  { intros K' HK0 HK1.
    assert (b * 2 ^ (g - 1 + K') <= 2 ^ Z.succ (Z.log2 b) * 2 ^ (g - 1 + K')).
    { apply Z.mul_le_mono_nonneg_r; [apply Z.lt_le_incl, pow2_pos; lia|lia]. }
    rewrite <- pow2_split in H by lia.
    replace (Z.succ (Z.log2 b) + (g - 1 + K')) with (Z.log2 a + K') in H by (unfold g; lia).
    rewrite (pow2_split (Z.log2 a) K') in H by lia. pose proof (pow2_pos K' HK0). nia. }
  assert (Hup : forall K, 0 <= K -> 0 <= g + 1 + K -> a * 2 ^ K < b * 2 ^ (g + 1 + K)).
  { intros K' HK0 HK1.
    assert (a * 2 ^ K' < 2 ^ Z.succ (Z.log2 a) * 2 ^ K').
    { apply Z.mul_lt_mono_pos_r; [apply pow2_pos; lia|lia]. }
    rewrite <- pow2_split in H by lia.
    replace (Z.succ (Z.log2 a) + K') with (Z.log2 b + (g + 1 + K')) in H by (unfold g; lia).
    rewrite (pow2_split (Z.log2 b) (g + 1 + K')) in H by lia. pose proof (pow2_pos (g + 1 + K') HK1). nia. }
  unfold flog2q. fold g.
  destruct (Z.leb_spec (b * 2 ^ Z.max g 0) (a * 2 ^ Z.max (- g) 0)) as [Hc|Hc]; intro HK.
  - split; [|apply Hup; lia].
    destruct (scale_max g K HK) as [E1 [E2 E3]]. rewrite E1, E2.
    rewrite !Z.mul_assoc. apply Z.mul_le_mono_nonneg_r; lia.
  - split; [apply Hlow; lia|].
    replace (g - 1 + 1 + K) with (g + K) by lia.
    destruct (scale_max g K ltac:(lia)) as [E1 [E2 E3]]. rewrite E1, E2.
    rewrite !Z.mul_assoc. apply Z.mul_lt_mono_pos_r; lia.
Qed.

Lemma scale_den_pos b e : 0 < b -> 0 < scale_den b e.
Proof. intro. unfold scale_den. apply Z.mul_pos_pos; [lia|apply pow2_pos; lia]. Qed.

Lemma flog2q_mono a b a' b' : 0 < a -> 0 < b -> 0 < a' -> 0 < b' ->
  a * b' <= a' * b -> flog2q a b <= flog2q a' b'.
Proof.
  intros Ha Hb Ha' Hb' H.
  destruct (Z.le_gt_cases (flog2q a b) (flog2q a' b')) as [|Hgt]; [assumption|exfalso].
  set (K := Z.max (- flog2q a b) 0 + Z.max (- flog2q a' b') 0).
  destruct (flog2q_spec a b K Ha Hb ltac:(unfold K; lia)) as [L1 _].
  destruct (flog2q_spec a' b' K Ha' Hb' ltac:(unfold K; lia)) as [_ U2].
  assert (P : 2 ^ (flog2q a' b' + 1 + K) <= 2 ^ (flog2q a b + K)).
  { apply Z.pow_le_mono_r; unfold K; lia. }
  pose proof (pow2_pos K ltac:(unfold K; lia)) as PK.
  assert (a' * b * 2 ^ K < b' * b * 2 ^ (flog2q a b + K)).
  { apply Z.lt_le_trans with (b' * 2 ^ (flog2q a' b' + 1 + K) * b); nia. }
  assert (b * 2 ^ (flog2q a b + K) * b' <= a * 2 ^ K * b') by nia.
  nia.
Qed.

Lemma fround_pos_range a b : 0 < a -> 0 < b ->
  2 ^ 52 <= fst (fround_pos a b) <= 2 ^ 53.
Proof.
  intros Ha Hb. unfold fround_pos. set (e := flog2q a b - 52).
  cbn [fst].
  pose proof (scale_den_pos b e Hb) as Hd.
  set (K := Z.max (- flog2q a b) 0 + Z.max (- e) 0).
  destruct (flog2q_spec a b K Ha Hb ltac:(unfold K; lia)) as [L U].
  destruct (scale_max e K ltac:(unfold K; lia)) as [E1 [E2 E3]].
  assert (L' : 2 ^ 52 * scale_den b e <= scale_num a e).
  { unfold scale_den, scale_num.
    apply Z.mul_le_mono_pos_r with (2 ^ (K - Z.max (- e) 0)); [assumption|].
    rewrite <- !Z.mul_assoc, <- E1, <- E2.
    replace (flog2q a b + K) with (52 + (e + K)) in L by (unfold e; lia).
    rewrite pow2_split in L by (unfold K; lia). lia. }
  assert (U' : scale_num a e <= 2 ^ 53 * scale_den b e).
  { unfold scale_den, scale_num.
    apply Z.mul_le_mono_pos_r with (2 ^ (K - Z.max (- e) 0)); [assumption|].
    rewrite <- !Z.mul_assoc, <- E1, <- E2.
    replace (flog2q a b + 1 + K) with (53 + (e + K)) in U by (unfold e; lia).
    rewrite pow2_split in U by (unfold K; lia). lia. }
  split.
  - rewrite <- (rne_exact (2 ^ 52) (scale_den b e) Hd). apply rne_mono; try assumption. nia.
  - rewrite <- (rne_exact (2 ^ 53) (scale_den b e) Hd). apply rne_mono; try assumption. nia.
Qed.

Lemma fround_pos_mono a b a' b' k :
  0 < a -> 0 < b -> 0 < a' -> 0 < b' -> a * b' <= a' * b ->
  k <= snd (fround_pos a b) -> k <= snd (fround_pos a' b') ->
  fst (fround_pos a b) * 2 ^ (snd (fround_pos a b) - k) <=
  fst (fround_pos a' b') * 2 ^ (snd (fround_pos a' b') - k).
Proof.
  intros Ha Hb Ha' Hb' H.
  pose proof (fround_pos_range a b Ha Hb) as R.
  pose proof (fround_pos_range a' b' Ha' Hb') as R'.
  pose proof (flog2q_mono a b a' b' Ha Hb Ha' Hb' H) as M.
  unfold fround_pos in *. cbn [fst snd] in *.
  set (e := flog2q a b - 52) in *. set (e' := flog2q a' b' - 52) in *.
  intros Hk Hk'.
  destruct (Z.eq_dec e e') as [Heq|Hne].
  - rewrite <- Heq. rewrite <- Heq in R'.
    apply Z.mul_le_mono_nonneg_r; [apply Z.lt_le_incl, pow2_pos; lia|].
    apply rne_mono; try (apply scale_den_pos; assumption).
    unfold scale_num, scale_den.
    pose proof (pow2_pos (Z.max e 0) ltac:(lia)). pose proof (pow2_pos (Z.max (- e) 0) ltac:(lia)).
    set (p := 2 ^ Z.max e 0) in *. set (q := 2 ^ Z.max (- e) 0) in *.
    replace (a * q * (b' * p)) with (a * b' * (q * p)) by ring.
    replace (a' * q * (b * p)) with (a' * b * (q * p)) by ring.
    apply Z.mul_le_mono_nonneg_r; nia.
  - assert (Hlt : e + 1 <= e') by (unfold e, e' in *; lia).
    apply Z.le_trans with (2 ^ 53 * 2 ^ (e - k)).
    { apply Z.mul_le_mono_nonneg_r; [apply Z.lt_le_incl, pow2_pos; lia|lia]. }
    apply Z.le_trans with (2 ^ 52 * 2 ^ (e' - k)).
    { rewrite <- !pow2_split by lia. apply Z.pow_le_mono_r; lia. }
    apply Z.mul_le_mono_nonneg_r; [apply Z.lt_le_incl, pow2_pos; lia|lia].
Qed.

(* [is_val f s e]: f has the finite value s * 2^e *)
Definition is_val (f : flt) (s e : Z) : Prop :=
  match f with
  | FInf _ => False
  | FFin neg m e' _ => forall k, k <= e -> k <= e' -> smant neg m * 2 ^ (e' - k) = s * 2 ^ (e - k)
  end.

Lemma is_val_cmp f g s e s' e' k : is_val f s e -> is_val g s' e' -> k <= e -> k <= e' ->
  fcmp f g = Z.compare (s * 2 ^ (e - k)) (s' * 2 ^ (e' - k)).
Proof.
  destruct f as [|n m x a], g as [|n' m' x' a']; cbn [is_val]; try tauto.
  intros H H' Hk Hk'.
  set (k0 := Z.min k (Z.min x x')).
  rewrite (fcmp_fin_shift _ _ _ _ _ _ _ _ k0) by (unfold k0; lia).
  rewrite H, H' by (unfold k0; lia).
  replace (e - k0) with ((e - k) + (k - k0)) by lia.
  replace (e' - k0) with ((e' - k) + (k - k0)) by lia.
  rewrite !pow2_split by (unfold k0; lia). rewrite !Z.mul_assoc.
  apply compare_mul_pos, pow2_pos. unfold k0; lia.
Qed.

Lemma fround_val n d : 0 < d -> n <> 0 ->
  is_val (fround n d) (Z.sgn n * fst (fround_pos (Z.abs n) d)) (snd (fround_pos (Z.abs n) d)).
Proof.
  intros Hd Hn. unfold fround.
  destruct (Z.eqb_spec n 0) as [|_]; [contradiction|].
  pose proof (fround_pos_range (Z.abs n) d ltac:(lia) Hd) as R.
  destruct (fround_pos (Z.abs n) d) as [m e]. cbn [fst snd] in *.
  destruct (Z.eqb_spec m (2 ^ 53)) as [E|E].
  - cbn [is_val]. intros k Hk Hk'. subst m.
    replace (e + 1 - k) with (1 + (e - k)) by lia.
    rewrite pow2_split by lia.
    unfold smant. destruct (Z.ltb_spec n 0).
    + rewrite Z.sgn_neg by lia.
      rewrite Z2N.id by (apply Z.lt_le_incl, pow2_pos; lia).
      change (2 ^ 53) with (2 ^ 52 * 2). change (2 ^ 1) with 2. ring.
    + rewrite Z.sgn_pos by lia.
      rewrite Z2N.id by (apply Z.lt_le_incl, pow2_pos; lia).
      change (2 ^ 53) with (2 ^ 52 * 2). change (2 ^ 1) with 2. ring.
  - cbn [is_val]. intros k Hk Hk'.
    unfold smant. destruct (Z.ltb_spec n 0).
    + rewrite Z.sgn_neg by lia. rewrite Z2N.id by (pose proof (pow2_pos 52); lia). ring.
    + rewrite Z.sgn_pos by lia. rewrite Z2N.id by (pose proof (pow2_pos 52); lia). ring.
Qed.

Lemma fround_zero_val d e : is_val (fround 0 d) 0 e.
Proof. cbn. intros; reflexivity. Qed.

(* Rounding is monotone. *)
Lemma fround_mono n d n' d' : 0 < d -> 0 < d' -> n * d' <= n' * d -> fle (fround n d) (fround n' d').
Proof.
  intros Hd Hd' H. unfold fle.
  assert (Hval : forall n d, 0 < d -> exists s e, is_val (fround n d) s e /\
     Z.sgn s = Z.sgn n).
  { intros m c Hc. destruct (Z.eq_dec m 0) as [->|Hm].
    - exists 0, 0. split; [apply fround_zero_val|reflexivity].
    - eexists _, _. split; [apply fround_val; assumption|].
      pose proof (fround_pos_range (Z.abs m) c ltac:(lia) Hc) as R.
      rewrite Z.sgn_mul. rewrite (Z.sgn_pos (fst _)); [destruct m; reflexivity|].
      pose proof (pow2_pos 52); lia. }
  destruct (Z.eq_dec n 0) as [Hn|Hn]; [|destruct (Z.eq_dec n' 0) as [Hn'|Hn']].
  - subst n. destruct (Hval n' d' Hd') as [s [e [V S]]].
    rewrite (is_val_cmp _ _ _ _ _ _ e (fround_zero_val d e) V) by lia.
    rewrite Z.compare_ngt_iff. rewrite Z.sub_diag, Z.pow_0_r. 
    assert (0 <= n') by nia. destruct s, n'; cbn in S; lia.
  - subst n'. destruct (Hval n d Hd) as [s [e [V S]]].
    rewrite (is_val_cmp _ _ _ _ _ _ e V (fround_zero_val d' e)) by lia.
    rewrite Z.compare_ngt_iff. rewrite Z.sub_diag, Z.pow_0_r. 
    assert (n <= 0) by nia. destruct s, n; cbn in S; lia.
  - pose proof (fround_val n d Hd Hn) as V. pose proof (fround_val n' d' Hd' Hn') as V'.
    set (k := Z.min (snd (fround_pos (Z.abs n) d)) (snd (fround_pos (Z.abs n') d'))).
    rewrite (is_val_cmp _ _ _ _ _ _ k V V') by (unfold k; lia).
    rewrite Z.compare_ngt_iff.
    pose proof (fround_pos_range (Z.abs n) d ltac:(lia) Hd) as R.
    pose proof (fround_pos_range (Z.abs n') d' ltac:(lia) Hd') as R'.
    pose proof (pow2_pos 52 ltac:(lia)) as P52.
    pose proof (pow2_pos (snd (fround_pos (Z.abs n) d) - k) ltac:(unfold k; lia)) as P1.
    pose proof (pow2_pos (snd (fround_pos (Z.abs n') d') - k) ltac:(unfold k; lia)) as P2.
    destruct (Z.lt_total n 0) as [L|[L|L]]; [|contradiction|];
      (destruct (Z.lt_total n' 0) as [L'|[L'|L']]; [|contradiction|]).
    + rewrite !Z.sgn_neg by lia.
      pose proof (fround_pos_mono (Z.abs n') d' (Z.abs n) d k ltac:(lia) Hd' ltac:(lia) Hd
                    ltac:(nia) ltac:(unfold k; lia) ltac:(unfold k; lia)). lia.
    + rewrite (Z.sgn_neg n), (Z.sgn_pos n') by lia. nia.
    + exfalso; nia.
    + rewrite !Z.sgn_pos by lia.
      pose proof (fround_pos_mono (Z.abs n) d (Z.abs n') d' k ltac:(lia) Hd ltac:(lia) Hd'
                    ltac:(nia) ltac:(unfold k; lia) ltac:(unfold k; lia)). lia.
Qed.

Lemma int_to_flt_mono i j : i <= j -> fle (int_to_flt i) (int_to_flt j).
Proof. intro. unfold int_to_flt. apply fround_mono; lia. Qed.

(* Integers of at most 53 bits are represented exactly. *)
Lemma int_to_flt_exact i : Z.abs i <= 2 ^ 53 -> is_val (int_to_flt i) i 0.
Proof.
  intro H. unfold int_to_flt. destruct (Z.eq_dec i 0) as [->|Hi]; [apply fround_zero_val|].
  pose proof (fround_val i 1 ltac:(lia) Hi) as V.
  set (a := Z.abs i) in *.
  assert (Ha : 0 < a) by (unfold a; lia).
  assert (Hx : fst (fround_pos a 1) * 2 ^ (snd (fround_pos a 1) + 52) = a * 2 ^ 52 ).
  { unfold fround_pos. cbn [fst snd].
    assert (Hf : flog2q a 1 = Z.log2 a).
    { unfold flog2q. change (Z.log2 1) with 0. rewrite Z.sub_0_r.
      pose proof (Z.log2_nonneg a). pose proof (Z.log2_spec a Ha).
      replace (Z.max (Z.log2 a) 0) with (Z.log2 a) by lia.
      replace (Z.max (- Z.log2 a) 0) with 0 by lia.
      destruct (Z.leb_spec (1 * 2 ^ Z.log2 a) (a * 2 ^ 0)); [reflexivity|]. 
      change (2 ^ 0) with 1 in *. lia. }
    rewrite Hf. pose proof (Z.log2_nonneg a) as Hl0. pose proof (Z.log2_spec a Ha) as [Hl1 Hl2].
    assert (Hl : Z.log2 a <= 53).
    { apply Z.log2_le_mono in H. rewrite Z.log2_pow2 in H; lia. }
    destruct (Z.eq_dec (Z.log2 a) 53) as [E53|N53].
    - rewrite E53 in *. assert (a = 2 ^ 53) by lia. rewrite H0. vm_compute. reflexivity.
    - set (l := Z.log2 a) in *.
      unfold scale_num, scale_den.
      replace (Z.max (l - 52) 0) with 0 by lia.
      replace (Z.max (- (l - 52)) 0) with (52 - l) by lia.
      change (1 * 2 ^ 0) with 1.
      pose proof (rne_exact (a * 2 ^ (52 - l)) 1 ltac:(lia)) as Hr. rewrite Z.mul_1_r in Hr.
      rewrite Hr. replace (l - 52 + 52) with l by lia.
      rewrite <- Z.mul_assoc, <- pow2_split by lia. f_equal. f_equal. lia. }
  assert (He : -52 <= snd (fround_pos a 1)).
  { unfold fround_pos. cbn [snd]. 
    pose proof (flog2q_mono 1 1 a 1 ltac:(lia) ltac:(lia) Ha ltac:(lia) ltac:(lia)) as M.
    change (flog2q 1 1) with 0 in M. lia. }
  destruct (fround i 1) as [|neg m e' acc] eqn:EF; cbn [is_val] in *; [assumption|].
  intros k Hk Hk'.
  set (s := snd (fround_pos a 1)) in *.
  set (k0 := Z.min k (Z.min s (-52))).
  assert (HV : smant neg m * 2 ^ (e' - k0) = i * 2 ^ (0 - k0)).
  { rewrite V by (unfold k0; lia).
    assert (HA : fst (fround_pos a 1) * 2 ^ (s - k0) = a * 2 ^ (0 - k0)).
    { replace (s - k0) with ((s + 52) + (-52 - k0)) by lia.
      rewrite pow2_split by (unfold k0; lia).
      rewrite Z.mul_assoc, Hx, <- Z.mul_assoc, <- pow2_split by (unfold k0; lia).
      f_equal. f_equal. lia. }
    rewrite <- Z.mul_assoc, HA. unfold a. rewrite Z.mul_assoc. f_equal.
    destruct i; reflexivity. }
  replace (e' - k0) with ((e' - k) + (k - k0)) in HV by lia.
  replace (0 - k0) with ((0 - k) + (k - k0)) in HV by lia.
  rewrite !pow2_split in HV by (unfold k0; lia).
  rewrite !Z.mul_assoc in HV.
  apply Z.mul_reg_r in HV; [exact HV|].
  pose proof (pow2_pos (k - k0) ltac:(unfold k0; lia)); lia.
Qed.

Lemma int_to_flt_cmp_exact i j : Z.abs i <= 2 ^ 53 -> Z.abs j <= 2 ^ 53 ->
  fcmp (int_to_flt i) (int_to_flt j) = Z.compare i j.
Proof.
  intros Hi Hj.
  rewrite (is_val_cmp _ _ _ _ _ _ 0 (int_to_flt_exact i Hi) (int_to_flt_exact j Hj)) by lia.
  rewrite Z.sub_diag. f_equal; apply Z.mul_1_r.
Qed.
