(* Facts about hashing and SameQ. *)
From Verif Require Import M_Syntax M_Float M_Hash S_SameQ.
Open Scope Z_scope.

(* the bit operations of M_Hash.v *)
Lemma fnv_step_mod h b : fnv_step h b = ((N.lxor h b * fnv_prime) mod 2 ^ 64)%N.
Proof. unfold fnv_step, low64. change 18446744073709551615%N with (N.ones 64). rewrite N.land_ones, N.mul_comm. reflexivity. Qed.
Lemma low8_mod n : low8 n = (n mod 256)%N.
Proof. unfold low8. change 255%N with (N.ones 8). rewrite N.land_ones. reflexivity. Qed.
Lemma high8_div n : high8 n = (n / 256)%N.
Proof. unfold high8. rewrite N.shiftr_div_pow2. reflexivity. Qed.
Lemma fnv_bound l : forall h, (h < 2 ^ 64)%N -> (fold_left fnv_step l h < 2 ^ 64)%N.
Proof.
  induction l as [|b t IH]; intros h Hh; [exact Hh|]. cbn [fold_left]. apply IH.
  rewrite fnv_step_mod. apply N.mod_lt. discriminate.
Qed.
Lemma fnv_lt l : (fnv l < 2 ^ 64)%N.
Proof. apply fnv_bound. reflexivity. Qed.
Lemma hash_lt e : (hash e < 2 ^ 64)%N.
Proof. destruct e; apply fnv_lt. Qed.

Definition be_val (l : list N) : N := fold_left (fun v b => (v * 256 + b)%N) l 0%N.

Lemma be_val_acc l : forall v, fold_left (fun v b => (v * 256 + b)%N) l v = (v * 256 ^ N.of_nat (length l) + be_val l)%N.
Proof.
  unfold be_val. induction l as [|b t IH]; intro v.
  - cbn. lia.
  - cbn [fold_left length]. rewrite IH, (IH (0 * 256 + b)%N).
    rewrite Nat2N.inj_succ, N.pow_succ_r'. lia.
Qed.

Lemma be_val_cons b t : be_val (b :: t) = (b * 256 ^ N.of_nat (length t) + be_val t)%N.
Proof. unfold be_val at 1. cbn [fold_left]. rewrite be_val_acc. lia. Qed.

Lemma be_val_app l b : be_val (l ++ [b]) = (be_val l * 256 + b)%N.
Proof. unfold be_val. rewrite fold_left_app. reflexivity. Qed.

Lemma be_bytes_fuel_val fuel : forall n acc, (n < 2 ^ N.of_nat fuel)%N ->
  be_val (be_bytes_fuel fuel n acc) = (n * 256 ^ N.of_nat (length acc) + be_val acc)%N.
Proof.
  induction fuel as [|k IH]; intros n acc Hn.
  - change (2 ^ N.of_nat 0)%N with 1%N in Hn. assert (n = 0%N) as -> by lia. cbn [be_bytes_fuel]. lia.
  - cbn [be_bytes_fuel]. rewrite low8_mod, high8_div. destruct (N.eqb_spec n 0) as [->|Hz]; [lia|].
    rewrite IH.
    + cbn [length]. rewrite be_val_cons, Nat2N.inj_succ, N.pow_succ_r'.
      pose proof (N.div_mod n 256 ltac:(discriminate)). nia.
    + rewrite Nat2N.inj_succ, N.pow_succ_r' in Hn. apply N.div_lt_upper_bound; lia.
Qed.

Lemma be_bytes_val n : be_val (be_bytes n) = n.
Proof.
  unfold be_bytes. rewrite be_bytes_fuel_val; [cbn; lia|].
  rewrite Nat2N.inj_succ, N2Nat.id. rewrite N.pow_succ_r'. pose proof (N.size_gt n). lia.
Qed.

Lemma gob_int_inj x y : gob_int x = gob_int y -> x = y.
Proof.
  unfold gob_int. intro H. injection H as Hs Hb.
  apply (f_equal be_val) in Hb. rewrite !be_bytes_val in Hb.
  destruct (Z.ltb_spec x 0), (Z.ltb_spec y 0); try discriminate Hs; lia.
Qed.

Lemma be_fixed_length k : forall n, length (be_fixed k n) = k.
Proof. induction k as [|j IH]; intro n; cbn; [reflexivity|]. rewrite app_length, IH. cbn. lia. Qed.

Lemma be_fixed_val k : forall n, (n < 256 ^ N.of_nat k)%N -> be_val (be_fixed k n) = n.
Proof.
  induction k as [|j IH]; intros n Hn.
  - change (256 ^ N.of_nat 0)%N with 1%N in Hn. cbn. lia.
  - cbn [be_fixed]. rewrite low8_mod, high8_div, be_val_app, IH.
    + pose proof (N.div_mod n 256 ltac:(discriminate)). lia.
    + rewrite Nat2N.inj_succ, N.pow_succ_r' in Hn. apply N.div_lt_upper_bound; lia.
Qed.

Lemma le64_length n : length (le64 n) = 8%nat.
Proof. unfold le64. rewrite rev_length. apply be_fixed_length. Qed.

Lemma le64_inj n m : (n < 2 ^ 64)%N -> (m < 2 ^ 64)%N -> le64 n = le64 m -> n = m.
Proof.
  intros Hn Hm H. unfold le64 in H. apply (f_equal (@rev N)) in H. rewrite !rev_involutive in H.
  apply (f_equal be_val) in H. rewrite !be_fixed_val in H; auto.
Qed.

Lemma app_inj_len {A} (a b c d : list A) : length a = length c -> a ++ b = c ++ d -> a = c /\ b = d.
Proof.
  revert c. induction a as [|x a IH]; intros [|y c] Hl H; try discriminate; [auto|].
  injection H as -> H. injection Hl as Hl. destruct (IH c Hl H). subst. auto.
Qed.

Lemma str_bytes_inj s : forall t, str_bytes s = str_bytes t -> s = t.
Proof.
  induction s as [|c s IH]; intros [|c' t] H; try discriminate; [reflexivity|].
  cbn in H. injection H as Hc Hs. f_equal; [|auto].
  rewrite <- (ascii_N_embedding c), <- (ascii_N_embedding c'), Hc. reflexivity.
Qed.

(* the byte stream an expression writes into its FNV hasher *)
Definition kids (l : list ex) : list N := flat_map (fun x => le64 (hash x)) l.
Definition stream (e : ex) : list N :=
  match e with
  | ESym s => [107; 10; 247; 23; 33; 221; 163; 156]%N ++ str_bytes s
  | EStr s => [102; 206; 57; 172; 207; 100; 198; 133]%N ++ str_bytes s
  | EInt z => [242; 99; 84; 113; 102; 46; 118; 94]%N ++ gob_int z
  | ERat n d => [90; 82; 214; 51; 52; 7; 7; 33]%N ++ gob_int n ++ gob_int d
  | EFlt f => [195; 244; 76; 249; 227; 115; 88; 251]%N ++ gob_flt f
  | ECplx a b => [82; 226; 223; 39; 113; 26; 149; 249]%N ++ le64 (hash a) ++ le64 (hash b)
  | EExpr l => [72; 5; 244; 86; 5; 210; 69; 30]%N ++ kids l
  end.

Lemma hash_stream e : hash e = fnv (stream e).
Proof.
  destruct e; reflexivity.
Qed.

Lemma kids_inj l : forall l', kids l = kids l' -> map hash l = map hash l'.
Proof.
  unfold kids. induction l as [|x t IH]; intros [|y t'] H; cbn [flat_map] in H.
  - reflexivity.
  - apply (f_equal (@length N)) in H. rewrite app_length, le64_length in H. discriminate H.
  - apply (f_equal (@length N)) in H. rewrite app_length, le64_length in H. discriminate H.
  - apply app_inj_len in H; [|rewrite !le64_length; reflexivity]. destruct H as [Ha Hb].
    cbn. f_equal; [apply le64_inj; auto using hash_lt|auto].
Qed.

Definition collide (a b : ex) : Prop :=
  exists x y, same_position a b x y /\ stream x <> stream y /\ fnv (stream x) = fnv (stream y).

Lemma nrf_expr l : no_rat_flt (EExpr l) = true -> forall x, In x l -> no_rat_flt x = true.
Proof.
  cbn [no_rat_flt]. induction l as [|y t IH]; intros H x Hx; [destruct Hx|].
  rewrite andb_true_iff in H. destruct H as [H1 H2]. destruct Hx as [<-|Hx]; auto.
Qed.

Lemma hash_eq_or_collide : forall a b, no_rat_flt a = true -> no_rat_flt b = true ->
  hash a = hash b -> a = b \/ collide a b.
Proof.
  induction a as [s|s|z|n d|f|r i IHr IHi|l IHl] using ex_ind'; intros b Na Nb H; try discriminate Na.
  all: rewrite !hash_stream in H.
  all: match goal with |- ?A = ?B \/ _ =>
     destruct (list_eq_dec N.eq_dec (stream A) (stream B)) as [Hs|Hs];
     [|right; exists A, B; split; [constructor|split; assumption]] end.
  all: destruct b as [s'|s'|z'|n' d'|f'|r' i'|l']; try discriminate Hs; try discriminate Nb.
  - left. cbn in Hs. injection Hs as Hs. apply str_bytes_inj in Hs. congruence.
  - left. cbn in Hs. injection Hs as Hs. apply str_bytes_inj in Hs. congruence.
  - left. cbn [stream] in Hs. apply app_inj_len in Hs; [|reflexivity]. destruct Hs as [_ Hs].
    apply gob_int_inj in Hs. congruence.
  - cbn [stream] in Hs. apply app_inj_len in Hs; [|reflexivity]. destruct Hs as [_ Hs].
    apply app_inj_len in Hs; [|rewrite !le64_length; reflexivity]. destruct Hs as [H1 H2].
    apply le64_inj in H1; auto using hash_lt. apply le64_inj in H2; auto using hash_lt.
    cbn [no_rat_flt] in Na, Nb. apply andb_true_iff in Na, Nb. destruct Na, Nb.
    destruct (IHr r') as [->|[x [y [P Q]]]]; auto;
      [|right; exists x, y; split; [apply sp_re; assumption|assumption]].
    destruct (IHi i') as [->|[x [y [P Q]]]]; auto.
    right; exists x, y; split; [apply sp_im; assumption|assumption].
  - cbn [stream] in Hs. apply app_inj_len in Hs; [|reflexivity]. destruct Hs as [_ Hs].
    apply kids_inj in Hs.
    pose proof (nrf_expr l Na) as Fa. pose proof (nrf_expr l' Nb) as Fb. clear Na Nb H.
    assert (D : l = l' \/ exists k p q x y, nth_error l k = Some p /\ nth_error l' k = Some q /\
       same_position p q x y /\ stream x <> stream y /\ fnv (stream x) = fnv (stream y)).
    { revert l' Hs Fb. induction IHl as [|x t Hx Ht IH]; intros [|y t'] Hs Fb; try discriminate Hs; [left; reflexivity|].
      cbn in Hs. injection Hs as Hh Ht'.
      destruct (Hx y) as [->|[u [v [P Q]]]].
      - apply Fa; left; reflexivity.
      - apply Fb; left; reflexivity.
      - assumption.
      - destruct (IH (fun z Hz => Fa z (or_intror Hz)) t' Ht' (fun z Hz => Fb z (or_intror Hz)))
          as [->|[k [p [q [u [v [A [B C]]]]]]]]; [left; reflexivity|].
        right. exists (S k), p, q, u, v. auto.
      - right. exists O, x, y, u, v. cbn. auto. }
    destruct D as [->|[k [p [q [x [y [A [B [C D]]]]]]]]]; [left; reflexivity|].
    right. exists x, y. split; [eapply sp_part; eassumption|assumption].
Qed.

Lemma almost_equal_refl x : almost_equal x x = true.
Proof. unfold almost_equal, f64_eq. rewrite Z.eqb_refl. reflexivity. Qed.

Lemma wrap64_opp x : - 2 ^ 63 < wrap64 x -> wrap64 (- x) = - wrap64 x.
Proof.
  unfold wrap64. intro H.
  pose proof (Z.mod_pos_bound (x + 2 ^ 63) (2 ^ 64) ltac:(lia)).
  pose proof (Z.div_mod (x + 2 ^ 63) (2 ^ 64) ltac:(lia)) as E.
  set (r := (x + 2 ^ 63) mod 2 ^ 64) in *. set (q := (x + 2 ^ 63) / 2 ^ 64) in *.
  symmetry. cut ((- x + 2 ^ 63) mod 2 ^ 64 = 2 ^ 64 - r); [lia|].
  symmetry. apply (Z.mod_unique _ _ (- q)); lia.
Qed.

Lemma almost_equal_sym x y : almost_equal x y = almost_equal y x.
Proof.
  unfold almost_equal. f_equal.
  - unfold f64_eq. rewrite (Z.eqb_sym x y). destruct (y =? x), (x =? 0), (y =? 0), (x =? - 2 ^ 63), (y =? - 2 ^ 63); reflexivity.
  - assert (R : forall z, - 2 ^ 63 <= wrap64 z < 2 ^ 63).
    { intro z. unfold wrap64. pose proof (Z.mod_pos_bound (z + 2 ^ 63) (2 ^ 64) ltac:(lia)). lia. }
    pose proof (R (x - y)). pose proof (R (y - x)).
    destruct (Z.eq_dec (wrap64 (x - y)) (- 2 ^ 63)) as [E1|E1].
    + destruct (Z.eq_dec (wrap64 (y - x)) (- 2 ^ 63)) as [E2|E2]; [rewrite E1, E2; reflexivity|].
      exfalso. pose proof (wrap64_opp (y - x) ltac:(lia)) as W.
      replace (- (y - x)) with (x - y) in W by lia. lia.
    + pose proof (wrap64_opp (x - y) ltac:(lia)) as W. replace (- (x - y)) with (y - x) in W by lia.
      rewrite W. destruct (Z.leb_spec (-1) (wrap64 (x - y))), (Z.leb_spec (wrap64 (x - y)) 1),
        (Z.leb_spec (-1) (- wrap64 (x - y))), (Z.leb_spec (- wrap64 (x - y)) 1); cbn; lia.
Qed.

Lemma sameq_refl e : is_sameq e e = true.
Proof.
  destruct e; cbn [is_sameq]; try apply N.eqb_refl.
  destruct (f64_bits val); [apply almost_equal_refl|apply N.eqb_refl].
Qed.

Lemma sameq_sym a b : is_sameq a b = is_sameq b a.
Proof.
  destruct a as [| | | |f| |], b as [| | | |g| |]; cbn [is_sameq]; try apply N.eqb_sym.
  destruct (f64_bits f), (f64_bits g); try apply N.eqb_sym. apply almost_equal_sym.
Qed.

Definition is_flt (e : ex) : bool := match e with EFlt _ => true | _ => false end.

Lemma is_sameq_hash a b : is_flt a = false -> is_sameq a b = N.eqb (hash a) (hash b).
Proof. destruct a; try discriminate; reflexivity. Qed.

Lemma sameq_exact a b : no_rat_flt a = true -> no_rat_flt b = true -> is_sameq a b = true ->
  a = b \/ collide a b.
Proof.
  intros Na Nb H. apply hash_eq_or_collide; auto.
  rewrite is_sameq_hash in H by (destruct a; [reflexivity..|discriminate Na|discriminate Na|reflexivity|reflexivity]).
  apply N.eqb_eq. exact H.
Qed.

Lemma sameq_normal f g : normal_flt f -> normal_flt g ->
  (is_sameq (EFlt f) (EFlt g) = true <-> within_one_ulp f g).
Proof.
  destruct f as [|s m e a], g as [|s' m' e' a']; try contradiction.
  intros [Hm He] [Hm' He']. unfold is_sameq.
  assert (B : forall neg m e a, 2 ^ 52 <= Z.of_N m < 2 ^ 53 -> -1074 <= e <= 971 ->
    f64_bits (FFin neg m e a) = Some ((e + 1074) * 2 ^ 52 + Z.of_N m - if neg then 2 ^ 63 else 0)).
  { intros neg m0 e0 a0 H1 H2. unfold f64_bits, f64_mag.
    destruct (N.eqb_spec m0 0) as [->|_]; [cbn in H1; lia|].
    destruct (Z.ltb_spec 1023 (e0 + 52)); [lia|]. destruct (Z.leb_spec (-1022) (e0 + 52)); [|lia].
    f_equal. destruct neg; lia. }
  rewrite !B by assumption. unfold almost_equal, f64_eq, within_one_ulp.
  set (x := (e + 1074) * 2 ^ 52 + Z.of_N m) in *. set (y := (e' + 1074) * 2 ^ 52 + Z.of_N m') in *.
  assert (Hx : 0 < x < 2 ^ 63 - 2 ^ 51) by (unfold x; lia).
  assert (Hy : 0 < y < 2 ^ 63 - 2 ^ 51) by (unfold y; lia).
  assert (Hxy : Z.abs (x - y) <= 1 <->
      ( (e = e' /\ Z.abs (Z.of_N m - Z.of_N m') <= 1)
        \/ (e' = e + 1 /\ Z.of_N m = 2 ^ 53 - 1 /\ Z.of_N m' = 2 ^ 52)
        \/ (e = e' + 1 /\ Z.of_N m' = 2 ^ 53 - 1 /\ Z.of_N m = 2 ^ 52))).
  { unfold x, y. clearbody x y. clear Hx Hy B. split; [intro H|lia].
    assert (D : e = e' \/ e' = e + 1 \/ e = e' + 1).
    { assert (-2 < e - e' < 2); [|lia]. 
      assert ((e - e') * 2 ^ 52 = (((e + 1074) * 2 ^ 52 + Z.of_N m) - ((e' + 1074) * 2 ^ 52 + Z.of_N m')) - Z.of_N m + Z.of_N m') by lia.
      lia. }
    destruct D as [-> | [-> | ->]]; [left|right; left|right; right]; lia. }
  clearbody x y. rewrite <- Hxy. clear Hxy B Hm He Hm' He'.
  assert (W : forall z, - 2 ^ 63 <= z < 2 ^ 63 -> wrap64 z = z).
  { intros z Hz. unfold wrap64. rewrite Z.mod_small; lia. }
  assert (Wm : forall z, 2 ^ 63 <= z < 2 ^ 64 + 2 ^ 63 -> wrap64 z = z - 2 ^ 64).
  { intros z Hz. unfold wrap64. replace (z + 2 ^ 63) with (z - 2 ^ 63 + 1 * 2 ^ 64) by lia.
    rewrite Z.mod_add by lia. rewrite Z.mod_small; lia. }
  assert (Wp : forall z, - 2 ^ 64 - 2 ^ 63 <= z < - 2 ^ 63 -> wrap64 z = z + 2 ^ 64).
  { intros z Hz. unfold wrap64. replace (z + 2 ^ 63) with (z + 2 ^ 64 + 2 ^ 63 + (-1) * 2 ^ 64) by lia.
    rewrite Z.mod_add by lia. rewrite Z.mod_small; lia. }
  destruct s, s'.
  - rewrite W by lia. split; [intro H; split; [reflexivity|]|intros [_ H]]; lia.
  - destruct (Z_lt_le_dec (x - 2 ^ 63 - (y - 0)) (- 2 ^ 63)) as [L|L].
    + rewrite Wp by lia. split; [|intros [H _]; discriminate]. lia.
    + rewrite W by lia. split; [|intros [H _]; discriminate]. lia.
  - destruct (Z_lt_le_dec (x - 0 - (y - 2 ^ 63)) (2 ^ 63)) as [L|L].
    + rewrite W by lia. split; [|intros [H _]; discriminate]. lia.
    + rewrite Wm by lia. split; [|intros [H _]; discriminate]. lia.
  - rewrite W by lia. split; [intro H; split; [reflexivity|]|intros [_ H]]; lia.
Qed.
