From Verif Require Import M_Syntax M_Num M_NumTheory S_Num S_NumTheory P_Num.
From Coq Require Import Znumtheory Permutation QArith.
Open Scope Z_scope.

(* ---- gcd ---- *)
Lemma fold_gcd l : forall g, 0 <= g ->
  0 <= fold_left Z.gcd l g /\ (fold_left Z.gcd l g | g) /\ (forall z, In z l -> (fold_left Z.gcd l g | z)) /\
  (forall d, (d | g) -> (forall z, In z l -> (d | z)) -> (d | fold_left Z.gcd l g)).
Proof.
  induction l as [|x t IH]; intros g Hg; cbn [fold_left].
  - split; [assumption|]. split; [apply Z.divide_refl|]. split; [intros z []|]. intros d H _. exact H.
  - destruct (IH (Z.gcd g x) (Z.gcd_nonneg g x)) as [H1 [H2 [H3 H4]]].
    split; [assumption|]. split; [apply (Z.divide_trans _ _ _ H2), Z.gcd_divide_l|]. split.
    + intros z [<-|Hz]; [apply (Z.divide_trans _ _ _ H2), Z.gcd_divide_r|auto].
    + intros d Hd H. apply H4; [apply Z.gcd_greatest; [assumption|apply H; left; reflexivity]|].
      intros; apply H; right; assumption.
Qed.

Lemma all_ints_map zs : all_ints (map EInt zs) = Some zs.
Proof. induction zs as [|z t IH]; [reflexivity|]. cbn. rewrite IH. reflexivity. Qed.

Lemma gcd_eval_ints zs : exists g, gcd_eval (map EInt zs) = Some (EInt g) /\ 0 <= g /\
  (forall z, In z zs -> (g | z)) /\ (forall d, (forall z, In z zs -> (d | z)) -> (d | g)).
Proof.
  unfold gcd_eval. rewrite all_ints_map.
  destruct (map Z.abs (filter (fun z => negb (z =? 0)) zs)) as [|g0 t] eqn:E.
  - exists 0. split; [reflexivity|]. split; [lia|]. split.
    + intros z Hz. destruct (Z.eq_dec z 0) as [->|N]; [apply Z.divide_refl|].
      assert (In (Z.abs z) []) as []. rewrite <- E. apply in_map, filter_In. split; [assumption|].
      destruct (Z.eqb_spec z 0); [contradiction|reflexivity].
    + intros d _. apply Z.divide_0_r.
  - assert (P : forall y, In y (g0 :: t) -> exists z, In z zs /\ y = Z.abs z).
    { intros y Hy. rewrite <- E in Hy. apply in_map_iff in Hy. destruct Hy as [z [<- Hz]].
      apply filter_In in Hz. exists z. tauto. }
    assert (G0 : 0 <= g0) by (destruct (P g0 (or_introl eq_refl)) as [z [_ ->]]; lia).
    destruct (fold_gcd t g0 G0) as [H1 [H2 [H3 H4]]].
    exists (fold_left Z.gcd t g0). split; [reflexivity|]. split; [assumption|]. split.
    + intros z Hz. destruct (Z.eq_dec z 0) as [->|N]; [apply Z.divide_0_r|].
      apply Z.divide_abs_r. assert (I : In (Z.abs z) (g0 :: t)).
      { rewrite <- E. apply in_map, filter_In. split; [assumption|]. destruct (Z.eqb_spec z 0); [contradiction|reflexivity]. }
      destruct I as [<-|I]; auto.
    + intros d Hd. apply H4.
      * destruct (P g0 (or_introl eq_refl)) as [z [Hz ->]]. apply Z.divide_abs_r. auto.
      * intros y Hy. destruct (P y (or_intror Hy)) as [z [Hz ->]]. apply Z.divide_abs_r. auto.
Qed.

Lemma gcd_unique zs g g' : 0 <= g -> 0 <= g' ->
  (forall z, In z zs -> (g | z)) -> (forall d, (forall z, In z zs -> (d | z)) -> (d | g)) ->
  (forall z, In z zs -> (g' | z)) -> (forall d, (forall z, In z zs -> (d | z)) -> (d | g')) -> g = g'.
Proof.
  intros H H' A B A' B'. apply Z.divide_antisym_nonneg; auto.
Qed.

(* ---- smallest divisor ---- *)
Lemma big_mod_div n i : 0 < i -> (big_mod n i = 0 <-> (i | n)).
Proof.
  intro H. unfold big_mod. rewrite Z.abs_eq by lia. rewrite Z.mod_divide by lia. reflexivity.
Qed.

Lemma find_div_spec n : 2 <= n -> forall fuel i, 2 <= i <= n -> n - i < Z.of_nat fuel ->
  (forall j, 2 <= j < i -> ~ (j | n)) ->
  exists d, find_div fuel i n = Some d /\ i <= d <= n /\ (d | n) /\ (forall j, 2 <= j < d -> ~ (j | n)).
Proof.
  intro Hn. induction fuel as [|k IH]; intros i Hi Hf Hj; [lia|].
  cbn [find_div]. destruct (Z.eqb_spec (big_mod n i) 0) as [E|E].
  - exists i. split; [reflexivity|]. split; [lia|]. split; [apply big_mod_div; [lia|assumption]|assumption].
  - assert (Ni : ~ (i | n)) by (intro D; apply E, big_mod_div; [lia|assumption]).
    assert (i <> n) by (intros ->; apply Ni, Z.divide_refl).
    destruct (IH (i + 1)) as [d [H1 [H2 H3]]]; [lia|lia| |].
    + intros j Hjj. destruct (Z.eq_dec j i) as [->|]; [assumption|apply Hj; lia].
    + exists d. split; [assumption|]. split; [lia|assumption].
Qed.

Lemma least_div_prime n d : 2 <= d -> (d | n) -> (forall j, 2 <= j < d -> ~ (j | n)) -> prime d.
Proof.
  intros Hd D H. apply prime_alt. split; [lia|]. intros m Hm Dm.
  apply (H m); [lia|]. apply (Z.divide_trans _ d); assumption.
Qed.

Lemma zprod_cons x l : zprod (x :: l) = x * zprod l. Proof. reflexivity. Qed.
Definition min_div (n d : Z) : Prop := forall j, 2 <= j -> (j | n) -> d <= j.

Lemma factor_loop_ok : forall fuel n, 1 <= n -> n <= Z.of_nat fuel ->
  exists l, factor_loop fuel n = Some l /\ zprod l = n /\ (forall p, In p l -> prime p) /\ nondecreasing l.
Proof.
  induction fuel as [|k IH]; intros n Hn Hf; [lia|].
  cbn [factor_loop]. destruct (Z.eqb_spec n 1) as [->|N].
  - exists []. split; [reflexivity|]. split; [reflexivity|]. split; [intros p []|exact I].
  - destruct (find_div_spec n ltac:(lia) (S k) 2) as [d [E [Hd [D Hj]]]]; [lia|lia|intros; lia|].
    rewrite E. destruct D as [q Eq].
    assert (Eq' : big_div n d = q) by (unfold big_div; rewrite Eq; apply Z.div_mul; lia).
    assert (Q1 : 1 <= q) by nia. assert (Qn : q <= Z.of_nat k) by nia.
    rewrite Eq'. destruct (IH q Q1 Qn) as [l [El [P [Pr Nd]]]]. rewrite El.
    exists (d :: l). split; [reflexivity|]. split; [rewrite zprod_cons; lia|]. split.
    + intros p [<-|Hp]; [|auto]. apply (least_div_prime n); [lia|exists q; assumption|assumption].
    + destruct l as [|e l']; [exact I|]. split; [|exact Nd].
      destruct (Z.le_gt_cases d e) as [L|G]; [assumption|]. exfalso.
      assert (Pe : prime e) by (apply Pr; left; reflexivity). destruct Pe as [Pe _].
      apply (Hj e); [lia|]. rewrite Eq, <- P, zprod_cons. exists (zprod l' * d). ring.
Qed.

Lemma find_div_none n i : (forall j, i <= j -> big_mod n j <> 0) -> forall fuel, find_div fuel i n = None.
Proof.
  intros H fuel. revert i H. induction fuel as [|k IH]; intros i H; [reflexivity|].
  cbn. destruct (Z.eqb_spec (big_mod n i) 0) as [E|_]; [exfalso; apply (H i); [lia|assumption]|].
  apply IH. intros; apply H; lia.
Qed.

Lemma factor_loop_diverges : forall fuel n, n <= 0 -> factor_loop fuel n = None.
Proof.
  induction fuel as [|k IH]; intros n Hn; [reflexivity|].
  cbn [factor_loop]. destruct (Z.eqb_spec n 1); [lia|].
  destruct (find_div (S k) 2 n) as [i|] eqn:E; [|reflexivity].
  assert (Hi : 2 <= i).
  { assert (G : forall f j r, find_div f j n = Some r -> j <= r).
    { induction f as [|f IHf]; intros j r H; [discriminate|]. cbn in H. destruct (_ =? 0).
      - injection H as <-. lia.
      - apply IHf in H. lia. }
    apply (G _ _ _ E). }
  rewrite IH; [reflexivity|]. unfold big_div. apply Z.div_le_upper_bound; lia.
Qed.

(* ---- tally ---- *)
Lemma powprod_cons p k l : powprod ((p, k) :: l) = p ^ Z.of_N k * powprod l. Proof. reflexivity. Qed.
Lemma tally_add_prod f t : powprod (tally_add f t) = powprod t * f.
Proof.
  induction t as [|[g k] r IH]; cbn [tally_add].
  - rewrite powprod_cons. change (Z.of_N 1) with 1. rewrite Z.pow_1_r. cbn [powprod fold_right]. ring.
  - destruct (Z.eqb_spec g f) as [->|].
    + rewrite !powprod_cons. rewrite N2Z.inj_add. change (Z.of_N 1) with 1.
      rewrite Z.pow_add_r by lia. ring.
    + rewrite !powprod_cons, IH. ring.
Qed.
Lemma tally_prod_gen l : forall t, powprod (fold_left (fun t f => tally_add f t) l t) = powprod t * zprod l.
Proof.
  induction l as [|x l IH]; intro t; cbn [fold_left]; [cbn [zprod fold_right]; ring|].
  rewrite IH, tally_add_prod, zprod_cons. ring.
Qed.
Lemma tally_prod l : powprod (tally l) = zprod l.
Proof. unfold tally. rewrite tally_prod_gen. cbn [powprod fold_right]. ring. Qed.

(* keys of the tally of a nondecreasing list *)
Lemma tally_add_last f t : increasing (map fst t) -> (forall p, In p (map fst t) -> p <= f) ->
  increasing (map fst (tally_add f t)) /\ (forall p, In p (map fst (tally_add f t)) -> p <= f) /\
  (forall p k, In (p, k) (tally_add f t) -> p = f \/ exists k', In (p, k') t).
Proof.
  induction t as [|[g k] r IH]; intros Hi Hb; cbn [tally_add].
  - split; [exact I|]. split; [intros p [H|[]]; cbn in H; lia|]. intros p k [E|[]]. injection E as <- <-. left; reflexivity.
  - destruct (Z.eqb_spec g f) as [->|N].
    + split; [exact Hi|]. split; [exact Hb|]. intros p k' [E|H]; [injection E as <- <-; left; reflexivity|].
      right. exists k'. right; assumption.
    + assert (Hi' : increasing (map fst r)) by (destruct r as [|[? ?] ?]; [exact I|apply Hi]).
      destruct (IH Hi') as [A [B C]]; [intros p Hp; apply Hb; right; assumption|].
      split; [|split].
      * cbn [map fst]. destruct (tally_add f r) as [|[g2 k2] r2] eqn:E; [exact I|].
        split; [|exact A]. destruct (C g2 k2 (or_introl eq_refl)) as [->|[k' H]].
        -- cbn [fst]. assert (g <= f) by (apply Hb; left; reflexivity). lia.
        -- assert (G : forall l p q, increasing (p :: l) -> In q l -> p < q).
           { clear. induction l as [|y l IH]; intros p q H I; [destruct I|]. destruct H as [H1 H2].
             destruct I as [<-|I]; [assumption|]. specialize (IH y q H2 I). lia. }
           apply (G (map fst r) g g2); [exact Hi|]. apply in_map_iff. exists (g2, k'). auto.
      * intros p [<-|Hp]; [apply Hb; left; reflexivity|apply B, Hp].
      * intros p k' [E|H]; [injection E as <- <-; right; exists k; left; reflexivity|].
        destruct (C p k' H) as [->|[k2 H2]]; [left; reflexivity|right; exists k2; right; assumption].
Qed.

Lemma nondec_le l : forall x, nondecreasing (x :: l) -> forall y, In y l -> x <= y.
Proof.
  induction l as [|z l IH]; intros x H y Hy; [destruct Hy|]. destruct H as [H1 H2].
  destruct Hy as [<-|Hy]; [assumption|]. specialize (IH z H2 y Hy). lia.
Qed.
Lemma nondec_tail x l : nondecreasing (x :: l) -> nondecreasing l.
Proof. destruct l; [constructor|intros [_ H]; exact H]. Qed.

Lemma tally_keys l : forall t, nondecreasing l -> increasing (map fst t) ->
  (forall p y, In p (map fst t) -> In y l -> p <= y) ->
  increasing (map fst (fold_left (fun t f => tally_add f t) l t)) /\
  (forall p, In p (map fst (fold_left (fun t f => tally_add f t) l t)) -> In p (map fst t) \/ In p l).
Proof.
  induction l as [|x l IH]; intros t Hn Hi Hb; cbn [fold_left].
  - split; [exact Hi|]. auto.
  - destruct (tally_add_last x t Hi) as [A [B C]]; [intros p Hp; apply (Hb p x Hp); left; reflexivity|].
    destruct (IH (tally_add x t)) as [D E].
    + apply (nondec_tail x), Hn.
    + exact A.
    + intros p y Hp Hy. specialize (B p Hp). pose proof (nondec_le l x Hn y Hy). lia.
    + split; [exact D|]. intros p Hp. destruct (E p Hp) as [H|H]; [|right; right; assumption].
      apply in_map_iff in H. destruct H as [[q k] [<- Hq]]. cbn.
      destruct (C q k Hq) as [->|[k' H]]; [right; left; reflexivity|].
      left. apply in_map_iff. exists (q, k'). auto.
Qed.

Lemma tally_counts f t : (forall p k, In (p, k) t -> (1 <= k)%N) -> forall p k, In (p, k) (tally_add f t) -> (1 <= k)%N.
Proof.
  induction t as [|[g j] r IH]; intros H p k Hp; cbn [tally_add] in Hp.
  - destruct Hp as [E|[]]. injection E as <- <-. lia.
  - destruct (g =? f).
    + destruct Hp as [E|Hp]; [injection E as <- <-; specialize (H g j (or_introl eq_refl)); lia|apply (H p k); right; assumption].
    + destruct Hp as [E|Hp]; [injection E as <- <-; apply (H g j); left; reflexivity|].
      apply (IH (fun p k I => H p k (or_intror I)) p k Hp).
Qed.
Lemma tally_counts_pos l : forall t, (forall p k, In (p, k) t -> (1 <= k)%N) ->
  forall p k, In (p, k) (fold_left (fun t f => tally_add f t) l t) -> (1 <= k)%N.
Proof.
  induction l as [|x l IH]; intros t H; cbn [fold_left]; [exact H|]. apply IH. apply tally_counts, H.
Qed.

(* ---- bases of extractPower ---- *)
Definition base_prod (m : list (N * Z)) : Z := fold_right (fun '(k, b) r => b ^ Z.of_N k * r) 1 m.
Lemma base_prod_cons k b m : base_prod ((k, b) :: m) = b ^ Z.of_N k * base_prod m. Proof. reflexivity. Qed.
Lemma add_base_prod k f m : base_prod (add_base k f m) = base_prod m * f ^ Z.of_N k.
Proof.
  induction m as [|[k' b] r IH]; cbn [add_base].
  - rewrite base_prod_cons. cbn [base_prod fold_right]. ring.
  - destruct (N.eqb_spec k' k) as [->|].
    + rewrite !base_prod_cons, Z.pow_mul_l. ring.
    + rewrite !base_prod_cons, IH. ring.
Qed.
Lemma bases_prod_gen t : forall m, base_prod (fold_left (fun m '(f, k) => add_base k f m) t m) = base_prod m * powprod t.
Proof.
  induction t as [|[f k] t IH]; intro m; cbn [fold_left]; [cbn [powprod fold_right]; ring|].
  rewrite IH, add_base_prod, powprod_cons. ring.
Qed.
Lemma bases_prod t : base_prod (bases_of t) = powprod t.
Proof. unfold bases_of. rewrite bases_prod_gen. cbn [base_prod fold_right]. ring. Qed.

Lemma prime_factors_prod fuel x l : prime_factors fuel x = Some l -> 1 <= x -> zprod l = x.
Proof.
  unfold prime_factors. destruct (Z.eqb_spec x 1) as [->|N].
  - intro H. injection H as <-. reflexivity.
  - revert x N l. induction fuel as [|k IH]; intros x N l H Hx; [discriminate|].
    cbn [factor_loop] in H. destruct (Z.eqb_spec x 1); [contradiction|].
    destruct (find_div (S k) 2 x) as [i|] eqn:E; [|discriminate].
    assert (Hd : 2 <= i /\ (i | x)).
    { assert (G : forall f j r, 2 <= j -> find_div f j x = Some r -> 2 <= r /\ (r | x)).
      { induction f as [|f IHf]; intros j r Hj Hf; [discriminate|]. cbn in Hf.
        destruct (Z.eqb_spec (big_mod x j) 0) as [Em|_].
        - injection Hf as <-. split; [assumption|]. apply big_mod_div; [lia|assumption].
        - apply (IHf (j + 1)); [lia|assumption]. }
      apply (G (S k) 2 i); [lia|exact E]. }
    destruct Hd as [Hi [q Eq]].
    assert (Eq' : big_div x i = q) by (unfold big_div; rewrite Eq; apply Z.div_mul; lia).
    rewrite Eq' in H. destruct (factor_loop k q) as [l'|] eqn:El; [|discriminate]. injection H as <-.
    assert (Q1 : 1 <= q) by nia. rewrite zprod_cons.
    destruct (Z.eq_dec q 1) as [->|Nq].
    + destruct k; [discriminate|]. cbn in El. injection El as <-. cbn. lia.
    + rewrite (IH q Nq l' El Q1). lia.
Qed.

Lemma extract_power_prod fuel x m n l : 1 <= x -> extract_power fuel x m n = Some l ->
  exists bs, l = map (fun '(k, b) => (b, (m * Z.of_N k, n))) bs /\ base_prod bs = x.
Proof.
  intros Hx H. unfold extract_power in H. destruct (prime_factors fuel x) as [fs|] eqn:E; [|discriminate].
  destruct (existsb _ _); [|discriminate]. injection H as <-.
  exists (bases_of (tally fs)). split; [reflexivity|].
  rewrite bases_prod, tally_prod. apply (prime_factors_prod fuel); assumption.
Qed.

(* ---- powers ---- *)
Lemma power_int_neg b e : b <> 0 -> e < 0 ->
  canonical_of (1 / inject_Z (b ^ (- e))) (eval_rational_call (power_int b e)).
Proof.
  intros Hb He. unfold power_int.
  destruct (Z.eqb_spec e 1); [lia|]. destruct (Z.eqb_spec e 0); [lia|].
  destruct (Z.ltb_spec 0 e); [lia|]. cbn [andb].
  rewrite Z.abs_neq by lia. set (nb := b ^ - e).
  assert (Hnb : nb <> 0) by (apply Z.pow_nonzero; [assumption|lia]).
  assert (C : canonical_of (1 / inject_Z nb) (eval_rational 1 nb)).
  { apply (eval_rational_canonical 1 nb Hnb). }
  destruct (Z.eqb_spec nb 1) as [E1|]; [rewrite E1 in C |- *; exact C|].
  destruct (Z.eqb_spec nb (-1)) as [E2|]; [rewrite E2 in C |- *; exact C|].
  cbn [eval_rational_call sys]. rewrite String.eqb_refl. exact C.
Qed.

(* ---- Newton ---- *)
Lemma bernoulli n s z : (1 <= n)%nat -> 0 <= s -> 0 <= z ->
  Z.of_nat n * s * z ^ (Z.of_nat n - 1) <= s ^ Z.of_nat n + (Z.of_nat n - 1) * z ^ Z.of_nat n.
Proof.
  intros Hn Hs Hz. induction n as [|[|n] IH]; [lia| |].
  - change (Z.of_nat 1) with 1. rewrite !Z.pow_1_r. cbn [Z.sub Z.pos_sub Z.add Z.opp]. rewrite Z.pow_0_r. lia.
  - assert (IH' := IH ltac:(lia)). clear IH Hn.
    rewrite (Nat2Z.inj_succ (S n)). set (N := Z.of_nat (S n)) in *.
    assert (HN : 1 <= N) by lia.
    replace (Z.succ N - 1) with N by lia. replace (Z.succ N) with (N + 1) by lia.
    assert (EZ : z ^ N = z ^ (N - 1) * z) by (rewrite Z.mul_comm, <- Z.pow_succ_r by lia; f_equal; lia).
    rewrite !Z.pow_add_r, !Z.pow_1_r by lia.
    rewrite !EZ in *. clear EZ.
    set (w := z ^ (N - 1)) in *. assert (Hw : 0 <= w) by (apply Z.pow_nonneg; assumption).
    set (p := s ^ N) in *.
    assert (s * (N * s * w) <= s * (p + (N - 1) * (w * z))) by (apply Z.mul_le_mono_nonneg_l; assumption).
    assert (0 <= N * w * ((s - z) * (s - z))) by (apply Z.mul_nonneg_nonneg; [nia|apply Z.square_nonneg]).
    nia.
Qed.

Lemma bernoulliZ n s z : 1 <= n -> 0 <= s -> 0 <= z ->
  n * s * z ^ (n - 1) <= s ^ n + (n - 1) * z ^ n.
Proof.
  intros. replace n with (Z.of_nat (Z.to_nat n)) by lia. apply bernoulli; lia.
Qed.

(* one step never goes below the integer root *)
Lemma root_step_lower x n z s : 1 <= n -> 1 <= z -> 0 <= s -> 0 <= x -> s ^ n <= x -> s <= root_step x n z.
Proof.
  intros Hn Hz Hs Hx Hsx. unfold root_step.
  assert (Pz : 0 < z ^ (n - 1)) by (apply Z.pow_pos_nonneg; lia).
  rewrite Z.quot_div_nonneg by lia.
  apply Z.div_le_lower_bound; [lia|].
  assert (n * s - (n - 1) * z <= x / z ^ (n - 1)); [|lia].
  apply Z.div_le_lower_bound; [assumption|].
  pose proof (bernoulliZ n s z Hn Hs ltac:(lia)) as B.
  replace (z ^ n) with (z ^ (n - 1) * z) in B by (rewrite Z.mul_comm, <- Z.pow_succ_r by lia; f_equal; lia).
  nia.
Qed.
Lemma root_step_upper x n z : 2 <= n -> 1 <= z -> 0 <= x -> x < z ^ n -> root_step x n z < z.
Proof.
  intros Hn Hz Hx Hxz. unfold root_step.
  assert (Pz : 0 < z ^ (n - 1)) by (apply Z.pow_pos_nonneg; lia).
  rewrite Z.quot_div_nonneg by lia.
  apply Z.div_lt_upper_bound; [lia|].
  assert (x / z ^ (n - 1) < z); [|nia].
  apply Z.div_lt_upper_bound; [assumption|].
  replace (z ^ n) with (z ^ (n - 1) * z) in Hxz by (rewrite Z.mul_comm, <- Z.pow_succ_r by lia; f_equal; lia).
  exact Hxz.
Qed.

Lemma int_root_exists x n : 1 <= x -> 1 <= n -> exists s, 1 <= s /\ s ^ n <= x < (s + 1) ^ n.
Proof.
  intros Hx Hn.
  assert (G : forall k, exists s, 1 <= s /\ s ^ n <= x /\ (x < (s + 1) ^ n \/ s >= Z.of_nat k)).
  { induction k as [|k [s [S1 [S2 S3]]]].
    - exists 1. split; [lia|]. split; [rewrite Z.pow_1_l; lia|right; lia].
    - destruct S3 as [S3|S3]; [exists s; auto|].
      destruct (Z.lt_ge_cases x ((s + 1) ^ n)) as [L|L]; [exists s; auto|].
      exists (s + 1). split; [lia|]. split; [assumption|right; lia]. }
  destruct (G (Z.to_nat (x + 1))) as [s [S1 [S2 [S3|S3]]]]; [exists s; lia|].
  exfalso. assert (s <= s ^ n).
  { rewrite <- (Z.pow_1_r s) at 1. apply Z.pow_le_mono_r; lia. }
  lia.
Qed.

Lemma root_loop_ok x n s : 2 <= n -> 1 <= x -> 1 <= s -> s ^ n <= x < (s + 1) ^ n ->
  forall fuel z, s <= z -> z - s < Z.of_nat fuel ->
  root_loop fuel x n z = Some (if s ^ n =? x then Some s else None).
Proof.
  intros Hn Hx Hs Hr. induction fuel as [|k IH]; intros z Hz Hf; [lia|].
  cbn [root_loop]. cbv zeta.
  assert (L : s <= root_step x n z) by (apply root_step_lower; lia).
  destruct (Z.leb_spec z (root_step x n z)) as [H|H].
  - assert (z = s) as ->; [|reflexivity].
    destruct (Z.eq_dec z s) as [|N]; [assumption|]. exfalso.
    assert (x < z ^ n) by (assert ((s + 1) ^ n <= z ^ n) by (apply Z.pow_le_mono_l; lia); lia).
    pose proof (root_step_upper x n z Hn ltac:(lia) ltac:(lia) H0). lia.
  - apply IH; lia.
Qed.

Lemma guess_ge x n s : 2 <= n -> 1 <= x -> 1 <= s -> s ^ n <= x -> s <= 2 ^ (bitlen x / 2 + 1).
Proof.
  intros Hn Hx Hs Hr. unfold bitlen. destruct (Z.eqb_spec x 0); [lia|]. rewrite Z.abs_eq by lia.
  assert (B : x < 2 ^ (Z.log2 x + 1)) by (apply Z.log2_spec; lia).
  set (L := Z.log2 x + 1) in *. assert (L0 : 0 <= L) by (unfold L; pose proof (Z.log2_nonneg x); lia).
  assert (S2 : s * s <= s ^ n).
  { replace (s * s) with (s ^ 2) by ring. apply Z.pow_le_mono_r; lia. }
  assert (D : L <= 2 * (L / 2) + 1) by (pose proof (Z.mod_pos_bound L 2 ltac:(lia)); pose proof (Z.div_mod L 2 ltac:(lia)); lia).
  assert (0 <= L / 2) by (apply Z.div_pos; lia).
  assert (P : 2 ^ L <= 2 ^ (L / 2 + 1) * 2 ^ (L / 2 + 1)).
  { rewrite <- Z.pow_add_r by lia. apply Z.pow_le_mono_r; lia. }
  assert (0 <= 2 ^ (L / 2 + 1)) by (apply Z.pow_nonneg; lia).
  nia.
Qed.

Lemma nth_root_ok x n : 2 <= n -> 1 <= x -> exists f0, forall fuel, (f0 <= fuel)%nat ->
  (exists r, 1 <= r /\ r ^ n = x /\ nth_root fuel x n = Some (Some r)) \/
  ((forall r, r ^ n = x -> r < 0) /\ nth_root fuel x n = Some None).
Proof.
  intros Hn Hx. destruct (int_root_exists x n Hx ltac:(lia)) as [s [Hs Hr]].
  exists (Z.to_nat (2 ^ (bitlen x / 2 + 1) - s + 1)). intros fuel Hf.
  pose proof (guess_ge x n s Hn Hx Hs (proj1 Hr)) as G.
  unfold nth_root. destruct (Z.eqb_spec x 0); [lia|].
  rewrite (root_loop_ok x n s Hn Hx Hs Hr fuel); [|assumption|lia].
  destruct (Z.eqb_spec (s ^ n) x) as [E|E].
  - left. exists s. auto.
  - right. split; [|reflexivity]. intros r Hr2.
    destruct (Z.lt_ge_cases r 0) as [|R0]; [assumption|]. exfalso. apply E.
    assert (r = s) as <-; [|assumption].
    destruct (Z.lt_trichotomy r s) as [L|[Eq|L]]; [|assumption|].
    + assert (r ^ n < s ^ n) by (apply Z.pow_lt_mono_l; lia). lia.
    + assert ((s + 1) ^ n <= r ^ n) by (apply Z.pow_le_mono_l; lia). lia.
Qed.

Lemma rad_simp_ok x n e r : 0 <= n -> rad_simp x n = Some (e, r) -> e ^ n * r = x.
Proof.
  intros Hn H. unfold rad_simp in H.
  destruct (Z.eqb_spec (big_mod x (2 ^ n)) 0) as [E|]; [|discriminate]. injection H as <- <-.
  assert (P : 0 < 2 ^ n) by (apply Z.pow_pos_nonneg; lia).
  apply big_mod_div in E; [|assumption]. destruct E as [q ->]. unfold big_div. rewrite Z.div_mul by lia. ring.
Qed.

Lemma fact_loop_ok n : fact_loop n = zprod (map Z.of_nat (seq 1 n)).
Proof.
  assert (A : forall l l', zprod (l ++ l') = zprod l * zprod l').
  { induction l as [|x l IH]; intro l'; [cbn [app]; change (zprod []) with 1; ring|].
    cbn [app]. rewrite !zprod_cons, IH. ring. }
  induction n as [|n IH]; [reflexivity|].
  cbn [fact_loop]. rewrite seq_S, map_app, A, <- IH.
  cbn [map plus]. rewrite zprod_cons. change (zprod []) with 1. ring.
Qed.
