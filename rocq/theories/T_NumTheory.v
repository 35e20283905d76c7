(* Property theorems: GCD, Mod, FactorInteger, Power, roots, Factorial
   (C14, C15, C16, C17, C18 value part). *)
From Verif Require Import M_Syntax M_Num M_NumTheory S_Num S_NumTheory P_Num P_NumTheory.
From Coq Require Import Znumtheory Permutation QArith.
Open Scope Z_scope.

(* ---- C14 ---- *)
(* GCD of any list of integers is the non-negative greatest common divisor *)
Theorem C14_gcd_greatest : forall zs, exists g, gcd_eval (map EInt zs) = Some (EInt g) /\ 0 <= g /\
  (forall z, In z zs -> (g | z)) /\ (forall d, (forall z, In z zs -> (d | z)) -> (d | g)).
Proof. exact gcd_eval_ints. Qed.
Print Assumptions C14_gcd_greatest.

(* the order and the multiplicity of the arguments do not matter *)
Theorem C14_gcd_order_independent : forall zs zs', (forall z, In z zs <-> In z zs') ->
  gcd_eval (map EInt zs) = gcd_eval (map EInt zs').
Proof.
  intros zs zs' P. destruct (gcd_eval_ints zs) as [g [E [G [A B]]]].
  destruct (gcd_eval_ints zs') as [g' [E' [G' [A' B']]]]. rewrite E, E'. do 2 f_equal.
  apply (gcd_unique zs); try assumption.
  - intros z Hz. apply A', P, Hz.
  - intros d H. apply B'. intros z Hz. apply H, P, Hz.
Qed.
Print Assumptions C14_gcd_order_independent.

Theorem C14_mod_positive : forall m n, 0 < n ->
  exists r k, mod_eval (EInt m) (EInt n) = Some (EInt r) /\ 0 <= r < n /\ m = k * n + r.
Proof.
  intros m n H. exists (m mod n), (m / n). unfold mod_eval, big_mod.
  destruct (Z.eqb_spec n 0); [lia|]. rewrite Z.abs_eq by lia. split; [reflexivity|].
  split; [apply Z.mod_pos_bound, H|]. rewrite Z.mul_comm. apply Z.div_mod. lia.
Qed.
Print Assumptions C14_mod_positive.

Theorem C14_mod_zero : forall m, mod_eval (EInt m) (EInt 0) = Some (sys "Indeterminate").
Proof. reflexivity. Qed.
Print Assumptions C14_mod_zero.

(* with a negative second argument the result should have its sign *)
Theorem C14_mod_negative_refuted : exists m n r, n < 0 /\
  mod_eval (EInt m) (EInt n) = Some (EInt r) /\ 0 < r.
Proof. exists 5, (-3), 2. repeat split; lia. Qed.
Print Assumptions C14_mod_negative_refuted.

Example C14_ex : gcd_eval (map EInt [12; 0; -18; 30]) = Some (EInt 6) /\ mod_eval (EInt (-7)) (EInt 3) = Some (EInt 2).
Proof. split; reflexivity. Qed.

(* ---- C15 ---- *)
(* for every n >= 2 the loop ends, and the factors are prime, in
   non-decreasing order, with product n *)
Theorem C15_prime_factors : forall n, 2 <= n -> exists f0, forall fuel, (f0 <= fuel)%nat ->
  exists l, prime_factors fuel n = Some l /\ zprod l = n /\ (forall p, In p l -> prime p) /\ nondecreasing l.
Proof.
  intros n Hn. exists (Z.to_nat n). intros fuel Hf. unfold prime_factors.
  destruct (Z.eqb_spec n 1); [lia|]. apply factor_loop_ok; lia.
Qed.
Print Assumptions C15_prime_factors.

Theorem C15_factor_tally : forall n, 2 <= n -> exists f0, forall fuel, (f0 <= fuel)%nat ->
  exists l, prime_factors fuel n = Some l /\ powprod (tally l) = n /\ increasing (map fst (tally l)) /\
  (forall p k, In (p, k) (tally l) -> prime p /\ (1 <= k)%N).
Proof.
  intros n Hn. destruct (C15_prime_factors n Hn) as [f0 F]. exists f0. intros fuel Hf.
  destruct (F fuel Hf) as [l [E [P [Pr Nd]]]]. exists l. split; [assumption|].
  split; [rewrite tally_prod; exact P|].
  destruct (tally_keys l [] Nd I) as [A B]; [intros p y []|].
  split; [exact A|]. intros p k H. split.
  - destruct (B p) as [[]|H2]; [|apply Pr, H2]. apply in_map_iff. exists (p, k). auto.
  - apply (tally_counts_pos l [] (fun _ _ F => match F with end) p k H).
Qed.
Print Assumptions C15_factor_tally.

(* on 0 and negative numbers the loop never ends *)
Theorem C15_nonpositive_diverges_refuted : forall n, n <= 0 -> forall fuel, prime_factors fuel n = None.
Proof.
  intros n Hn fuel. unfold prime_factors. destruct (Z.eqb_spec n 1); [lia|]. apply factor_loop_diverges, Hn.
Qed.
Print Assumptions C15_nonpositive_diverges_refuted.

Example C15_ex : prime_factors 400 360 = Some [2; 2; 2; 3; 3; 5] /\ tally [2; 2; 2; 3; 3; 5] = [(2, 3%N); (3, 2%N); (5, 1%N)].
Proof. split; reflexivity. Qed.

(* ---- C16 ---- *)
Theorem C16_power_positive : forall b e, 0 < e -> eval_rational_call (power_int b e) = EInt (b ^ e).
Proof.
  intros b e H. unfold power_int. destruct (Z.eqb_spec e 1) as [->|]; [rewrite Z.pow_1_r; reflexivity|].
  destruct (Z.eqb_spec e 0); [lia|]. destruct (Z.ltb_spec 0 e); [|lia]. cbn [andb].
  destruct (Z.eqb_spec b 0) as [->|]; [rewrite Z.pow_0_l by lia; reflexivity|reflexivity].
Qed.
Print Assumptions C16_power_positive.

(* the exact reciprocal, in canonical form *)
Theorem C16_power_negative : forall b e, b <> 0 -> e < 0 ->
  canonical_of (1 / inject_Z (b ^ (- e))) (eval_rational_call (power_int b e)).
Proof. exact power_int_neg. Qed.
Print Assumptions C16_power_negative.

Theorem C16_power_zero : forall b, b <> 0 -> power_int b 0 = EInt 1.
Proof. intros b H. unfold power_int. cbn. destruct (Z.eqb_spec b 0); [contradiction|reflexivity]. Qed.
Print Assumptions C16_power_zero.

Theorem C16_zero_base : power_int 0 0 = sys "Indeterminate" /\
  forall e, e < 0 -> eval_rational_call (power_int 0 e) = sys "ComplexInfinity".
Proof.
  split; [reflexivity|]. intros e He. unfold power_int.
  destruct (Z.eqb_spec e 1); [lia|]. destruct (Z.eqb_spec e 0); [lia|].
  destruct (Z.ltb_spec 0 e); [lia|]. cbn [andb]. rewrite Z.pow_0_l by lia. reflexivity.
Qed.
Print Assumptions C16_zero_base.

Example C16_ex : power_int (-3) 5 = EInt (-243) /\ eval_rational_call (power_int (-2) (-3)) = ERat (-1) 8.
Proof. split; reflexivity. Qed.

(* ---- C17 ---- *)
(* with enough steps the Newton iteration ends; it returns the positive root
   exactly when one exists *)
Theorem C17_nth_root : forall x n, 2 <= n -> 1 <= x -> exists f0, forall fuel, (f0 <= fuel)%nat ->
  (exists r, 1 <= r /\ r ^ n = x /\ nth_root fuel x n = Some (Some r)) \/
  ((forall r, r ^ n = x -> r < 0) /\ nth_root fuel x n = Some None).
Proof. exact nth_root_ok. Qed.
Print Assumptions C17_nth_root.

Lemma prod_pow bs m : 0 <= m ->
  zprod (map (fun '(b, (p, _)) => b ^ p) (map (fun '(k, b) => (b, (m * Z.of_N k, 0))) bs)) = (base_prod bs) ^ m.
Proof.
  intro Hm. induction bs as [|[k b] bs IH].
  - cbn. rewrite Z.pow_1_l by lia. reflexivity.
  - cbn [map]. rewrite zprod_cons, IH, base_prod_cons, Z.pow_mul_l, <- Z.pow_mul_r by lia. f_equal. f_equal. lia.
Qed.

(* x^(m/n) is rewritten to a product of b^(p/n) whose n-th power is x^m *)
Theorem C17_extract_power_value : forall fuel x m n l, 1 <= x -> 0 <= m ->
  extract_power fuel x m n = Some l ->
  (forall b p q, In (b, (p, q)) l -> q = n) /\ zprod (map (fun '(b, (p, _)) => b ^ p) l) = x ^ m.
Proof.
  intros fuel x m n l Hx Hm H. destruct (extract_power_prod fuel x m n l Hx H) as [bs [-> P]]. split.
  - intros b p q Hi. apply in_map_iff in Hi. destruct Hi as [[k b'] [E _]]. injection E as _ _ <-. reflexivity.
  - rewrite <- P, <- prod_pow by assumption. f_equal. rewrite !map_map. apply map_ext. intros [k b]. reflexivity.
Qed.
Print Assumptions C17_extract_power_value.

(* For a positive base the whole rewriting is exact: the n-th power of the
   value of the result is x^m. *)
Definition pow_factor (e : ex) : option (Z * (Z * Z)) :=
  match e with
  | EExpr [ESym s; EInt b; ERat p q] => if String.eqb s (sysname "Power") then Some (b, (p, q)) else None
  | EExpr [ESym s; EInt b; EInt p] => if String.eqb s (sysname "Power") then Some (b, (p, 1)) else None
  | EInt b => Some (b, (1, 1))
  | _ => None
  end.
(* e is an integer, a power or a product of integers and powers, and the n-th
   power of its value is v: all exponents are over a common denominator *)
Definition nth_pow_is (n : Z) (e : ex) (v : Z) : Prop :=
  exists l, Forall2 (fun f '(b, p) => exists num den, pow_factor f = Some (b, (num, den)) /\ 0 <= num /\ 0 < den /\ num * n = p * den)
                    (match e with EExpr (ESym s :: t) => if String.eqb s (sysname "Times") then t else [e] | _ => [e] end) l /\
            zprod (map (fun '(b, p) => b ^ p) l) = v.


Lemma tally_add_gt f t : existsb (fun '(_, k) => (1 <? k)%N) t = true -> existsb (fun '(_, k) => (1 <? k)%N) (tally_add f t) = true.
Proof.
  induction t as [|[g k] t IH]; [discriminate|]. cbn [existsb tally_add]. intro H.
  destruct (g =? f); cbn [existsb].
  - apply Bool.orb_true_iff in H. apply Bool.orb_true_iff. destruct H as [H|H]; [left|right; exact H].
    apply N.ltb_lt in H. apply N.ltb_lt. lia.
  - apply Bool.orb_true_iff in H. apply Bool.orb_true_iff. destruct H as [H|H]; [left; exact H|right; auto].
Qed.
Lemma tally_gt l : forall t, existsb (fun '(_, k) => (1 <? k)%N) t = true ->
  existsb (fun '(_, k) => (1 <? k)%N) (fold_left (fun t f => tally_add f t) l t) = true.
Proof. induction l as [|x l IH]; intros t H; [exact H|]. cbn [fold_left]. apply IH, tally_add_gt, H. Qed.

Lemma find_div_even k x : (2 | x) -> find_div (S k) 2 x = Some 2.
Proof. intro D. cbn. apply big_mod_div in D; [|lia]. rewrite D. reflexivity. Qed.

Lemma four_divides_tally fuel x fs : 1 <= x -> (4 | x) -> prime_factors fuel x = Some fs ->
  existsb (fun '(_, k) => (1 <? k)%N) (tally fs) = true.
Proof.
  intros Hx [q Eq] H. unfold prime_factors in H. destruct (Z.eqb_spec x 1); [lia|].
  destruct fuel as [|[|k]]; [discriminate| |].
  - cbn [factor_loop] in H. destruct (Z.eqb_spec x 1); [lia|]. rewrite find_div_even in H by (exists (2 * q); lia).
    discriminate.
  - cbn [factor_loop] in H. destruct (Z.eqb_spec x 1); [lia|]. rewrite find_div_even in H by (exists (2 * q); lia).
    assert (E2 : big_div x 2 = 2 * q) by (unfold big_div; rewrite Eq; replace (q * 4) with (2 * q * 2) by ring; apply Z.div_mul; lia).
    rewrite E2 in H. destruct (Z.eqb_spec (2 * q) 1); [lia|]. rewrite find_div_even in H by (exists q; lia).
    destruct (factor_loop k (big_div (2 * q) 2)) as [l|]; [|discriminate]. injection H as <-.
    unfold tally. cbn [fold_left tally_add]. rewrite Z.eqb_refl. apply tally_gt. reflexivity.
Qed.

Theorem C17_power_rational_positive_base : forall x m n, 1 <= x -> 0 < m -> 2 <= n ->
  exists f0, forall fuel, (f0 <= fuel)%nat ->
  forall e, power_rat fuel x m n = Some e -> nth_pow_is n e (x ^ m).
Proof.
  intros x m n Hx Hm Hn. destruct (nth_root_ok x n Hn Hx) as [f0 F]. exists (f0 + Z.to_nat x)%nat.
  intros fuel Hf e H. specialize (F fuel ltac:(lia)). unfold power_rat in H.
  destruct (Z.leb_spec 0 x); [|lia]. destruct (Z.ltb_spec 0 n); [|lia]. cbn [andb] in H.
  assert (X : forall l, extract_power fuel x m n = Some l ->
    nth_pow_is n (EExpr (sys "Times" :: map (fun '(b, (p, q)) => EExpr [sys "Power"; EInt b; ERat p q]) l)) (x ^ m)).
  { intros l E. destruct (C17_extract_power_value fuel x m n l Hx ltac:(lia) E) as [Q V].
    assert (PN : forall b p q, In (b, (p, q)) l -> 0 <= p).
    { destruct (extract_power_prod fuel x m n l Hx E) as [bs [-> _]]. intros b p q Hi. apply in_map_iff in Hi.
      destruct Hi as [[k b'] [Eq _]]. injection Eq as _ <- _. lia. }
    exists (map (fun '(b, (p, _)) => (b, p)) l). split.
    - cbn [sys]. rewrite String.eqb_refl. clear E V H F. induction l as [|[b [p q]] l IH]; [constructor|].
      cbn [map]. constructor.
      + exists p, q. split; [reflexivity|]. rewrite (Q b p q) by (left; reflexivity).
        split; [apply (PN b p q); left; reflexivity|]. lia.
      + apply IH; intros; [eapply Q|eapply PN]; right; eassumption.
    - rewrite map_map, <- V. f_equal. apply map_ext. intros [b [p q]]. reflexivity. }
  destruct F as [[r [R1 [R2 E]]]|[_ E]]; rewrite E in H.
  - injection H as <-. exists [(r, n * m)]. split.
    + destruct (Z.eqb_spec m 1) as [->|].
      * constructor; [|constructor]. exists 1, 1. split; [reflexivity|]. lia.
      * cbn [sys sysname]. cbn [String.eqb Ascii.eqb Bool.eqb append].
        constructor; [|constructor]. exists m, 1. split; [reflexivity|]. lia.
    + cbn [map]. rewrite zprod_cons. change (zprod []) with 1.
      rewrite Z.pow_mul_r, R2 by lia. ring.
  - destruct (extract_power fuel x m n) as [l|] eqn:El.
    + injection H as <-. apply X. reflexivity.
    + exfalso. assert (Pf : exists fs, prime_factors fuel x = Some fs).
      { unfold prime_factors. destruct (Z.eqb_spec x 1); [eexists; reflexivity|].
        destruct (factor_loop_ok fuel x) as [l [El2 _]]; [lia|lia|]. exists l; exact El2. }
      destruct Pf as [fs Pf]. unfold extract_power in El. rewrite Pf in El.
      unfold rad_simp in H. rewrite Z.abs_eq in H by lia.
      destruct (Z.eqb_spec (big_mod x (2 ^ n)) 0) as [D|]; [|discriminate].
      apply big_mod_div in D; [|apply Z.pow_pos_nonneg; lia].
      assert (D4 : (4 | x)).
      { apply (Z.divide_trans _ (2 ^ n)); [|assumption]. exists (2 ^ (n - 2)).
        change 4 with (2 ^ 2). rewrite <- Z.pow_add_r by lia. f_equal. lia. }
      rewrite (four_divides_tally fuel x fs Hx D4 Pf) in El. discriminate.
Qed.
Print Assumptions C17_power_rational_positive_base.

(* For a negative base the factor taken out of the root is not raised to the
   numerator: (-8)^(3/2) becomes 2 (-2)^(3/2), although the square of the first
   is -512 and that of the second is 4*(-8) = -32. *)
Theorem C17_negative_base_refuted : exists x m n ext r, x < 0 /\ 2 <= n /\ 0 < m /\ Z.gcd m n = 1 /\
  (forall fuel, power_rat fuel x m n =
     Some (EExpr [sys "Times"; EInt ext; EExpr [sys "Power"; EInt r; ERat m n]])) /\
  ext ^ n * r ^ m <> x ^ m.
Proof.
  exists (-8), 3, 2, 2, (-2). repeat split; try lia; reflexivity.
Qed.
Print Assumptions C17_negative_base_refuted.

(* For a negative base Power only takes out a factor 2 (or 1/2): the remaining
   radicand is exact and keeps the sign *)
Theorem C17_negative_base_radicand : forall fuel x m n e, x < 0 -> 2 <= n ->
  power_rat fuel x m n = Some e ->
  exists r c, e = EExpr [sys "Times"; c; EExpr [sys "Power"; EInt r; ERat m n]] /\ x = 2 ^ n * r /\
    c = if m <? 0 then ERat 1 2 else EInt 2.
Proof.
  intros fuel x m n e Hx Hn H. unfold power_rat, rad_simp in H.
  destruct (Z.leb_spec 0 x); [lia|]. cbn [andb] in H. destruct (Z.ltb_spec 0 n); [|lia].
  assert (P : 0 < 2 ^ n) by (apply Z.pow_pos_nonneg; lia).
  destruct (Z.eqb_spec (big_mod (Z.abs x) (2 ^ n)) 0) as [E|]; [|discriminate].
  injection H as <-. exists (- big_div (Z.abs x) (2 ^ n)), (if m <? 0 then ERat 1 2 else EInt 2).
  destruct (Z.ltb_spec x 0); [|lia]. split; [reflexivity|]. split; [|reflexivity].
  unfold big_mod, big_div in *. rewrite (Z.abs_eq (2 ^ n)) in E by lia.
  pose proof (Z.div_mod (Z.abs x) (2 ^ n) ltac:(lia)) as D. rewrite E in D. set (q := Z.abs x / 2 ^ n) in *. lia.
Qed.
Print Assumptions C17_negative_base_radicand.
Example C17_negative_base_ex : power_rat 10 (-12) 1 2 = Some (EExpr [sys "Times"; EInt 2; EExpr [sys "Power"; EInt (-3); ERat 1 2]]).
Proof. reflexivity. Qed.

Example C17_ex : nth_root 20 1024 5 = Some (Some 4) /\ nth_root 50 1000 2 = Some None /\
  power_rat 100 12 1 2 = Some (EExpr [sys "Times"; EExpr [sys "Power"; EInt 2; ERat 2 2]; EExpr [sys "Power"; EInt 3; ERat 1 2]]).
Proof. repeat split; reflexivity. Qed.

(* ---- C18: the value; the effect on the argument is in T_Heap.v ---- *)
Theorem C18_factorial_value : forall n, 0 <= n ->
  factorial_eval n = EInt (zprod (map Z.of_nat (seq 1 (Z.to_nat n)))).
Proof.
  intros n H. unfold factorial_eval. destruct (Z.ltb_spec n 0); [lia|]. rewrite fact_loop_ok. reflexivity.
Qed.
Print Assumptions C18_factorial_value.

Example C18_ex : factorial_eval 20 = EInt 2432902008176640000.
Proof. reflexivity. Qed.
