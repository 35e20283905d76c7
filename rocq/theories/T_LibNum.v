(* Property theorems: digits (C66), FactorInteger (C67), EulerPhi (C68),
   Fibonacci (C69), GCD/LCM/Mod and parts of rationals (C70). *)
From Verif Require Import M_Syntax M_Num M_NumTheory M_LibNum S_NumTheory S_LibNum P_NumTheory P_LibNum P_LibNum2 P_LibNum3.
From Coq Require Import QArith Qabs Qround Znumtheory.
Open Scope Z_scope.

(* ---- C66 ---- *)
(* IntegerDigits ends, and gives the only digit list without leading zero that
   denotes |n| *)
Theorem C66_integer_digits : forall n base, 2 <= base -> exists f0, forall fuel, (f0 <= fuel)%nat ->
  exists ds, integer_digits fuel n base = Some ds /\ digits_ok base ds /\ no_leading_zero ds /\
    numeral base ds = Z.abs n /\
    (forall ds', digits_ok base ds' -> no_leading_zero ds' -> numeral base ds' = Z.abs n -> ds' = ds).
Proof.
  intros n base Hb. exists (S (Z.to_nat (Z.abs n))). intros fuel Hf. unfold integer_digits.
  destruct (digits_loop_ok base Hb fuel (Z.abs n) []) as [ds [E [V [R L]]]]; [lia|lia|].
  exists ds. rewrite E, app_nil_r. split; [reflexivity|]. split; [exact R|]. split; [exact L|]. split; [exact V|].
  intros ds' R' L' V'. apply (numeral_unique base); auto; [|congruence].
  apply Nat.le_antisymm; apply (numeral_length base); auto; congruence.
Qed.
Print Assumptions C66_integer_digits.

(* FromDigits evaluates the numeral; the digits may be arbitrary integers *)
Theorem C66_from_digits : forall ds base, base <> 0 -> from_digits ds base = numeral base ds.
Proof. intros ds base _. unfold from_digits. rewrite from_digits_gen. lia. Qed.
Print Assumptions C66_from_digits.

Theorem C66_round_trip : forall n base, 2 <= base -> exists f0, forall fuel, (f0 <= fuel)%nat ->
  exists ds, integer_digits fuel n base = Some ds /\ from_digits ds base = Z.abs n.
Proof.
  intros n base Hb. destruct (C66_integer_digits n base Hb) as [f0 F]. exists f0. intros fuel Hf.
  destruct (F fuel Hf) as [ds [E [_ [_ [V _]]]]]. exists ds. split; [exact E|]. rewrite C66_from_digits by lia. exact V.
Qed.
Print Assumptions C66_round_trip.

(* base 1 is accepted (it is Positive) and the loop never ends *)
Theorem C66_base_one_refuted : forall n, n <> 0 -> forall fuel, integer_digits fuel n 1 = None.
Proof. intros n H fuel. apply digits_diverge. lia. Qed.
Print Assumptions C66_base_one_refuted.

Example C66_ex : integer_digits 200 (-123) 2 = Some [1; 1; 1; 1; 0; 1; 1] /\ from_digits [3; 2; 1] 10 = 321 /\
  integer_digits 5 0 10 = Some [].
Proof. repeat split. Qed.

(* ---- C67 ---- *)
Theorem C67_factor_integer : forall n, 2 <= Z.abs n -> exists f0, forall fuel, (f0 <= fuel)%nat ->
  exists l, factor_integer fuel n = Some l /\ (factor_value l == inject_Z n)%Q /\ increasing (map fst l) /\
    (forall p k, In (p, k) l -> (n < 0 /\ p = -1 /\ k = 1) \/ (prime p /\ 1 <= k)).
Proof. intros n H. exists (Z.to_nat (Z.abs n)). intros fuel Hf. apply factor_integer_ok; assumption. Qed.
Print Assumptions C67_factor_integer.

Theorem C67_factor_units : forall fuel, factor_integer fuel 0 = Some [(0, 1)] /\
  factor_integer fuel 1 = Some [(1, 1)] /\ factor_integer fuel (-1) = Some [(-1, 1)].
Proof. intros. repeat split. Qed.
Print Assumptions C67_factor_units.

(* a Rational in lowest terms: prime powers with exponents of both signs *)
Theorem C67_factor_rational : forall n d, n <> 0 -> 2 <= d -> Z.gcd n d = 1 ->
  exists f0, forall fuel, (f0 <= fuel)%nat ->
  exists l, factor_rational fuel n d = Some l /\ (factor_value l == inject_Z n / inject_Z d)%Q /\
    increasing (map fst l) /\
    (forall p k, In (p, k) l -> (n < 0 /\ p = -1 /\ k = 1) \/ (prime p /\ k <> 0)).
Proof.
  intros n d Hn Hd G. exists (Z.to_nat (Z.abs n) + Z.to_nat d)%nat. intros fuel Hf. apply factor_rational_ok; assumption.
Qed.
Print Assumptions C67_factor_rational.

Example C67_ex : factor_integer 30 (-20) = Some [(-1, 1); (2, 2); (5, 1)] /\
  factor_rational 30 (-15) 2 = Some [(-1, 1); (2, -1); (3, 1); (5, 1)].
Proof. split; vm_compute; reflexivity. Qed.

(* ---- C68 ---- *)
Theorem C68_euler_phi : forall n, n <> 0 -> exists f0, forall fuel, (f0 <= fuel)%nat ->
  exists v, euler_phi fuel n = Some v /\ (v == inject_Z (coprime_count (Z.abs n)))%Q.
Proof.
  intros n Hn. exists (Z.to_nat (Z.abs n)). intros fuel Hf. unfold euler_phi. destruct (Z.eqb_spec n 0); [contradiction|].
  destruct (Z.eq_dec (Z.abs n) 1) as [E|N].
  - rewrite E. exists 1%Q. split; reflexivity.
  - apply euler_phi_ok; lia.
Qed.
Print Assumptions C68_euler_phi.

Theorem C68_zero : forall fuel, euler_phi fuel 0 = Some 0%Q.
Proof. reflexivity. Qed.
Print Assumptions C68_zero.

Example C68_ex : coprime_count 98 = 42 /\ exists v, euler_phi 120 98 = Some v /\ (v == 42)%Q.
Proof. split; [reflexivity|]. eexists. split; [vm_compute; reflexivity|reflexivity]. Qed.

(* ---- C69 ---- *)
(* [fib_history m]: m is what some sequence of earlier calls has stored *)
Inductive fib_history : memo -> Prop :=
| fib_start : fib_history fib_init
| fib_more : forall m fuel n v m', fib_history m -> fib_call fuel m n = Some (v, m') -> fib_history m'.

Lemma fib_init_sound : memo_sound fib_init.
Proof.
  split; [|split; reflexivity]. intros n v. unfold fib_init. cbn [memo_get].
  destruct (Z.eqb_spec 0 n) as [<-|]; [intro E; injection E as <-; split; [lia|reflexivity]|].
  destruct (Z.eqb_spec 1 n) as [<-|]; [intro E; injection E as <-; split; [lia|reflexivity]|discriminate].
Qed.
Lemma fib_call_mono fuel : forall m n r, fib_call fuel m n = Some r -> forall fuel', (fuel <= fuel')%nat -> fib_call fuel' m n = Some r.
Proof.
  induction fuel as [|k IH]; intros m n r E fuel' H; [discriminate|]. destruct fuel' as [|k']; [lia|].
  cbn [fib_call] in *. destruct (memo_get m n); [exact E|].
  destruct (fib_call k m (n - 1)) as [[a m1]|] eqn:E1; [|discriminate]. rewrite (IH _ _ _ E1 k') by lia.
  destruct (fib_call k m1 (n - 2)) as [[b m2]|] eqn:E2; [|discriminate]. rewrite (IH _ _ _ E2 k') by lia. exact E.
Qed.
Lemma fib_history_sound m : fib_history m -> memo_sound m.
Proof.
  induction 1 as [|m fuel n v m' _ IH E]; [apply fib_init_sound|].
  destruct (Z.lt_ge_cases n 0) as [N|N]; [rewrite (fib_call_negative fuel m n IH N) in E; discriminate|].
  destruct (fib_call_ok (fuel + Z.to_nat n + 1) m n IH ltac:(lia)) as [m2 [E2 S2]].
  rewrite (fib_call_mono fuel m n _ E) in E2 by lia. injection E2 as _ ->. exact S2.
Qed.

(* whatever calls came before, Fibonacci[n] is the n-th Fibonacci number *)
Theorem C69_fibonacci : forall m n, fib_history m -> 0 <= n -> exists f0, forall fuel, (f0 <= fuel)%nat ->
  exists m', fib_call fuel m n = Some (fib (Z.to_nat n), m') /\ fib_history m'.
Proof.
  intros m n H Hn. exists (S (Z.to_nat n)). intros fuel Hf.
  destruct (fib_call_ok fuel m n (fib_history_sound m H) ltac:(lia)) as [m' [E _]]. exists m'. split; [exact E|].
  apply (fib_more m fuel n _ m' H E).
Qed.
Print Assumptions C69_fibonacci.

(* negative arguments recurse for ever *)
Theorem C69_negative_refuted : forall m n, fib_history m -> n < 0 -> forall fuel, fib_call fuel m n = None.
Proof. intros m n H Hn fuel. apply fib_call_negative; [apply fib_history_sound, H|exact Hn]. Qed.
Print Assumptions C69_negative_refuted.

Example C69_ex : exists m, fib_call 30 fib_init 20 = Some (6765, m) /\ memo_get m 10 = Some 55.
Proof. eexists. split; vm_compute; reflexivity. Qed.

(* ---- C70 ---- *)
(* GCD of integers and rationals, however Orderless matching picks the pairs:
   the greatest common divisor in the sense of integer multiples *)
Theorem C70_rational_gcd : forall l g, gcd_result l g ->
  (0 <= g)%Q /\ (forall x, In x l -> rdivides g x) /\ (forall h, (forall x, In x l -> rdivides h x) -> rdivides h g).
Proof.
  intros l g H. assert (A : (0 <= g)%Q /\ forall h, cdiv h l <-> rdivides h g).
  { induction H as [l g F|l l' g St _ [P IH]].
    - split; [exact (gcd_final_nonneg l g F)|intro h; exact (gcd_final_cdiv l g h F)].
    - split; [exact P|]. intro h. rewrite (gcd_step_cdiv l l' h St). apply IH. }
  destruct A as [P A]. split; [exact P|]. split.
  - apply (proj2 (A g)). exists 1. change (inject_Z 1) with 1%Q. ring.
  - intros h C. apply (proj1 (A h)). exact C.
Qed.
Print Assumptions C70_rational_gcd.

(* some evaluation exists for every argument list, and it ends *)
Theorem C70_rational_gcd_defined : forall l, exists g, gcd_result l g.
Proof.
  intro l. remember (length l) as n eqn:En. revert l En. induction n as [n IH] using lt_wf_ind. intros l En.
  destruct (existsb (fun x => negb (rden x =? 1)) l) eqn:Ex.
  - apply existsb_exists in Ex. destruct Ex as [x [X Hx]]. destruct (Z.eqb_spec (rden x) 1) as [|Nx]; [discriminate|]. clear Hx.
    apply in_split in X. destruct X as [l1 [l2 ->]].
    assert (St : (l1 = [] /\ l2 = []) \/ exists l', gcd_step (l1 ++ x :: l2) l' /\ (length l' < n)%nat).
    { destruct l2 as [|y l3].
      - destruct l1 as [|y t]; [left; auto|]. right.
        destruct (Z.eq_dec (rden y) 1) as [Dy|Dy].
        + exists (gcd_ri x y :: [] ++ t ++ []). split; [apply (gcd_int_rat [] t [] x y Nx Dy)|].
          subst n. cbn. rewrite !app_length. cbn. lia.
        + exists (gcd_rr y x :: [] ++ t ++ []). split; [apply (gcd_rat_rat [] t [] y x Dy Nx)|].
          subst n. cbn. rewrite !app_length. cbn. lia.
      - right. destruct (Z.eq_dec (rden y) 1) as [Dy|Dy].
        + exists (gcd_ri x y :: l1 ++ [] ++ l3). split; [apply (gcd_rat_int l1 [] l3 x y Nx Dy)|].
          subst n. cbn. rewrite !app_length. cbn. lia.
        + exists (gcd_rr x y :: l1 ++ [] ++ l3). split; [apply (gcd_rat_rat l1 [] l3 x y Nx Dy)|].
          subst n. cbn. rewrite !app_length. cbn. lia. }
    destruct St as [[-> ->]|[l' [St Hl]]].
    + exists (Qabs x). apply gcd_done, gcd_one, Nx.
    + destruct (IH (length l') Hl l' eq_refl) as [g Hg]. exists g. apply (gcd_more _ l' _ St Hg).
  - exists (inject_Z (zgcd_list (map rnum l))). apply gcd_done, gcd_ints. intros x X.
    destruct (Z.eq_dec (rden x) 1) as [E|N]; [exact E|]. exfalso.
    assert (existsb (fun x => negb (rden x =? 1)) l = true); [|congruence].
    apply existsb_exists. exists x. split; [exact X|]. destruct (Z.eqb_spec (rden x) 1); [contradiction|reflexivity].
Qed.
Print Assumptions C70_rational_gcd_defined.

(* LCM of non-zero integers: a least common multiple *)
Theorem C70_lcm : forall a rest, a <> 0 -> (forall z, In z rest -> z <> 0) ->
  exists c, lcm_list a rest = Some c /\ c <> 0 /\ (forall z, In z (a :: rest) -> (z | c)) /\
    (forall m, (forall z, In z (a :: rest) -> (z | m)) -> (c | m)).
Proof.
  intros a rest Ha H. destruct (lcm_list_ok rest a Ha H) as [c [E [N [D L]]]]. exists c.
  split; [exact E|]. split; [exact N|]. split.
  - intros z [<-|Hz]; apply D; auto.
  - intros m Hm. apply L. intros z [->|Hz]; apply Hm; [left; reflexivity|right; exact Hz].
Qed.
Print Assumptions C70_lcm.

(* the least common multiple should not be negative, and LCM[0, 0] should be 0 *)
Theorem C70_lcm_refuted : lcm_list (-4) [6] = Some (-12) /\ lcm_list 0 [0] = None.
Proof. split; reflexivity. Qed.
Print Assumptions C70_lcm_refuted.

Theorem C70_mod_rational : forall x c, c <> 0 ->
  (0 <= mod_rat x c)%Q /\ (mod_rat x c < inject_Z (Z.abs c))%Q /\ exists k : Z, (x - mod_rat x c == inject_Z (k * c))%Q.
Proof. exact mod_rat_ok. Qed.
Print Assumptions C70_mod_rational.

(* IntegerPart and FractionalPart of an exact number: truncation toward zero *)
Theorem C70_parts : forall x, (integer_part x + fractional_part x == x)%Q /\
  (exists k : Z, integer_part x == inject_Z k)%Q /\ (Qabs (fractional_part x) < 1)%Q /\
  ((0 <= x)%Q -> (0 <= fractional_part x)%Q) /\ ((x <= 0)%Q -> (fractional_part x <= 0)%Q).
Proof.
  intro x. unfold integer_part, fractional_part. destruct (Z.eqb_spec (rden x) 1) as [E|N].
  - split; [ring|]. split; [exists (rnum x); rewrite (Q_rnum x) at 1; rewrite E; change (inject_Z 1) with 1%Q; field|].
    split; [reflexivity|]. split; intros _; apply Qle_refl.
  - split; [ring|]. destruct (Qle_bool 0 x) eqn:L.
    + apply Qle_bool_iff in L. destruct (mod_rat_ok x 1 ltac:(lia)) as [A [B [k Hk]]].
      split; [exists (k * 1); exact Hk|]. split; [rewrite Qabs_pos by exact A; exact B|]. split; [auto|].
      intro L2. assert (E : (x == 0)%Q) by (apply Qle_antisym; assumption). exfalso. apply N.
      unfold rden. rewrite (Qred_complete x 0 E). reflexivity.
    + assert (L' : (x < 0)%Q).
      { apply Qnot_le_lt. intro C. apply Qle_bool_iff in C. congruence. }
      destruct (mod_rat_ok (- x) 1 ltac:(lia)) as [A [B [k Hk]]]. change (inject_Z (Z.abs 1)) with 1%Q in B.
      split; [exists (- (k * 1)); rewrite inject_Z_opp, <- Hk; ring|].
      split; [rewrite Qabs_opp, Qabs_pos by exact A; exact B|]. split.
      * intro C. exfalso. apply (Qlt_not_le _ _ L' C).
      * intros _. apply (Qopp_le_compat 0), A.
Qed.
Print Assumptions C70_parts.

(* EvenQ, OddQ and Sign *)
Theorem C70_parity : forall n, (even_q n = true <-> exists k, n = 2 * k) /\ (odd_q n = true <-> exists k, n = 2 * k + 1).
Proof.
  intro n. unfold even_q, odd_q, big_mod. cbn [Z.abs]. split.
  - rewrite Z.eqb_eq. split.
    + intro H. exists (n / 2). pose proof (Z.div_mod n 2). lia.
    + intros [k ->]. rewrite Z.mul_comm. apply Z.mod_mul. discriminate.
  - rewrite Z.eqb_eq. split.
    + intro H. exists (n / 2). pose proof (Z.div_mod n 2). lia.
    + intros [k ->]. rewrite Z.add_comm, Z.mul_comm. apply Z.mod_add. discriminate.
Qed.
Print Assumptions C70_parity.
Theorem C70_sign : forall x, ((x < 0)%Q -> sign_q x = -1) /\ ((x == 0)%Q -> sign_q x = 0) /\ ((0 < x)%Q -> sign_q x = 1).
Proof.
  intro x. unfold sign_q. pose proof (Qle_bool_iff 0 x) as A. pose proof (Qle_bool_iff x 0) as B.
  split; [|split]; intro H.
  - destruct (Qle_bool 0 x); [|reflexivity]. exfalso. apply (Qlt_not_le _ _ H). apply A. reflexivity.
  - rewrite (proj2 A), (proj2 B) by (rewrite H; apply Qle_refl). reflexivity.
  - rewrite (proj2 A) by (apply Qlt_le_weak, H). destruct (Qle_bool x 0); [|reflexivity]. exfalso. apply (Qlt_not_le _ _ H). apply B. reflexivity.
Qed.
Print Assumptions C70_sign.

Example C70_ex : exists g, gcd_result [5 # 3; 5 # 2]%Q g /\ (g == 5 # 6)%Q.
Proof.
  eexists. split.
  - eapply gcd_more; [apply (gcd_rat_rat [] [] [] (5 # 3) (5 # 2)); discriminate|].
    apply gcd_done, gcd_one. discriminate.
  - reflexivity.
Qed.
Example C70_ex2 : (mod_rat (-3 # 4) 2 == 5 # 4)%Q /\ lcm_list 5 [14; 68] = Some 2380 /\
  (fractional_part (-7 # 4) == -3 # 4)%Q.
Proof. repeat split. Qed.
