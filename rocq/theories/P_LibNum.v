From Verif Require Import M_Syntax M_Num M_Order M_Sort M_NumTheory M_LibNum S_NumTheory S_LibNum P_NumTheory.
From Coq Require Import QArith Qabs Znumtheory Permutation Qfield.
Open Scope Z_scope.

(* ---- digits ---- *)
Lemma numeral_app base ds : forall v, fold_left (fun v d => v * base + d) ds v
  = v * base ^ Z.of_nat (length ds) + numeral base ds.
Proof.
  unfold numeral. induction ds as [|d t IH]; intro v; cbn [fold_left length].
  - rewrite Z.mul_1_r. lia.
  - rewrite IH, (IH (0 * base + d)). rewrite Nat2Z.inj_succ, Z.pow_succ_r by lia. ring.
Qed.

Lemma from_digits_gen base ds : forall s, from_digits_loop ds base s = s + numeral base ds.
Proof.
  induction ds as [|d t IH]; intro s; cbn [from_digits_loop].
  - cbn. lia.
  - rewrite IH. unfold numeral at 2. cbn [fold_left]. rewrite numeral_app. ring.
Qed.

Lemma digits_loop_ok base : 2 <= base -> forall fuel n acc, 0 <= n -> n < Z.of_nat fuel ->
  exists ds, digits_loop fuel n base acc = Some (ds ++ acc) /\ numeral base ds = n /\
    digits_ok base ds /\ no_leading_zero ds.
Proof.
  intros Hb. induction fuel as [|k IH]; intros n acc Hn Hf; [lia|]. cbn [digits_loop].
  destruct (Z.ltb_spec 0 n) as [Hp|Hz].
  - assert (Em : big_mod n base = n mod base) by (unfold big_mod; rewrite Z.abs_eq by lia; reflexivity).
    assert (Ed : (n - big_mod n base) / base = n / base).
    { rewrite Em. rewrite (Z.div_mod n base) at 1 by lia.
      replace (base * (n / base) + n mod base - n mod base) with ((n / base) * base) by ring.
      apply Z.div_mul. lia. }
    rewrite Ed. pose proof (Z.div_mod n base ltac:(lia)) as DM. pose proof (Z.mod_pos_bound n base ltac:(lia)) as MB.
    assert (n / base < n) by (apply Z.div_lt; lia). assert (0 <= n / base) by (apply Z.div_pos; lia).
    destruct (IH (n / base) (big_mod n base :: acc)) as [ds [E [V [R L]]]]; [lia|lia|].
    exists (ds ++ [n mod base]). split; [rewrite E, Em, <- app_assoc; reflexivity|]. split; [|split].
    + unfold numeral. rewrite fold_left_app. cbn [fold_left]. fold (numeral base ds). rewrite V. lia.
    + intros d H1. apply in_app_iff in H1. destruct H1 as [H1|[<-|[]]]; [auto|lia].
    + destruct ds as [|d t]; [|exact L]. cbn in V. cbn. intro C. rewrite C, <- V in DM. lia.
  - exists []. split; [reflexivity|]. split; [cbn; lia|]. split; [intros d []|exact I].
Qed.

Lemma numeral_bound base ds : 2 <= base -> digits_ok base ds -> 0 <= numeral base ds < base ^ Z.of_nat (length ds).
Proof.
  intros Hb. induction ds as [|d t IH]; intro Ok; [cbn; lia|].
  assert (B : 0 <= d < base) by (apply Ok; left; reflexivity).
  assert (IH' : 0 <= numeral base t < base ^ Z.of_nat (length t)) by (apply IH; intros x Hx; apply Ok; right; exact Hx).
  unfold numeral. cbn [fold_left length]. rewrite numeral_app. rewrite Nat2Z.inj_succ, Z.pow_succ_r by lia.
  pose proof (Z.pow_pos_nonneg base (Z.of_nat (length t)) ltac:(lia) ltac:(lia)). nia.
Qed.

Lemma numeral_unique base ds : 2 <= base -> forall ds', digits_ok base ds -> digits_ok base ds' ->
  length ds = length ds' -> numeral base ds = numeral base ds' -> ds = ds'.
Proof.
  intros Hb. induction ds as [|d t IH]; intros [|d' t'] Ok Ok' L E; try discriminate; [reflexivity|].
  unfold numeral in E. cbn [fold_left] in E. rewrite !numeral_app in E.
  injection L as L. rewrite L in E.
  assert (O1 : digits_ok base t) by (intros x Hx; apply Ok; right; exact Hx).
  assert (O2 : digits_ok base t') by (intros x Hx; apply Ok'; right; exact Hx).
  pose proof (numeral_bound base t Hb O1) as B1. pose proof (numeral_bound base t' Hb O2) as B2. rewrite L in B1.
  assert (d = d') by nia. subst d'. f_equal. apply IH; auto. lia.
Qed.

Lemma numeral_length base ds : 2 <= base -> forall ds', digits_ok base ds -> digits_ok base ds' ->
  no_leading_zero ds -> no_leading_zero ds' -> numeral base ds = numeral base ds' -> (length ds <= length ds')%nat.
Proof.
  intros Hb ds' O1 O2 L1 L2 E. destruct ds as [|d t]; [cbn; lia|].
  destruct (Nat.le_gt_cases (length (d :: t)) (length ds')) as [H|H]; [exact H|exfalso].
  pose proof (numeral_bound base ds' Hb O2) as B. cbn [length] in H.
  assert (base ^ Z.of_nat (length ds') <= base ^ Z.of_nat (length t)) by (apply Z.pow_le_mono_r; lia).
  unfold numeral at 1 in E. cbn [fold_left] in E. rewrite numeral_app in E.
  assert (O3 : digits_ok base t) by (intros x Hx; apply O1; right; exact Hx).
  pose proof (numeral_bound base t Hb O3). assert (0 <= d < base) by (apply O1; left; reflexivity).
  cbn in L1. pose proof (Z.pow_pos_nonneg base (Z.of_nat (length t)) ltac:(lia) ltac:(lia)). nia.
Qed.

Lemma digits_diverge fuel : forall n acc, 0 < n -> digits_loop fuel n 1 acc = None.
Proof.
  induction fuel as [|k IH]; intros n acc H; [reflexivity|]. cbn [digits_loop].
  destruct (Z.ltb_spec 0 n); [|lia]. unfold big_mod. cbn [Z.abs]. rewrite Z.mod_1_r, Z.sub_0_r, Z.div_1_r. apply IH, H.
Qed.

(* ---- Fibonacci ---- *)
Definition memo_sound (m : memo) : Prop :=
  (forall n v, memo_get m n = Some v -> 0 <= n /\ v = fib (Z.to_nat n)) /\
  memo_get m 0 = Some 0 /\ memo_get m 1 = Some 1.

Lemma fib_SS n : fib (S (S n)) = fib (S n) + fib n. Proof. reflexivity. Qed.

Lemma memo_cons_sound m n v : memo_sound m -> 0 <= n -> memo_get m n = None -> v = fib (Z.to_nat n) ->
  memo_sound ((n, v) :: m).
Proof.
  intros [A [B C]] H N V. split; [|split]; cbn [memo_get].
  - intros k w. destruct (Z.eqb_spec n k) as [<-|]; [intro E; injection E as <-; auto|apply A].
  - destruct (Z.eqb_spec n 0) as [->|]; [congruence|exact B].
  - destruct (Z.eqb_spec n 1) as [->|]; [congruence|exact C].
Qed.

Lemma fib_call_ok : forall fuel m n, memo_sound m -> 0 <= n < Z.of_nat fuel ->
  exists m', fib_call fuel m n = Some (fib (Z.to_nat n), m') /\ memo_sound m'.
Proof.
  induction fuel as [|k IH]; intros m n M H; [lia|]. cbn [fib_call].
  destruct (memo_get m n) as [v|] eqn:E.
  - exists m. destruct M as [A M']. destruct (A n v E) as [_ ->]. split; [reflexivity|split; assumption].
  - assert (2 <= n).
    { destruct M as [_ [B C]]. destruct (Z.eq_dec n 0) as [->|]; [congruence|]. destruct (Z.eq_dec n 1) as [->|]; [congruence|lia]. }
    destruct (IH m (n - 1) M ltac:(lia)) as [m1 [E1 M1]]. rewrite E1.
    destruct (IH m1 (n - 2) M1 ltac:(lia)) as [m2 [E2 M2]]. rewrite E2.
    assert (F : fib (Z.to_nat (n - 1)) + fib (Z.to_nat (n - 2)) = fib (Z.to_nat n)).
    { replace (Z.to_nat n) with (S (S (Z.to_nat (n - 2)))) by lia.
      replace (Z.to_nat (n - 1)) with (S (Z.to_nat (n - 2))) by lia. rewrite fib_SS. reflexivity. }
    rewrite F. eexists. split; [reflexivity|].
    destruct (memo_get m2 n) as [w|] eqn:E3.
    + destruct M2 as [A [B C]]. split; [|split]; cbn [memo_get].
      * intros j v. destruct (Z.eqb_spec n j) as [<-|]; [intro X; injection X as <-; split; [lia|reflexivity]|apply A].
      * destruct (Z.eqb_spec n 0); [lia|exact B].
      * destruct (Z.eqb_spec n 1); [lia|exact C].
    + apply memo_cons_sound; auto; lia.
Qed.

Lemma fib_call_negative fuel : forall m n, memo_sound m -> n < 0 -> fib_call fuel m n = None.
Proof.
  induction fuel as [|k IH]; intros m n M H; [reflexivity|]. cbn [fib_call].
  destruct (memo_get m n) as [v|] eqn:E.
  - destruct M as [A _]. destruct (A n v E). lia.
  - rewrite IH by (assumption || lia). reflexivity.
Qed.
