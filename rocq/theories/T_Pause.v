(* Property theorems: Pause (C138). *)
From Verif Require Import M_Syntax M_Float M_Pause.
Open Scope Z_scope.

(* 292 years: the longest pause *)
Definition longest : Z := 9223372036.
Lemma wrap64_id z : - 2 ^ 63 <= z < 2 ^ 63 -> wrap64 z = z.
Proof. intro H. unfold wrap64. rewrite Z.mod_small by lia. lia. Qed.
Lemma wrap64_range z : - 2 ^ 63 <= wrap64 z < 2 ^ 63.
Proof. unfold wrap64. pose proof (Z.mod_pos_bound (z + 2 ^ 63) (2 ^ 64) ltac:(lia)). lia. Qed.
Lemma wrap64_period z k : wrap64 (z + k * 2 ^ 64) = wrap64 z.
Proof. unfold wrap64. replace (z + k * 2 ^ 64 + 2 ^ 63) with (z + 2 ^ 63 + k * 2 ^ 64) by lia. rewrite Z_mod_plus_full. reflexivity. Qed.
Lemma wrap64_mod z : exists k, wrap64 z = z + k * 2 ^ 64.
Proof. unfold wrap64. exists (- ((z + 2 ^ 63) / 2 ^ 64)). pose proof (Z.div_mod (z + 2 ^ 63) (2 ^ 64) ltac:(lia)). lia. Qed.

(* Pause[n] waits n seconds (10^9 nanoseconds each) exactly if n is at most 9223372036;
   a negative n, down to -9223372036, does not wait *)
Theorem C138_pause : forall n v ns, pause_fn [EInt n] = Some (v, ns) ->
  v = sys "Null" /\ (- longest <= n <= longest -> ns = 1000000000 * Z.max 0 n) /\ 0 <= ns < 2 ^ 63.
Proof.
  intros n v ns H. injection H as <- <-. split; [reflexivity|]. split.
  - intro R. unfold longest in R. unfold slept, pause_duration. rewrite (wrap64_id n) by lia. rewrite wrap64_id by lia. lia.
  - unfold slept. pose proof (wrap64_range (wrap64 n * 1000000000)). unfold pause_duration. lia.
Qed.
Print Assumptions C138_pause.
(* Refuted: every longer pause is too short *)
Theorem C138_long_refuted : forall n v ns, longest < n -> pause_fn [EInt n] = Some (v, ns) -> ns < 1000000000 * n.
Proof.
  intros n v ns H K. destruct (C138_pause n v ns K) as (_ & _ & R). unfold longest in H. lia.
Qed.
Print Assumptions C138_long_refuted.
(* so that the pause is right exactly in the range *)
Theorem C138_exact : forall n v ns, 0 <= n -> pause_fn [EInt n] = Some (v, ns) -> (ns = 1000000000 * n <-> n <= longest).
Proof.
  intros n v ns N K. split; intro H.
  - destruct (Z_le_gt_dec n longest); [assumption|]. pose proof (C138_long_refuted n v ns ltac:(lia) K). lia.
  - destruct (C138_pause n v ns K) as (_ & R & _). rewrite R by (unfold longest in *; lia). lia.
Qed.
Print Assumptions C138_exact.
(* Refuted: a longer pause need not wait longer.  Adding 2^55 seconds changes nothing;
   just above the range there is no pause at all; and a negative one can wait *)
Theorem C138_period_refuted : forall n, pause_fn [EInt (n + 2 ^ 55)] = pause_fn [EInt n].
Proof.
  intro n. unfold pause_fn. do 3 f_equal. unfold pause_duration.
  destruct (wrap64_mod n) as [k ->]. destruct (wrap64_mod (n + 2 ^ 55)) as [j ->].
  rewrite <- (wrap64_period ((n + k * 2 ^ 64) * 1000000000) (1953125 + (j - k) * 1000000000)). f_equal. lia.
Qed.
Print Assumptions C138_period_refuted.
Theorem C138_overflow_refuted : forall n, longest < n <= 2 * longest -> pause_fn [EInt n] = Some (sys "Null", 0).
Proof.
  intros n H. unfold longest in H. unfold pause_fn. do 2 f_equal. unfold pause_duration, slept.
  rewrite (wrap64_id n) by lia. destruct (wrap64_mod (n * 1000000000)) as [k E]. rewrite E. pose proof (wrap64_range (n * 1000000000)) as R. rewrite E in R. lia.
Qed.
Print Assumptions C138_overflow_refuted.
Theorem C138_negative_refuted : forall n, - 2 * longest <= n < - longest -> exists ns, pause_fn [EInt n] = Some (sys "Null", ns) /\ 0 < ns.
Proof.
  intros n H. unfold longest in H. eexists. split; [reflexivity|]. unfold pause_duration, slept.
  rewrite (wrap64_id n) by lia. destruct (wrap64_mod (n * 1000000000)) as [k E]. rewrite E. pose proof (wrap64_range (n * 1000000000)) as R. rewrite E in R.
  lia.
Qed.
Print Assumptions C138_negative_refuted.
(* anything else stays as it is and does not wait *)
Theorem C138_other : forall args v ns, pause_fn args = Some (v, ns) -> (forall n, args <> [EInt n]) -> v = EExpr (sys "Pause" :: args) /\ ns = 0.
Proof.
  intros args v ns H N. destruct args as [|[s|s|z|p q|f|a b|l] [|y t]]; cbn in H; try (injection H as <- <-; split; reflexivity); [|discriminate H].
  destruct (N z eq_refl).
Qed.
Print Assumptions C138_other.
(* Pause[3]; Pause[10^10], ten years too many, returns at once *)
Example C138_ex : pause_fn [EInt 3] = Some (sys "Null", 3000000000) /\ pause_fn [EInt 10000000000] = Some (sys "Null", 0) /\
  pause_fn [EStr "1"] = Some (EExpr [sys "Pause"; EStr "1"], 0).
Proof. vm_compute. repeat split. Qed.
