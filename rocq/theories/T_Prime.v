(* Property theorems: PrimeQ, PrimePi, Prime (C107), PowerMod (C108). *)
From Verif Require Import M_Syntax M_Float M_Num M_NumTheory M_LibNum M_Prime S_Num S_NumTheory S_List S_Prime
  P_Num P_NumTheory P_List T_NumTheory.
From Coq Require Import Znumtheory QArith Lia List.
Import ListNotations.
Open Scope Z_scope.

(* ---- a sieve that meets the hypothesis on the library ---- *)
Definition primeb (n : Z) : bool :=
  (2 <=? n) && forallb (fun d => negb (n mod Z.of_nat d =? 0)) (seq 2 (Z.to_nat n - 2)).
Lemma primeb_spec n : primeb n = true <-> prime n.
Proof.
  unfold primeb. rewrite andb_true_iff, forallb_forall, <- prime_alt. unfold prime'. split.
  - intros [L H]. apply Z.leb_le in L. split; [lia|]. intros d Hd D.
    assert (Hi : In (Z.to_nat d) (seq 2 (Z.to_nat n - 2))) by (apply in_seq; lia).
    apply H in Hi. rewrite Z2Nat.id in Hi by lia. apply negb_true_iff, Z.eqb_neq in Hi. apply Hi.
    apply Z.mod_divide; [lia|exact D].
  - intros [L H]. split; [apply Z.leb_le; lia|]. intros d Hd. apply in_seq in Hd.
    apply negb_true_iff, Z.eqb_neq. intro M. apply (H (Z.of_nat d)); [lia|]. apply Z.mod_divide; [lia|exact M].
Qed.

Fixpoint sieve_from (k : nat) : list Z :=
  match k with
  | O => []
  | Datatypes.S k' => sieve_from k' ++ (if primeb (Z.of_nat k) then [Z.of_nat k] else [])
  end.
Definition ref_sieve (N : Z) : list Z := sieve_from (Z.to_nat N).

Lemma sieve_from_in k q : In q (sieve_from k) <-> prime q /\ q <= Z.of_nat k.
Proof.
  induction k as [|k IH]; cbn [sieve_from].
  - split; [intros []|]. intros [P H]. destruct P. lia.
  - rewrite in_app_iff, IH. destruct (primeb (Z.of_nat (Datatypes.S k))) eqn:E.
    + apply primeb_spec in E. split.
      * intros [[P H]|[<-|[]]]; split; auto; lia.
      * intros [P H]. destruct (Z.eq_dec q (Z.of_nat (Datatypes.S k))) as [->|N]; [right; left; reflexivity|].
        left. split; [exact P|lia].
    + split.
      * intros [[P H]|[]]. split; [exact P|lia].
      * intros [P H]. left. split; [exact P|]. destruct (Z.eq_dec q (Z.of_nat (Datatypes.S k))) as [->|N]; [|lia].
        apply primeb_spec in P. congruence.
Qed.

Lemma sieve_from_asc k : ascending (sieve_from k).
Proof.
  induction k as [|k IH]; cbn [sieve_from]; intros i j x y L Hi Hj.
  - destruct i; discriminate.
  - destruct (primeb (Z.of_nat (Datatypes.S k))) eqn:E; [|rewrite app_nil_r in Hi, Hj; exact (IH i j x y L Hi Hj)].
    destruct (Nat.lt_ge_cases j (length (sieve_from k))) as [Lj|Lj].
    + rewrite nth_error_app1 in Hi by lia. rewrite nth_error_app1 in Hj by lia. exact (IH i j x y L Hi Hj).
    + rewrite nth_error_app2 in Hj by lia. destruct (j - length (sieve_from k))%nat eqn:D; [|destruct n; discriminate].
      cbn in Hj. injection Hj as <-. rewrite nth_error_app1 in Hi by lia.
      apply nth_error_In, sieve_from_in in Hi. lia.
Qed.

Lemma ref_sieve_ok N : 0 <= N -> primes_to N (ref_sieve N).
Proof.
  intro H. unfold ref_sieve. split; [apply sieve_from_asc|]. intro q. rewrite sieve_from_in.
  rewrite Z2Nat.id by exact H. reflexivity.
Qed.

(* ---- lists in increasing order ---- *)
Lemma ascending_nodup l : ascending l -> NoDup l.
Proof.
  intro A. apply NoDup_nth_error. intros i j Hi E.
  destruct (nth_error l i) as [x|] eqn:Ei; [|apply nth_error_None in Ei; lia].
  symmetry in E. destruct (lt_eq_lt_dec i j) as [[L|L]|L]; [|exact L|].
  - pose proof (A i j x x L Ei E). lia.
  - pose proof (A j i x x L E Ei). lia.
Qed.

Lemma ascending_nth l i p : ascending l -> nth_error l i = Some p ->
  forall q, In q l -> (In q (firstn (Datatypes.S i) l) <-> q <= p).
Proof.
  intros A Hi q Hq. apply In_nth_error in Hq. destruct Hq as [j Hj]. split.
  - intro H. apply In_nth_error in H. destruct H as [k Hk].
    assert (Lk : (k < Datatypes.S i)%nat).
    { assert (k < length (firstn (Datatypes.S i) l))%nat by (apply nth_error_Some; congruence).
      rewrite firstn_length in H. lia. }
    assert (Hk' : nth_error l k = Some q).
    { rewrite <- Hk. rewrite <- (firstn_skipn (Datatypes.S i) l) at 1.
      rewrite nth_error_app1; [reflexivity|]. apply nth_error_Some. congruence. }
    destruct (Nat.eq_dec k i) as [->|N]; [rewrite Hi in Hk'; injection Hk' as ->; lia|].
    pose proof (A k i q p ltac:(lia) Hk' Hi). lia.
  - intro L. destruct (Nat.le_gt_cases j i) as [J|J].
    + apply (nth_error_In _ j). rewrite <- Hj. rewrite <- (firstn_skipn (Datatypes.S i) l) at 2.
      symmetry. rewrite nth_error_app1; [reflexivity|]. rewrite firstn_length.
      assert (j < length l)%nat by (apply nth_error_Some; congruence). lia.
    + pose proof (A i j p q J Hi Hj). lia.
Qed.

Lemma nodup_left (a b : list Z) : NoDup (a ++ b) -> NoDup a.
Proof.
  induction a as [|x a IH]; intro H; [constructor|]. apply NoDup_cons_iff in H. destruct H as [N H].
  constructor; [intro X; apply N, in_or_app; left; exact X|apply IH, H].
Qed.

Lemma primes_nth N l i p : primes_to N l -> nth_error l i = Some p -> nth_prime (Z.of_nat i + 1) p /\ p <= N.
Proof.
  intros [A M] Hi. pose proof (proj1 (M p) (nth_error_In _ _ Hi)) as [Pp Lp]. split; [|exact Lp].
  split; [exact Pp|]. exists (firstn (Datatypes.S i) l).
  assert (Li : (i < length l)%nat) by (apply nth_error_Some; congruence).
  split; [|split].
  - pose proof (ascending_nodup l A) as ND. rewrite <- (firstn_skipn (Datatypes.S i) l) in ND.
    exact (nodup_left _ _ ND).
  - intro q. split.
    + intro H. assert (In q l) as Hq by (rewrite <- (firstn_skipn (Datatypes.S i) l); apply in_or_app; left; exact H).
      split; [apply M in Hq; apply Hq|]. apply (ascending_nth l i p A Hi q Hq), H.
    + intros [Pq Lq]. assert (In q l) as Hq by (apply M; split; [exact Pq|lia]).
      apply (ascending_nth l i p A Hi q Hq), Lq.
  - rewrite firstn_length. lia.
Qed.

Lemma primes_length N l : primes_to N l -> primes_with (fun q => q <= N) (Z.of_nat (length l)).
Proof. intros [A M]. exists l. split; [apply ascending_nodup, A|]. split; [exact M|reflexivity]. Qed.

Lemma primes_with_unique P n m : primes_with P n -> primes_with P m -> n = m.
Proof.
  intros [l [Nl [Ml <-]]] [k [Nk [Mk <-]]]. f_equal. apply Nat.le_antisymm; apply NoDup_incl_length; auto.
  - intros q H. apply Mk, Ml, H.
  - intros q H. apply Ml, Mk, H.
Qed.

Lemma nth_prime_unique n p q : nth_prime n p -> nth_prime n q -> p = q.
Proof.
  assert (G : forall n p q, nth_prime n p -> nth_prime n q -> p < q -> False).
  { clear. intros n p q [Pp [l [Nl [Ml El]]]] [Pq [k [Nk [Mk Ek]]]] L.
    assert (incl l k) as Inc by (intros x H; apply Ml in H; apply Mk; split; [apply H|lia]).
    assert (incl (q :: l) k) as Inc2 by (intros x [<-|H]; [apply Mk; split; [exact Pq|lia]|apply Inc, H]).
    assert (ND : NoDup (q :: l)) by (constructor; [intro H; apply Ml in H; lia|exact Nl]).
    pose proof (NoDup_incl_length ND Inc2) as Hl. cbn in Hl. lia. }
  intros Hp Hq. destruct (Z_lt_le_dec p q) as [L|L]; [exfalso; exact (G n p q Hp Hq L)|].
  destruct (Z_lt_le_dec q p) as [L'|L']; [exfalso; exact (G n q p Hq Hp L')|]. lia.
Qed.

(* ---- C107 ---- *)
(* PrimeQ: with a primality test that never rejects a prime and is exact below
   2^64 (what math/big promises), True for every prime and its negative, and
   exact for every integer below 2^64 *)
Theorem C107_prime_q : forall probably,
  (forall p, prime p -> probably p = true) -> (forall n, 0 <= n < 2 ^ 64 -> probably n = true -> prime n) ->
  (forall p, prime p -> prime_q probably (EInt p) = true /\ prime_q probably (EInt (- p)) = true) /\
  (forall n, Z.abs n < 2 ^ 64 -> (prime_q probably (EInt n) = true <-> prime (Z.abs n))) /\
  (forall e, (forall z, e <> EInt z) -> prime_q probably e = false).
Proof.
  intros pr C X. split; [|split].
  - intros p P. cbn. assert (0 < p) by (destruct P; lia). rewrite Z.abs_opp, Z.abs_eq by lia. split; apply C, P.
  - intros n H. cbn. split; [apply X; lia|apply C].
  - intros e H. destruct e; try reflexivity. exfalso. apply (H val). reflexivity.
Qed.
Print Assumptions C107_prime_q.

Definition lists_primes (f : Z -> list Z) : Prop := forall N, 0 <= N -> primes_to N (f N).
Example ref_lists : lists_primes ref_sieve.
Proof. exact ref_sieve_ok. Qed.

(* PrimePi of an integer below 2^63, other than 1: the number of primes up to it *)
Theorem C107_prime_pi_partial : forall primes n, lists_primes primes -> in_int64 n -> n <> 1 ->
  exists k, prime_pi primes [EInt n] = Some (EInt k) /\ primes_with (fun q => q <= n) k.
Proof.
  intros primes n H I N. unfold prime_pi. rewrite (wrap64_small n I).
  destruct (Z.leb_spec n 0) as [L|L].
  - exists 0. split; [reflexivity|]. exists []. split; [constructor|]. split; [|reflexivity].
    intro q. split; [intros []|]. intros [P Q]. destruct P. lia.
  - destruct (Z.eqb_spec n 1); [contradiction|]. eexists. split; [reflexivity|].
    apply primes_length, H. lia.
Qed.
Print Assumptions C107_prime_pi_partial.

(* PrimePi of a machine number x = m * 2^e, as long as it is at least 2 and
   below 2^63 *)
Theorem C107_prime_pi_real_partial : forall primes m e acc, lists_primes primes ->
  2 * 2 ^ Z.max (- e) 0 <= Z.of_N m * 2 ^ Z.max e 0 < 2 ^ 63 * 2 ^ Z.max (- e) 0 ->
  exists k, prime_pi primes [EFlt (FFin false m e acc)] = Some (EInt k) /\
  primes_with (fun q => q * 2 ^ Z.max (- e) 0 <= Z.of_N m * 2 ^ Z.max e 0) k.
Proof.
  intros primes m e acc H [L U]. unfold prime_pi, flt_int64, smant.
  set (a := Z.of_N m * 2 ^ Z.max e 0) in *. set (b := 2 ^ Z.max (- e) 0) in *.
  assert (B : 0 < b) by (apply Z.pow_pos_nonneg; lia). assert (0 <= a) by lia.
  rewrite Z.quot_div_nonneg by lia.
  assert (L' : 2 <= a / b) by (apply Z.div_le_lower_bound; lia).
  assert (U' : a / b < 2 ^ 63) by (apply Z.div_lt_upper_bound; lia).
  rewrite Z.min_r, Z.max_r by lia.
  destruct (Z.leb_spec (a / b) 0); [lia|]. destruct (Z.eqb_spec (a / b) 1); [lia|].
  eexists. split; [reflexivity|]. destruct (primes_length _ _ (H (a / b) ltac:(lia))) as [l [Nl [Ml El]]].
  exists l. split; [exact Nl|]. split; [|exact El]. intro q. rewrite Ml.
  assert (E : q <= a / b <-> q * b <= a).
  { split; intro X.
    - pose proof (Z.mul_div_le a b B). nia.
    - apply Z.div_le_lower_bound; lia. }
  rewrite E. reflexivity.
Qed.
Print Assumptions C107_prime_pi_real_partial.

(* PrimePi[1] and PrimePi[1.5] are 1, though no prime is below 2; and the
   argument is truncated to 64 bits: PrimePi[2^64 + 3] is 2 *)
Theorem C107_prime_pi_refuted : forall primes, lists_primes primes ->
  prime_pi primes [EInt 1] = Some (EInt 1) /\ primes_with (fun q => q <= 1) 0 /\
  prime_pi primes [EFlt (FFin false 3 (-1) 0)] = Some (EInt 1) /\
  prime_pi primes [EInt (2 ^ 64 + 3)] = Some (EInt 2) /\
  ~ primes_with (fun q => q <= 2 ^ 64 + 3) 2.
Proof.
  intros primes H. split; [reflexivity|]. split.
  - exists []. split; [constructor|]. split; [|reflexivity]. intro q. split; [intros []|]. intros [P Q]. destruct P. lia.
  - split; [reflexivity|].
    assert (T : primes_with (fun q => q <= 3) 2).
    { exists [2; 3]. split; [repeat constructor; cbn; lia|]. split; [|reflexivity]. intro q. cbn. split.
      - intros [<-|[<-|[]]]; split; try lia; [apply prime_2|apply prime_3].
      - intros [P Q]. destruct P. lia. }
    split.
    + change (prime_pi primes [EInt (2 ^ 64 + 3)]) with (Some (EInt (Z.of_nat (length (primes 3))))).
      rewrite (primes_with_unique _ _ _ (primes_length _ _ (H 3 ltac:(lia))) T). reflexivity.
    + intros [l [Nl [Ml El]]].
      assert (In 2 l) as A2 by (apply Ml; split; [apply prime_2|lia]).
      assert (In 3 l) as A3 by (apply Ml; split; [apply prime_3|lia]).
      assert (In 5 l) as A5.
      { apply Ml. split; [|lia]. apply prime_alt. split; [lia|]. intros k Hk [c Hc].
        assert (k = 2 \/ k = 3 \/ k = 4) as [-> | [-> | ->]] by lia; lia. }
      assert (D : NoDup [2; 3; 5]) by (repeat constructor; cbn; lia).
      assert (Inc : incl [2; 3; 5] l) by (intros x [<-|[<-|[<-|[]]]]; assumption).
      pose proof (NoDup_incl_length D Inc) as G. cbn in G. lia.
Qed.
Print Assumptions C107_prime_pi_refuted.

(* Prime: whatever the floating point bound computes (below 2^63), a value
   returned for an n below 2^63 is the n-th prime; nothing else is returned as
   a value, and there is a value whenever the bound is not below that prime *)
Theorem C107_prime_sound : forall bound sieve n r, lists_primes sieve ->
  (forall k, 6 <= k -> 0 <= bound k < 2 ^ 63 - 1) -> in_int64 n ->
  prime_fn bound sieve [EInt n] = PValue r -> exists p, r = EInt p /\ nth_prime n p.
Proof.
  intros bound sieve n r H B I. unfold prime_fn. rewrite (wrap64_small n I).
  destruct (Z.leb_spec n 0) as [L|L]; [discriminate|].
  destruct (Z.ltb_spec 211642827166041848 n) as [U|U]; [discriminate|].
  set (u := if n <? 6 then 11 else bound n).
  assert (Hu : 0 <= u < 2 ^ 63 - 1) by (unfold u; destruct (Z.ltb_spec n 6); [lia|apply B; lia]).
  destruct (nth_error (sieve (u + 1)) (Z.to_nat (n - 1))) as [p|] eqn:E; [|discriminate].
  intro X. injection X as <-. destruct (primes_nth _ _ _ _ (H (u + 1) ltac:(lia)) E) as [P Lp].
  rewrite Z2Nat.id in P by lia. replace (n - 1 + 1) with n in P by lia.
  exists p. split; [|exact P]. rewrite wrap64_small; [reflexivity|]. destruct P as [[P1 _] _].
  unfold in_int64. lia.
Qed.
Print Assumptions C107_prime_sound.

Lemma primes_enough N l n p : primes_to N l -> 1 <= n -> nth_prime n p -> p <= N ->
  nth_error l (Z.to_nat (n - 1)) = Some p.
Proof.
  intros H Hn P L. destruct (nth_error l (Z.to_nat (n - 1))) as [q|] eqn:E.
  - destruct (primes_nth _ _ _ _ H E) as [Q _]. rewrite Z2Nat.id in Q by lia.
    replace (n - 1 + 1) with n in Q by lia. f_equal. exact (nth_prime_unique n q p Q P).
  - exfalso. apply nth_error_None in E. destruct P as [Pp [k [Nk [Mk Ek]]]].
    assert (incl k l) as Inc.
    { intros x Hx. apply Mk in Hx. apply (proj2 H). split; [apply Hx|lia]. }
    pose proof (NoDup_incl_length Nk Inc) as G. lia.
Qed.

Theorem C107_prime_complete : forall bound sieve n p, lists_primes sieve ->
  1 <= n <= 211642827166041848 -> nth_prime n p -> p < 2 ^ 63 -> (6 <= n -> p <= bound n + 1) ->
  (6 <= n -> 0 <= bound n) ->
  prime_fn bound sieve [EInt n] = PValue (EInt p).
Proof.
  intros bound sieve n p H Hn P Pb B B0. unfold prime_fn. rewrite wrap64_small by (unfold in_int64; lia).
  destruct (Z.leb_spec n 0) as [L|L]; [lia|]. destruct (Z.ltb_spec 211642827166041848 n) as [U|U]; [lia|].
  set (u := if n <? 6 then 11 else bound n).
  assert (Hp : p <= u + 1 /\ 0 <= u).
  { unfold u. destruct (Z.ltb_spec n 6) as [S|S]; [|split; [apply B; lia|apply B0; lia]].
    split; [|lia]. destruct (Z_lt_le_dec 12 p) as [G|G]; [exfalso|lia].
    destruct P as [Pp [k [Nk [Mk Ek]]]].
    assert (In p k) as A0 by (apply Mk; split; [exact Pp|lia]).
    assert (In 2 k) as A2 by (apply Mk; split; [apply prime_2|lia]).
    assert (In 3 k) as A3 by (apply Mk; split; [apply prime_3|lia]).
    assert (forall q, q = 5 \/ q = 7 \/ q = 11 -> prime q) as Sm.
    { intros q Hq. apply prime_alt. split; [lia|]. intros j Hj [c Hc].
      destruct Hq as [-> | [-> | ->]].
      - assert (j = 2 \/ j = 3 \/ j = 4) as [-> | [-> | ->]] by lia; lia.
      - assert (j = 2 \/ j = 3 \/ j = 4 \/ j = 5 \/ j = 6) as D by lia. repeat destruct D as [-> | D]; subst; lia.
      - assert (j = 2 \/ j = 3 \/ j = 4 \/ j = 5 \/ j = 6 \/ j = 7 \/ j = 8 \/ j = 9 \/ j = 10) as D by lia.
        repeat destruct D as [-> | D]; subst; lia. }
    assert (In 5 k) as A5 by (apply Mk; split; [apply Sm; auto|lia]).
    assert (In 7 k) as A7 by (apply Mk; split; [apply Sm; auto|lia]).
    assert (In 11 k) as A11 by (apply Mk; split; [apply Sm; auto|lia]).
    assert (D : NoDup [2; 3; 5; 7; 11; p]) by (repeat constructor; cbn; lia).
    assert (Inc : incl [2; 3; 5; 7; 11; p] k) by (intros x [<-|[<-|[<-|[<-|[<-|[<-|[]]]]]]]; assumption).
    pose proof (NoDup_incl_length D Inc) as Y. cbn [length] in Y. lia. }
  rewrite (primes_enough (u + 1) _ n p (H (u + 1) ltac:(lia)) ltac:(lia) P ltac:(lia)).
  rewrite wrap64_small; [reflexivity|]. destruct P as [[P1 _] _]. unfold in_int64. lia.
Qed.
Print Assumptions C107_prime_complete.

(* the first argument is truncated to 64 bits before any check:
   Prime[2^64 + 1] is 2 *)
Theorem C107_prime_refuted : forall bound sieve, lists_primes sieve ->
  prime_fn bound sieve [EInt (2 ^ 64 + 1)] = PValue (EInt 2) /\ ~ nth_prime (2 ^ 64 + 1) 2.
Proof.
  intros bound sieve H.
  assert (T : nth_prime 1 2).
  { split; [apply prime_2|]. exists [2]. split; [repeat constructor; cbn; lia|]. split; [|reflexivity].
    intro q. cbn. split; [intros [<-|[]]; split; [apply prime_2|lia]|]. intros [P Q]. destruct P. lia. }
  split.
  - change (prime_fn bound sieve [EInt (2 ^ 64 + 1)]) with
      (match nth_error (sieve 12) (Z.to_nat (1 - 1)) with Some p => PValue (EInt (wrap64 p)) | None => PPanic end).
    rewrite (primes_enough 12 _ 1 2 (H 12 ltac:(lia)) ltac:(lia) T ltac:(lia)). reflexivity.
  - intros [_ X]. pose proof (primes_with_unique _ _ _ X (proj2 T)). lia.
Qed.
Print Assumptions C107_prime_refuted.

(* what is not a positive machine integer up to the limit stays unevaluated *)
Theorem C107_prime_unevaluated : forall bound sieve e,
  (forall z, e = EInt z -> in_int64 z /\ (z <= 0 \/ 211642827166041848 < z)) ->
  prime_fn bound sieve [e] = PUneval.
Proof.
  intros bound sieve e H. destruct e; try reflexivity. destruct (H val eq_refl) as [I C].
  unfold prime_fn. rewrite (wrap64_small _ I). destruct (Z.leb_spec val 0); [reflexivity|].
  destruct (Z.ltb_spec 211642827166041848 val); [reflexivity|lia].
Qed.
Print Assumptions C107_prime_unevaluated.

Example C107_ex : prime_fn (fun _ => 20) ref_sieve [EInt 7] = PValue (EInt 17) /\
  prime_fn (fun _ => 20) ref_sieve [EInt 5] = PValue (EInt 11) /\
  prime_pi ref_sieve [EInt 10] = Some (EInt 4) /\
  prime_fn (fun _ => 11) ref_sieve [EInt 7] = PPanic.
Proof. vm_compute. repeat split; reflexivity. Qed.

(* ---- C108 ---- *)
(* PowerMod[x, y, m], y positive (or 0 with x nonzero), m nonzero: the residue
   of x^y in 0..|m|-1 *)
Theorem C108_power_mod : forall x y m, (0 < y \/ y = 0 /\ x <> 0) -> m <> 0 ->
  exists r k, power_mod x y m = EInt r /\ 0 <= r < Z.abs m /\ x ^ y = k * m + r.
Proof.
  intros x y m Hy Hm.
  assert (E : eval_rational_call (power_int x y) = EInt (x ^ y)).
  { destruct Hy as [Hy|[-> Hx]]; [apply C16_power_positive, Hy|]. rewrite C16_power_zero by exact Hx. reflexivity. }
  unfold power_mod. rewrite E. cbn [mod_value]. destruct (Z.eqb_spec m 0); [contradiction|].
  unfold big_mod. exists (x ^ y mod Z.abs m), (x ^ y / Z.abs m * Z.sgn m). split; [reflexivity|].
  split; [apply Z.mod_pos_bound; lia|].
  pose proof (Z.div_mod (x ^ y) (Z.abs m) ltac:(lia)) as D.
  assert (Z.sgn m * m = Z.abs m) by lia. nia.
Qed.
Print Assumptions C108_power_mod.

(* a negative exponent is not an inverse modulo m: PowerMod[3, -1, 7] is 1/3,
   although 3 * 5 = 1 modulo 7 *)
Theorem C108_inverse_refuted : power_mod 3 (-1) 7 = ERat 1 3 /\ 3 * 5 mod 7 = 1.
Proof. vm_compute. split; reflexivity. Qed.
Print Assumptions C108_inverse_refuted.

Example C108_ex : power_mod 5 13 7 = EInt 5 /\ power_mod (-2) 3 (-5) = EInt 2.
Proof. vm_compute. split; reflexivity. Qed.
