From Verif Require Import M_Syntax M_Num M_Float M_Order M_Sort M_NumTheory M_LibNum S_Syntax S_NumTheory S_LibNum S_Sort
  P_NumTheory P_Order P_OrderTrans P_Sort P_OrderNum.
From Coq Require Import QArith Qabs Qpower Znumtheory Permutation Qfield.
Open Scope Z_scope.

(* ---- sorting pairs of integers ---- *)
Lemma order_list : ex_order sList sList = 0.
Proof. apply order_refl. reflexivity. Qed.

Lemma order_pair a b : ex_order (pair_ex a) (pair_ex b)
  = if fst b =? fst a then cmp2z (snd b ?= snd a) else cmp2z (fst b ?= fst a).
Proof.
  rewrite ex_order_eq. unfold pair_ex, mkList, order_step. cbn [as_flt expr_to_n_flt].
  replace (cmp_exprs ex_order [sList; EInt (fst a); EInt (snd a)] [sList; EInt (fst b); EInt (snd b)])
    with (lex ex_order [sList; EInt (fst a); EInt (snd a)] [sList; EInt (fst b); EInt (snd b)]) by reflexivity.
  cbn [lex]. rewrite order_list. cbn [Z.eqb]. rewrite !order_ints.
  destruct (Z.eqb_spec (fst b) (fst a)) as [->|N].
  - rewrite Z.compare_refl. cbn [cmp2z Z.eqb]. destruct (snd b ?= snd a); reflexivity.
  - destruct (fst b ?= fst a) eqn:E; [apply Z.compare_eq in E; contradiction|reflexivity|reflexivity].
Qed.

Lemma ex_pair_ex p : ex_pair (pair_ex p) = p. Proof. destruct p; reflexivity. Qed.

Lemma sort_pairs_perm l : Permutation l (sort_pairs l).
Proof.
  unfold sort_pairs. assert (W : all_wf (map pair_ex l)).
  { intros x Hx. apply in_map_iff in Hx. destruct Hx as [p [<- _]]. reflexivity. }
  assert (E : l = map ex_pair (map pair_ex l)).
  { rewrite map_map. rewrite <- (map_id l) at 1. apply map_ext. intro p. symmetry. apply ex_pair_ex. }
  rewrite E at 1. apply Permutation_map, insertion_sort_perm, W.
Qed.

Lemma adjacent_pairs l : NoDup (map fst l) -> adjacent_ordered (map pair_ex l) -> increasing (map fst l).
Proof.
  induction l as [|a [|b t] IH]; intros N A; try exact I.
  change (0 <= ex_order (pair_ex a) (pair_ex b) /\ adjacent_ordered (map pair_ex (b :: t))) in A. destruct A as [A B].
  change (fst a < fst b /\ increasing (map fst (b :: t))).
  change (NoDup (fst a :: map fst (b :: t))) in N. inversion N as [|x y N1 N2]; subst.
  split; [|apply IH; assumption].
  rewrite order_pair in A. destruct (Z.eqb_spec (fst b) (fst a)) as [E|E].
  - exfalso. apply N1. left. exact E.
  - destruct (fst b ?= fst a) eqn:C; cbn in A; try lia.
    + apply Z.compare_eq in C. contradiction.
    + apply Z.compare_gt_iff in C. lia.
Qed.

Lemma sort_pairs_increasing l : NoDup (map fst l) -> increasing (map fst (sort_pairs l)).
Proof.
  intro N. assert (W : all_wf (map pair_ex l)).
  { intros x Hx. apply in_map_iff in Hx. destruct Hx as [p [<- _]]. reflexivity. }
  apply adjacent_pairs.
  - eapply Permutation_NoDup; [apply Permutation_map, sort_pairs_perm|exact N].
  - unfold sort_pairs. rewrite map_map.
    assert (E : map (fun x => pair_ex (ex_pair x)) (insertion_sort (map pair_ex l)) = insertion_sort (map pair_ex l)).
    { rewrite <- (map_id (insertion_sort (map pair_ex l))) at 2. apply map_ext_in. intros x Hx.
      apply (Permutation_in _ (Permutation_sym (insertion_sort_perm _ W))) in Hx.
      apply in_map_iff in Hx. destruct Hx as [p [<- _]]. rewrite ex_pair_ex. reflexivity. }
    rewrite E. apply insertion_sort_adjacent, W.
Qed.

(* ---- value of a factor list ---- *)
Lemma factor_value_cons p k l : factor_value ((p, k) :: l) = (Qpower (inject_Z p) k * factor_value l)%Q.
Proof. reflexivity. Qed.
Lemma factor_value_app l l' : (factor_value (l ++ l') == factor_value l * factor_value l')%Q.
Proof.
  induction l as [|[p k] t IH]; [change (factor_value l' == 1 * factor_value l')%Q; ring|]. rewrite <- app_comm_cons, !factor_value_cons, IH. ring.
Qed.
Lemma factor_value_perm l l' : Permutation l l' -> (factor_value l == factor_value l')%Q.
Proof.
  induction 1 as [|[p k] l l' _ IH|[p k] [q j] l|l1 l2 l3 _ IH1 _ IH2].
  - reflexivity.
  - rewrite !factor_value_cons, IH. reflexivity.
  - rewrite !factor_value_cons. ring.
  - rewrite IH1. exact IH2.
Qed.
Lemma factor_value_neg l : (forall p k, In (p, k) l -> p <> 0) ->
  (factor_value (map (fun pk => (fst pk, (- snd pk)%Z)) l) == / factor_value l)%Q.
Proof.
  induction l as [|[p k] t IH]; intro H; [cbn; reflexivity|].
  cbn [map fst snd]. rewrite !factor_value_cons, IH by (intros q j Hq; apply (H q j); right; exact Hq).
  rewrite Qpower_opp, Qinv_mult_distr. reflexivity.
Qed.

(* ---- Tally ---- *)
Lemma dedup_in l : forall seen x, In x (dedup seen l) <-> In x l /\ ~ In x seen.
Proof.
  induction l as [|y t IH]; intros seen x; cbn [dedup]; [cbn; tauto|].
  destruct (existsb (Z.eqb y) seen) eqn:E.
  - apply existsb_exists in E. destruct E as [z [Hz Ez]]. apply Z.eqb_eq in Ez. subst z. rewrite IH.
    split; [intros [A B]; split; [right|]; assumption|].
    intros [[->|A] B]; [contradiction|auto].
  - assert (Ny : ~ In y seen).
    { intro C. assert (existsb (Z.eqb y) seen = true) by (apply existsb_exists; exists y; split; [exact C|apply Z.eqb_refl]). congruence. }
    cbn [In]. rewrite IH. split.
    + intros [<-|[A B]]; [auto|]. split; [auto|]. intro C. apply B. right. exact C.
    + intros [[->|A] B]; [auto|]. destruct (Z.eq_dec y x) as [->|N]; [auto|]. right. split; [exact A|].
      intros [C|C]; contradiction.
Qed.
Lemma dedup_nodup l : forall seen, NoDup (dedup seen l).
Proof.
  induction l as [|y t IH]; intros seen; cbn [dedup]; [constructor|].
  destruct (existsb (Z.eqb y) seen); [apply IH|]. constructor; [|apply IH].
  rewrite dedup_in. intros [_ B]. apply B. left. reflexivity.
Qed.

Definition count_prod (ks l : list Z) : Z := fold_right (fun x v => x ^ count_z x l * v) 1 ks.
Lemma count_z_cons x y l : count_z x (y :: l) = if x =? y then 1 + count_z x l else count_z x l.
Proof. unfold count_z. cbn [filter]. destruct (x =? y); [cbn [length]; lia|reflexivity]. Qed.
Lemma count_z_nonneg x l : 0 <= count_z x l. Proof. unfold count_z. lia. Qed.
Lemma count_prod_cons_out ks y l : ~ In y ks -> count_prod ks (y :: l) = count_prod ks l.
Proof.
  induction ks as [|k t IH]; intro N; [reflexivity|]. cbn [count_prod fold_right].
  fold (count_prod t (y :: l)). fold (count_prod t l). rewrite IH by (intro; apply N; right; assumption).
  rewrite count_z_cons. destruct (Z.eqb_spec k y) as [->|]; [exfalso; apply N; left; reflexivity|reflexivity].
Qed.
Lemma count_prod_cons ks y l : NoDup ks -> In y ks -> count_prod ks (y :: l) = y * count_prod ks l.
Proof.
  induction ks as [|k t IH]; intros N H; [destruct H|]. inversion N as [|? ? N1 N2]; subst.
  cbn [count_prod fold_right]. fold (count_prod t (y :: l)). fold (count_prod t l). rewrite count_z_cons.
  destruct (Z.eqb_spec k y) as [->|D].
  - rewrite count_prod_cons_out by exact N1. rewrite Z.pow_add_r by (pose proof (count_z_nonneg y l); lia). ring.
  - destruct H as [->|H]; [contradiction|]. rewrite IH by assumption. ring.
Qed.
Lemma count_prod_nil ks : count_prod ks [] = 1.
Proof. induction ks as [|k t IH]; [reflexivity|]. cbn [count_prod fold_right]. fold (count_prod t []). rewrite IH. reflexivity. Qed.
Lemma count_prod_all ks l : NoDup ks -> (forall x, In x l -> In x ks) -> count_prod ks l = zprod l.
Proof.
  intro N. induction l as [|y t IH]; intro H; [apply count_prod_nil|].
  rewrite count_prod_cons, zprod_cons, IH; auto; [intros; apply H; right; assumption|apply H; left; reflexivity].
Qed.

Lemma Qpower_Z x k : 0 <= k -> (Qpower (inject_Z x) k == inject_Z (x ^ k))%Q.
Proof. intro H. symmetry. apply Zpower_Qpower, H. Qed.

Lemma tally_m_value l : (factor_value (tally_m l) == inject_Z (zprod l))%Q.
Proof.
  rewrite <- (count_prod_all (dedup [] l) l); [|apply dedup_nodup|intros x Hx; apply dedup_in; cbn; tauto].
  unfold tally_m. induction (dedup [] l) as [|k t IH]; [reflexivity|].
  cbn [map]. rewrite factor_value_cons, IH. cbn [count_prod fold_right]. fold (count_prod t l).
  rewrite inject_Z_mult, Qpower_Z by apply count_z_nonneg. reflexivity.
Qed.
Lemma tally_m_keys l : map fst (tally_m l) = dedup [] l.
Proof. unfold tally_m. rewrite map_map. cbn [fst]. apply map_id. Qed.
Lemma tally_m_in l p k : In (p, k) (tally_m l) -> In p l /\ 1 <= k.
Proof.
  unfold tally_m. intro H. apply in_map_iff in H. destruct H as [x [E Hx]]. injection E as -> <-.
  apply dedup_in in Hx. destruct Hx as [Hx _]. split; [exact Hx|]. unfold count_z.
  assert (In p (filter (Z.eqb p) l)) by (apply filter_In; split; [exact Hx|apply Z.eqb_refl]).
  destruct (filter (Z.eqb p) l); [destruct H|cbn [length]; lia].
Qed.

(* ---- FactorInteger ---- *)
Lemma factor_positive_ok n fuel : 2 <= n -> (Z.to_nat n <= fuel)%nat ->
  exists l, factor_positive fuel n = Some l /\ (factor_value l == inject_Z n)%Q /\ increasing (map fst l) /\
    (forall p k, In (p, k) l -> prime p /\ 1 <= k).
Proof.
  intros Hn Hf. unfold factor_positive. destruct (Z.eqb_spec n 1); [lia|].
  destruct (factor_loop_ok fuel n ltac:(lia) ltac:(lia)) as [fs [E [P [Pr _]]]]. rewrite E.
  eexists. split; [reflexivity|]. pose proof (sort_pairs_perm (tally_m fs)) as SP. split; [|split].
  - rewrite <- (factor_value_perm _ _ SP), tally_m_value, P. reflexivity.
  - apply sort_pairs_increasing. rewrite tally_m_keys. apply dedup_nodup.
  - intros p k H. apply (Permutation_in _ (Permutation_sym SP)) in H. apply tally_m_in in H. destruct H. auto.
Qed.

Lemma delete_11_id l : (forall p k, In (p, k) l -> p <> 1) -> delete_11 l = l.
Proof.
  induction l as [|[p k] t IH]; intro H; [reflexivity|]. cbn [delete_11 filter fst snd]. fold (delete_11 t).
  destruct (Z.eqb_spec p 1) as [->|]; [exfalso; apply (H 1 k); [left|]; reflexivity|].
  cbn [negb andb]. f_equal. apply IH. intros q j Hq. apply (H q j). right. exact Hq.
Qed.

Lemma increasing_cons x l : (forall y, In y l -> x < y) -> increasing l -> increasing (x :: l).
Proof. destruct l as [|y t]; intros H I; [exact Logic.I|]. split; [apply H; left; reflexivity|exact I]. Qed.

Lemma factor_integer_ok n fuel : 2 <= Z.abs n -> (Z.to_nat (Z.abs n) <= fuel)%nat ->
  exists l, factor_integer fuel n = Some l /\ (factor_value l == inject_Z n)%Q /\ increasing (map fst l) /\
    (forall p k, In (p, k) l -> (n < 0 /\ p = -1 /\ k = 1) \/ (prime p /\ 1 <= k)).
Proof.
  intros Hn Hf. unfold factor_integer. destruct (Z.eqb_spec n 0); [lia|]. destruct (Z.ltb_spec 0 n) as [H|H].
  - destruct (factor_positive_ok n fuel) as [l [E [V [Inc P]]]]; [lia|lia|]. exists l. rewrite E. repeat split; auto.
  - destruct (factor_positive_ok (- n) fuel) as [l [E [V [Inc P]]]]; [lia|lia|]. rewrite E.
    exists ((-1, 1) :: l). split; [|split; [|split]].
    + f_equal. apply delete_11_id. intros p k [X|X]; [injection X as <- <-; lia|]. destruct (P p k X) as [Pp _].
      pose proof (prime_ge_2 p Pp). lia.
    + rewrite factor_value_cons, V, inject_Z_opp. change (Qpower (inject_Z (-1)) 1) with (-(1))%Q. ring.
    + apply increasing_cons; [|exact Inc]. intros y Hy. apply in_map_iff in Hy. destruct Hy as [[p k] [<- X]].
      destruct (P p k X) as [Pp _]. pose proof (prime_ge_2 p Pp). cbn. lia.
    + intros p k [X|X]; [injection X as <- <-; left; repeat split; lia|right; apply P, X].
Qed.

(* the same list for 1 and -1 with the entry {1, 1} removed *)
Lemma factor_integer_unit n fuel : Z.abs n = 1 -> exists l, factor_integer fuel n = Some l /\
  (forall l', delete_11 (l ++ l') = (if n <? 0 then [(-1, 1)] else []) ++ delete_11 l').
Proof.
  intro H. assert (n = 1 \/ n = -1) as [-> | ->] by lia; eexists; (split; [reflexivity|]); intro l'; reflexivity.
Qed.

Lemma delete_11_app a b : delete_11 (a ++ b) = delete_11 a ++ delete_11 b.
Proof. apply filter_app. Qed.
Lemma delete_11_perm a b : Permutation a b -> Permutation (delete_11 a) (delete_11 b).
Proof.
  induction 1 as [|x l l' _ IH|x y l|l1 l2 l3 _ IH1 _ IH2].
  - constructor.
  - cbn [delete_11 filter]. fold (delete_11 l). fold (delete_11 l'). destruct (negb _); [constructor|]; exact IH.
  - cbn [delete_11 filter]. fold (delete_11 l). destruct (negb _), (negb _); try reflexivity. apply perm_swap.
  - eapply perm_trans; eauto.
Qed.
Lemma increasing_lt l : forall x, increasing (x :: l) -> forall y, In y l -> x < y.
Proof.
  induction l as [|z t IH]; intros x H y Hy; [destruct Hy|]. destruct H as [H1 H2].
  destruct Hy as [<-|Hy]; [exact H1|]. specialize (IH z H2 y Hy). lia.
Qed.
Lemma increasing_tail x l : increasing (x :: l) -> increasing l.
Proof. destruct l; [intros; exact I|intros [_ H]; exact H]. Qed.
Lemma delete_11_increasing l : increasing (map fst l) -> increasing (map fst (delete_11 l)).
Proof.
  induction l as [|x t IH]; intro H; [exact I|]. cbn [map] in H. cbn [delete_11 filter]. fold (delete_11 t).
  pose proof (IH (increasing_tail _ _ H)) as IHt. destruct (negb _); [|exact IHt]. cbn [map].
  apply increasing_cons; [|exact IHt]. intros y Hy. apply (increasing_lt _ _ H).
  apply in_map_iff in Hy. destruct Hy as [p [<- Hp]]. apply filter_In in Hp. apply in_map, Hp.
Qed.

Lemma increasing_nodup l : increasing l -> NoDup l.
Proof.
  induction l as [|x t IH]; intro H; [constructor|]. constructor; [|apply IH, (increasing_tail _ _ H)].
  intro C. pose proof (increasing_lt _ _ H x C). lia.
Qed.

Lemma factor_value_divides l n p k : (factor_value l == inject_Z n)%Q -> (forall q j, In (q, j) l -> 1 <= j) ->
  In (p, k) l -> (p | n).
Proof.
  intros V K H. assert (E : exists m, (factor_value l == inject_Z m)%Q /\ (p | m)).
  { clear V n. induction l as [|[q j] t IH]; [destruct H|].
    assert (Kt : forall q j, In (q, j) t -> 1 <= j) by (intros a b Hab; apply (K a b); right; exact Hab).
    assert (Iv : exists m, (factor_value t == inject_Z m)%Q).
    { clear IH H K. induction t as [|[a b] s IHs]; [exists 1; reflexivity|].
      destruct IHs as [m Hm]; [intros c d Hcd; apply (Kt c d); right; exact Hcd|].
      exists (a ^ b * m). assert (1 <= b) by (apply (Kt a b); left; reflexivity).
      rewrite factor_value_cons, Qpower_Z, inject_Z_mult, Hm by lia. reflexivity. }
    assert (Hj : 1 <= j) by (apply (K q j); left; reflexivity).
    destruct H as [H|H].
    - injection H as -> ->. destruct Iv as [m Hm]. exists (p ^ k * m). split.
      + rewrite factor_value_cons, Qpower_Z, inject_Z_mult, Hm by lia. reflexivity.
      + replace k with (Z.succ (k - 1)) by lia. rewrite Z.pow_succ_r by lia. exists (p ^ (k - 1) * m). ring.
    - destruct (IH Kt H) as [m [Hm D]]. exists (q ^ j * m). split.
      + rewrite factor_value_cons, Qpower_Z, inject_Z_mult, Hm by lia. reflexivity.
      + apply Z.divide_mul_r, D. }
  destruct E as [m [Hm D]]. rewrite V in Hm. apply (proj1 (inject_Z_injective n m)) in Hm. rewrite Hm. exact D.
Qed.

Lemma factor_rational_ok n d fuel : n <> 0 -> 2 <= d -> Z.gcd n d = 1 -> (Z.to_nat (Z.abs n) + Z.to_nat d <= fuel)%nat ->
  exists l, factor_rational fuel n d = Some l /\ (factor_value l == inject_Z n / inject_Z d)%Q /\ increasing (map fst l) /\
    (forall p k, In (p, k) l -> (n < 0 /\ p = -1 /\ k = 1) \/ (prime p /\ k <> 0)).
Proof.
  intros Hn Hd G Hf. unfold factor_rational.
  destruct (factor_integer_ok d fuel) as [b [Eb [Vb [Ib Pb]]]]; [lia|lia|]. rewrite Eb.
  assert (Pb' : forall p k, In (p, k) b -> prime p /\ 1 <= k).
  { intros p k X. destruct (Pb p k X) as [[? _]|?]; [lia|assumption]. }
  clear Pb. set (nb := map (fun pk => (fst pk, - snd pk)) b).
  assert (Vnb : (factor_value nb == / inject_Z d)%Q).
  { unfold nb. rewrite factor_value_neg, Vb; [reflexivity|]. intros p k X. destruct (Pb' p k X) as [Pp _].
    pose proof (prime_ge_2 p Pp). lia. }
  assert (Knb : map fst nb = map fst b) by (unfold nb; rewrite map_map; reflexivity).
  assert (Pnb : forall p k, In (p, k) nb -> prime p /\ k <= -1 /\ (p | d)).
  { intros p k X. unfold nb in X. apply in_map_iff in X. destruct X as [[q j] [E X]]. cbn in E. injection E as -> <-.
    destruct (Pb' p j X) as [Pp Kp]. split; [exact Pp|split; [lia|]].
    apply (factor_value_divides b d p j Vb); [intros; eapply Pb'; eassumption|exact X]. }
  assert (Dnb : delete_11 nb = nb).
  { apply delete_11_id. intros p k X. destruct (Pnb p k X) as [Pp _]. pose proof (prime_ge_2 p Pp). lia. }
  assert (Ex : exists a, factor_integer fuel n = Some a /\ exists a', (forall l', delete_11 (a ++ l') = a' ++ delete_11 l') /\
     (factor_value a' == inject_Z n)%Q /\ increasing (map fst a') /\ NoDup (map fst a) /\
     (forall p k, In (p, k) a' -> (n < 0 /\ p = -1 /\ k = 1) \/ (prime p /\ 1 <= k)) /\
     (forall p, In p (map fst a) -> p = 1 \/ In p (map fst a'))).
  { destruct (Z.eq_dec (Z.abs n) 1) as [E1|N1].
    - assert (n = 1 \/ n = -1) as [-> | ->] by lia; eexists; (split; [reflexivity|]).
      + exists []. split; [intro; reflexivity|]. split; [reflexivity|]. split; [exact I|].
        split; [repeat constructor; intros []|]. split; [intros p k []|]. intros p [<-|[]]. left. reflexivity.
      + exists [(-1, 1)]. split; [intro; reflexivity|]. split; [reflexivity|]. split; [exact I|].
        split; [repeat constructor; intros []|]. split; [intros p k [X|[]]; injection X as <- <-; left; repeat split; lia|].
        intros p [<-|[]]. right. left. reflexivity.
    - destruct (factor_integer_ok n fuel) as [a [Ea [Va [Ia Pa]]]]; [lia|lia|]. exists a. split; [exact Ea|].
      exists a. split; [|split; [exact Va|split; [exact Ia|split; [apply increasing_nodup, Ia|split; [exact Pa|tauto]]]]].
      intro l'. rewrite delete_11_app. f_equal. apply delete_11_id. intros p k X.
      destruct (Pa p k X) as [[_ [-> _]]|[Pp _]]; [lia|]. pose proof (prime_ge_2 p Pp). lia. }
  destruct Ex as [a [Ea [a' [Da [Va [Ia [Na [Pa Ka]]]]]]]]. rewrite Ea.
  pose proof (sort_pairs_perm (a ++ nb)) as SP. pose proof (delete_11_perm _ _ SP) as DP.
  rewrite Da, Dnb in DP.
  assert (PA : forall p k, In (p, k) a' -> p <> -1 -> (p | n)).
  { intros p k X N. apply (factor_value_divides a' n p k Va); [|exact X].
    intros q j Y. destruct (Pa q j Y) as [[_ [_ ->]]|[_ ?]]; lia. }
  eexists. split; [reflexivity|]. split; [|split].
  - rewrite <- (factor_value_perm _ _ DP), factor_value_app, Va, Vnb. reflexivity.
  - apply delete_11_increasing, sort_pairs_increasing. rewrite map_app, Knb.
    assert (ND : forall u v : list Z, NoDup u -> NoDup v -> (forall x, In x u -> ~ In x v) -> NoDup (u ++ v)).
    { induction u as [|x u IHu]; intros v Nu Nv D; [exact Nv|]. inversion Nu; subst. cbn. constructor.
      - rewrite in_app_iff. intros [C|C]; [contradiction|]. apply (D x); [left; reflexivity|exact C].
      - apply IHu; auto. intros y Hy. apply D. right. exact Hy. }
    apply ND; [exact Na|apply increasing_nodup, Ib|]. intros p Hp Hq.
    rewrite <- Knb in Hq. apply in_map_iff in Hq. destruct Hq as [[q j] [E Hq]]. cbn in E. subst q.
    destruct (Pnb p j Hq) as [Pp [_ Dd]]. pose proof (prime_ge_2 p Pp).
    destruct (Ka p Hp) as [->|Hp']; [lia|]. apply in_map_iff in Hp'. destruct Hp' as [[q k] [E Hp']]. cbn in E. subst q.
    assert (D1 : (p | n)) by (apply (PA p k Hp'); lia).
    assert (D2 : (p | 1)) by (rewrite <- G; apply Z.gcd_greatest; assumption).
    apply Z.divide_1_r_nonneg in D2; lia.
  - intros p k X. apply (Permutation_in _ (Permutation_sym DP)) in X. apply in_app_iff in X.
    destruct X as [X|X]; [destruct (Pa p k X) as [?|[? ?]]; [left; assumption|right; split; [assumption|lia]]|].
    destruct (Pnb p k X) as [? [? _]]. right. split; [assumption|lia].
Qed.

(* ---- EulerPhi: counting ---- *)
Definition cntb (f : Z -> bool) (n : nat) : Z := Z.of_nat (length (filter (fun k => f (Z.of_nat k)) (seq 0 n))).
Lemma cntb_S f n : cntb f (S n) = cntb f n + if f (Z.of_nat n) then 1 else 0.
Proof.
  unfold cntb. rewrite seq_S, filter_app, app_length. cbn [plus filter]. destruct (f (Z.of_nat n)); cbn [length]; lia.
Qed.
Lemma cntb_ext f g n : (forall k, 0 <= k < Z.of_nat n -> f k = g k) -> cntb f n = cntb g n.
Proof.
  induction n as [|n IH]; intro H; [reflexivity|]. rewrite !cntb_S, IH by (intros; apply H; lia). rewrite H by lia. reflexivity.
Qed.
(* multiples of p below p*m *)
Lemma cntb_multiples f p m : 1 <= p ->
  cntb (fun k => (k mod p =? 0) && f k) (Z.to_nat p * m) = cntb (fun j => f (p * j)) m.
Proof.
  intro Hp. induction m as [|m IH]; [rewrite Nat.mul_0_r; reflexivity|].
  rewrite cntb_S, <- IH. clear IH. rewrite Nat.mul_succ_r.
  set (g := fun k => (k mod p =? 0) && f k). set (N := (Z.to_nat p * m)%nat).
  assert (forall r, (0 <= r)%nat -> (r <= Z.to_nat p)%nat -> cntb g (N + r) = cntb g N + if (r =? 0)%nat then 0 else if f (p * Z.of_nat m) then 1 else 0).
  { induction r as [|r IH]; intros _ H; [rewrite Nat.add_0_r; cbn; lia|].
    rewrite Nat.add_succ_r, cntb_S, IH by lia. cbn [Nat.eqb].
    assert (E : Z.of_nat (N + r) = p * Z.of_nat m + Z.of_nat r) by (unfold N; rewrite Nat2Z.inj_add, Nat2Z.inj_mul; lia).
    rewrite E. unfold g. cbv beta. destruct (Nat.eqb_spec r 0) as [R0|Nr].
    - rewrite R0. change (Z.of_nat 0) with 0. rewrite Z.add_0_r. rewrite (Z.mul_comm p (Z.of_nat m)). rewrite (Z.add_0_r (Z.of_nat m * p)), Z.mod_mul by lia. cbn [Z.eqb andb]. destruct (f _); lia.
    - replace (p * Z.of_nat m + Z.of_nat r) with (Z.of_nat r + Z.of_nat m * p) by ring. rewrite Z.mod_add by lia.
      rewrite Z.mod_small by lia. destruct (Z.eqb_spec (Z.of_nat r) 0); [lia|]. cbn [andb]. lia. }
  rewrite H by lia. destruct (Nat.eqb_spec (Z.to_nat p) 0); [lia|]. reflexivity.
Qed.
Lemma cntb_split f g n : cntb f n = cntb (fun k => g k && f k) n + cntb (fun k => negb (g k) && f k) n.
Proof.
  induction n as [|n IH]; [reflexivity|]. rewrite !cntb_S, IH. destruct (g (Z.of_nat n)), (f (Z.of_nat n)); cbn; lia.
Qed.

(* none of the primes divides k *)
Definition avoids (ps : list Z) (k : Z) : bool := forallb (fun p => negb (k mod p =? 0)) ps.
Definition phi_prod (ps : list Z) : Q := fold_right (fun p v => (1 - 1 / inject_Z p) * v)%Q 1%Q ps.

Lemma cntb_true n : cntb (fun _ => true) n = Z.of_nat n.
Proof. induction n as [|n IH]; [reflexivity|]. rewrite cntb_S, IH. lia. Qed.

Lemma avoid_count ps : forall N, NoDup ps -> (forall p, In p ps -> prime p) -> 0 <= N -> (zprod ps | N) ->
  (inject_Z (cntb (avoids ps) (Z.to_nat N)) == inject_Z N * phi_prod ps)%Q.
Proof.
  induction ps as [|p ps IH]; intros N ND P HN D.
  - change (avoids []) with (fun _ : Z => true). rewrite cntb_true, Z2Nat.id by exact HN. change (phi_prod []) with 1%Q. ring.
  - inversion ND as [|? ? N1 N2]; subst. assert (Pp : prime p) by (apply P; left; reflexivity).
    assert (Ps : forall q, In q ps -> prime q) by (intros q Hq; apply P; right; exact Hq).
    pose proof (prime_ge_2 p Pp). rewrite zprod_cons in D. destruct D as [c Hc].
    set (M := c * zprod ps). assert (EN : N = p * M) by (unfold M; lia). assert (HM : 0 <= M) by nia.
    pose proof (cntb_split (avoids ps) (fun k => k mod p =? 0) (Z.to_nat N)) as SPL. cbv beta in SPL.
    assert (E1 : cntb (fun k => negb (k mod p =? 0) && avoids ps k) (Z.to_nat N) = cntb (avoids (p :: ps)) (Z.to_nat N)) by reflexivity.
    rewrite E1 in SPL.
    assert (E2 : cntb (fun k => (k mod p =? 0) && avoids ps k) (Z.to_nat N) = cntb (avoids ps) (Z.to_nat M)).
    { rewrite EN, Z2Nat.inj_mul by lia. rewrite cntb_multiples by lia. apply cntb_ext. intros k Hk.
      unfold avoids. clear - Pp Ps N1. induction ps as [|q t IHt]; [reflexivity|]. cbn [forallb].
      rewrite IHt; [|intro; apply N1; right; assumption|intros; apply Ps; right; assumption]. f_equal. f_equal.
      assert (Pq : prime q) by (apply Ps; left; reflexivity). pose proof (prime_ge_2 q Pq).
      destruct (Z.eqb_spec (p * k mod q) 0) as [A|A], (Z.eqb_spec (k mod q) 0) as [B|B]; try reflexivity; exfalso.
      - apply Z.mod_divide in A; [|lia]. apply prime_mult in A; [|exact Pq]. destruct A as [A|A].
        + apply (prime_div_prime q p) in A; auto. subst q. apply N1. left. reflexivity.
        + apply B. apply Z.mod_divide; [lia|exact A].
      - apply A. apply Z.mod_divide; [lia|]. apply Z.mod_divide in B; [|lia]. apply Z.divide_mul_r, B. }
    rewrite E2 in SPL.
    assert (D1 : (zprod ps | N)) by (exists (c * p); lia).
    assert (D2 : (zprod ps | M)) by (exists c; reflexivity).
    pose proof (IH N N2 Ps HN D1) as I1. pose proof (IH M N2 Ps HM D2) as I2.
    assert (E3 : cntb (avoids (p :: ps)) (Z.to_nat N) = cntb (avoids ps) (Z.to_nat N) - cntb (avoids ps) (Z.to_nat M)) by lia.
    rewrite E3. unfold Z.sub. rewrite inject_Z_plus, inject_Z_opp, I1, I2. rewrite EN. cbn [phi_prod fold_right].
    fold (phi_prod ps). rewrite inject_Z_mult.
    assert (~ inject_Z p == 0)%Q by (intro C; apply (proj1 (inject_Z_injective p 0)) in C; lia). field. assumption.
Qed.
