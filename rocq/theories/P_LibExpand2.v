(* Lemmas for Expand: the exponents that possibleExponents lists. *)
From Verif Require Import M_Syntax M_Float M_Hash M_Num M_NumTheory M_Comb M_Compare M_List M_LibExpand S_Comb S_Field P_Comb P_Hash P_LibExpand.
From Coq Require Import List Permutation Lia Arith ZArith.
Import ListNotations.
Open Scope nat_scope.

(* ---- partitions as sorted vectors ---- *)
Fixpoint ins (k : nat) (p : list nat) : list nat :=
  match p with [] => [k] | x :: t => if x <=? k then k :: p else x :: ins k t end.
Lemma ins_perm k p : Permutation (k :: p) (ins k p).
Proof. induction p as [|x t IH]; cbn; [reflexivity|]. destruct (x <=? k); [reflexivity|]. rewrite perm_swap. constructor. exact IH. Qed.
Lemma ins_nonincr k p : nonincreasing p -> nonincreasing (ins k p).
Proof.
  induction p as [|x t IH]; intro H; [exact I|]. cbn [ins]. destruct (Nat.leb_spec x k).
  - rewrite nonincr_cons. auto.
  - rewrite nonincr_cons in H. destruct H as [H1 H2]. rewrite nonincr_cons. split; [|auto].
    destruct t as [|y t]; cbn [ins]; [lia|]. destruct (y <=? k); lia.
Qed.
Lemma sorted_exists e : exists p z, Permutation e (p ++ repeat 0 z) /\ nonincreasing p /\ (forall i, In i p -> 1 <= i).
Proof.
  induction e as [|k e [p [z [H1 [H2 H3]]]]]; [exists [], 0; split; [reflexivity|split; [exact Logic.I|intros i []]]|].
  destruct k as [|k].
  - exists p, (S z). split; [|auto]. cbn [repeat]. rewrite H1. apply Permutation_middle.
  - exists (ins (S k) p), z. split; [|split; [apply ins_nonincr, H2|]].
    + rewrite H1. rewrite <- (ins_perm (S k) p). reflexivity.
    + intros i Hi. apply (Permutation_in _ (Permutation_sym (ins_perm (S k) p))) in Hi. destruct Hi as [<-|Hi]; [lia|auto].
Qed.
Lemma nonincr_ge p : nonincreasing p -> forall x t, p = x :: t -> forall i, In i t -> i <= x.
Proof.
  induction p as [|y q IH]; intros H x t E i Hi; [discriminate|]. injection E as -> ->.
  rewrite nonincr_cons in H. destruct H as [H1 H2]. destruct t as [|z t]; [destruct Hi|].
  destruct Hi as [<-|Hi]; [exact H1|]. specialize (IH H2 z t eq_refl i Hi). lia.
Qed.
Lemma nonincr_perm_eq : forall p q, nonincreasing p -> nonincreasing q -> Permutation p q -> p = q.
Proof.
  induction p as [|x p IH]; intros [|y q] Hp Hq P; [reflexivity|apply Permutation_nil in P; discriminate|symmetry in P; apply Permutation_nil in P; discriminate|].
  assert (x = y).
  { assert (In x (y :: q)) by (apply (Permutation_in _ P); left; auto). assert (In y (x :: p)) by (apply (Permutation_in _ (Permutation_sym P)); left; auto).
    destruct H as [<-|H]; [auto|]. destruct H0 as [<-|H0]; [auto|].
    pose proof (nonincr_ge _ Hp x p eq_refl y H0). pose proof (nonincr_ge _ Hq y q eq_refl x H). lia. }
  subst y. f_equal. apply IH; [apply nonincr_cons in Hp; tauto|apply nonincr_cons in Hq; tauto|]. apply Permutation_cons_inv in P. exact P.
Qed.
Lemma nonincr_zeros p z : nonincreasing p -> nonincreasing (p ++ repeat 0 z).
Proof.
  induction p as [|x p IH]; intro H.
  - cbn. induction z as [|[|z] IHz]; cbn in *; auto.
  - cbn [app]. rewrite nonincr_cons in *. destruct H as [H1 H2]. split; [|auto]. destruct p; cbn [app]; [destruct z; cbn; [exact I|lia]|exact H1].
Qed.
Lemma nsum_app a b : nsum (a ++ b) = nsum a + nsum b.
Proof. induction a; [reflexivity|]. cbn [app]. rewrite !nsum_cons, IHa. lia. Qed.
Lemma nsum_zeros z : nsum (repeat 0 z) = 0.
Proof. induction z; [reflexivity|]. cbn [repeat]. rewrite nsum_cons. exact IHz. Qed.
Lemma nsum_perm a b : Permutation a b -> nsum a = nsum b.
Proof. induction 1; rewrite ?nsum_cons; lia. Qed.
Lemma nsum_ge i e : In i e -> i <= nsum e.
Proof. induction e as [|k e IH]; [intros []|]. rewrite nsum_cons. intros [<-|H]; [lia|]. specialize (IH H). lia. Qed.
Lemma app_zeros_inj p q a b : (forall i, In i p -> 1 <= i) -> (forall i, In i q -> 1 <= i) -> p ++ repeat 0 a = q ++ repeat 0 b -> p = q.
Proof.
  revert q. induction p as [|x p IH]; intros [|y q] Hp Hq E; [reflexivity| | |].
  - cbn in E. destruct a; [discriminate|]. cbn in E. injection E as E1 E2. specialize (Hq y (or_introl eq_refl)). lia.
  - cbn in E. destruct b; [discriminate|]. cbn in E. injection E as E1 E2. specialize (Hp x (or_introl eq_refl)). lia.
  - cbn in E. injection E as E1 E2. subst. f_equal. apply IH; auto; intros; [apply Hp|apply Hq]; right; assumption.
Qed.

Definition padded (m : nat) (p : list nat) : list nat := p ++ repeat 0 (m - length p).
Lemma padded_length m p : length p <= m -> length (padded m p) = m.
Proof. intro H. unfold padded. rewrite app_length, repeat_length. lia. Qed.

(* ---- integers as expressions ---- *)
Lemma ints_inj a b : ints a = ints b -> a = b.
Proof.
  revert b. induction a as [|x a IH]; intros [|y b] E; try discriminate; [reflexivity|]. cbn in E. injection E as E1 E2. f_equal; [lia|auto].
Qed.
Lemma ints_perm q (p : list ex) : Permutation p (ints q) -> exists q', p = ints q' /\ Permutation q' q.
Proof.
  intro H. unfold ints in H. apply Permutation_map_inv in H. destruct H as [q' [E P]]. exists q'. split; [exact E|symmetry; exact P].
Qed.
Lemma ints_padded m p : length p <= m -> (Z.of_nat m < 2 ^ 63)%Z ->
  pad_right_eval [mkList (ints p); EInt (Z.of_nat m)] = Some (mkList (ints (padded m p))).
Proof.
  intros H Hm. unfold pad_right_eval, pad_params, mkList. 
  replace (wrap64 (Z.of_nat m)) with (Z.of_nat m).
  2:{ unfold wrap64. rewrite Z.mod_small; lia. }
  rewrite Nat2Z.id. unfold sys. do 3 f_equal.
  apply nth_ext with (d := EInt 0) (d' := EInt 0).
  - rewrite map_length, seq_length. unfold ints. rewrite map_length, padded_length by exact H. reflexivity.
  - intros i Hi. rewrite map_length, seq_length in Hi.
    rewrite nth_indep with (d' := (fun i => nth i (ints p) (EInt 0)) 0) by (rewrite map_length, seq_length; exact Hi).
    rewrite (map_nth (fun i => nth i (ints p) (EInt 0))), seq_nth by exact Hi. cbn [plus].
    pose proof (fun l => map_nth (fun k => EInt (Z.of_nat k)) l 0 i) as MN. cbv beta in MN. change (EInt (Z.of_nat 0)) with (EInt 0) in MN.
    unfold ints, padded. rewrite !MN. apply (f_equal (fun k => EInt (Z.of_nat k))).
    destruct (Nat.lt_ge_cases i (length p)).
    + rewrite app_nth1 by assumption. reflexivity.
    + rewrite app_nth2 by assumption. rewrite nth_overflow by assumption. symmetry.
      destruct (Nat.lt_ge_cases (i - length p) (m - length p)); [apply nth_repeat|apply nth_overflow; rewrite repeat_length; assumption].
Qed.

Lemma omap_map {A B C} (f : B -> option C) (g : A -> B) (h : A -> C) l : (forall x, In x l -> f (g x) = Some (h x)) -> omap f (map g l) = Some (map h l).
Proof.
  induction l as [|x l IH]; intro H; [reflexivity|]. cbn [map omap]. rewrite (H x) by (left; auto). rewrite IH; [reflexivity|]. intros; apply H; right; auto.
Qed.
Lemma flat_level0 h (l : list ex) : flat_map (flat_arg h 0) l = l.
Proof. induction l as [|x l IH]; [reflexivity|]. cbn [flat_map]. rewrite IH. destruct x as [| | | | | |[|y t]]; reflexivity. Qed.
Lemma flatten1 (ls : list (list ex)) : flatten_eval [mkList (map mkList ls); EInt 1] = Some (mkList (concat ls)).
Proof.
  unfold flatten_eval, mkList at 1. change (wrap64 1) with 1%Z. unfold flatten_args. f_equal. unfold mkList at 2. f_equal. f_equal.
  induction ls as [|l ls IH]; [reflexivity|]. cbn [map flat_map concat]. rewrite IH. f_equal.
  unfold mkList. cbn [flat_arg]. rewrite sameq_refl. change (0 <? 1)%Z with true. cbn [andb]. apply flat_level0.
Qed.

Definition perms_of (m : nat) (p : list nat) : list (list ex) := gen_perms m (ints (padded m p)).
Lemma possible_exponents_shape n m : (0 < n < 2 ^ 63)%Z -> (Z.of_nat m < 2 ^ 63)%Z ->
  possible_exponents n (Z.of_nat m) = Some (mkList (map mkList (flat_map (perms_of m) (gen_parts m (Z.to_nat n) (Z.to_nat n))))).
Proof.
  intros Hn Hm. unfold possible_exponents, int_partitions_eval.
  destruct (Z.ltb_spec n 0); [lia|]. destruct (Z.eqb_spec n 0); [lia|].
  assert (W : forall z, (0 <= z < 2 ^ 63)%Z -> wrap64 z = z) by (intros z Hz; unfold wrap64; rewrite Z.mod_small; lia).
  rewrite !W by lia. rewrite Nat2Z.id. 
  set (L := gen_parts m (Z.to_nat n) (Z.to_nat n)).
  assert (HL : forall p, In p L -> length p <= m).
  { intros p Hp. apply gen_parts_in in Hp; [|lia|lia]. destruct Hp as [[_ [_ [_ H1]]] _]. exact H1. }
  change (list_parts (mkList (map (fun p => mkList (map (fun i => EInt (Z.of_nat i)) p)) L))) with (Some (map (fun p => mkList (ints p)) L)). cbv iota beta.
  rewrite (omap_map _ _ (fun p => mkList (ints (padded m p)))).
  2:{ intros p Hp. apply ints_padded; auto. }
  rewrite (omap_map _ _ (fun p => mkList (map mkList (perms_of m p)))).
  2:{ intros p Hp. unfold permutations_eval, mkList at 1. unfold perms_of. unfold ints at 1. rewrite map_length, padded_length by auto. reflexivity. }
  replace (map (fun p => mkList (map mkList (perms_of m p))) L) with (map mkList (map (fun p => map mkList (perms_of m p)) L)) by (rewrite map_map; reflexivity).
  rewrite flatten1. f_equal. f_equal. rewrite flat_map_concat_map, concat_map, map_map. reflexivity.
Qed.

(* SameQ tells the integers 0, ..., n apart *)
Definition small_ints_apart (n : nat) : Prop := sameq_faithful (ints (seq 0 (S n))).

Lemma faithful_incl l l' : incl l l' -> sameq_faithful l' -> sameq_faithful l.
Proof. intros H F a b Ha Hb. apply F; auto. Qed.

Lemma exps_list n m : (0 < n < 2 ^ 63)%Z -> (Z.of_nat m < 2 ^ 63)%Z -> small_ints_apart (Z.to_nat n) ->
  exists X, possible_exponents n (Z.of_nat m) = Some (mkList (map (fun e => mkList (ints e)) X)) /\
    NoDup X /\ forall e, In e X <-> length e = m /\ nsum e = Z.to_nat n.
Proof.
  intros Hn Hm Fa. rewrite possible_exponents_shape by assumption.
  set (N := Z.to_nat n) in *. set (L := gen_parts m N N).
  assert (HL : forall p, In p L <-> is_partition N m p).
  { intro p. unfold L. rewrite gen_parts_in by lia. split; [tauto|]. intro Hp. split; [exact Hp|]. destruct p as [|x p]; [exact I|].
    destruct Hp as [E _]. rewrite nsum_cons in E. lia. }
  assert (NL : NoDup L) by (apply lex_dec_nodup, gen_parts_lex).
  assert (Sound : forall p, In p L -> forall y, In y (perms_of m p) -> exists e, y = ints e /\ Permutation e (padded m p)).
  { intros p Hp y Hy. apply HL in Hp. unfold perms_of in Hy. apply gen_perms_sound in Hy; [apply ints_perm, Hy|].
    unfold ints. rewrite map_length, padded_length; [reflexivity|]. unfold is_partition in Hp; tauto. }
  assert (Comp : forall p, In p L -> forall e, Permutation e (padded m p) -> In (ints e) (perms_of m p)).
  { intros p Hp e He. apply HL in Hp. destruct Hp as [P1 [P2 [P3 P4]]]. unfold perms_of. apply gen_perms_complete.
    - unfold ints. rewrite map_length, padded_length by exact P4. reflexivity.
    - destruct p as [|x p]; [cbn in P1; lia|]. discriminate.
    - apply (faithful_incl _ (ints (seq 0 (S N)))); [|exact Fa]. intros y Hy. apply in_map_iff in Hy. destruct Hy as [k [<- Hk]].
      apply in_map_iff. exists k. split; [reflexivity|]. apply in_seq. apply nsum_ge in Hk. unfold padded in Hk. rewrite nsum_app, nsum_zeros in Hk. lia.
    - unfold ints. apply Permutation_map, He. }
  set (Y := flat_map (perms_of m) L).
  assert (YI : forall y, In y Y -> exists e, y = ints e).
  { intros y Hy. apply in_flat_map in Hy. destruct Hy as [p [Hp Hy]]. destruct (Sound p Hp y Hy) as [e [E _]]. eauto. }
  assert (NY : NoDup Y).
  { apply NoDup_flat; [exact NL|intros; apply gen_perms_nodup|]. intros p q y Hp Hq Hy Hy'.
    destruct (Sound p Hp y Hy) as [e [-> P]]. destruct (Sound q Hq (ints e) Hy') as [e' [E P']]. apply ints_inj in E. subst e'.
    apply HL in Hp. apply HL in Hq. destruct Hp as [_ [P2 [P3 _]]], Hq as [_ [Q2 [Q3 _]]].
    apply (app_zeros_inj p q (m - length p) (m - length q)); auto.
    apply nonincr_perm_eq; [apply nonincr_zeros, P3|apply nonincr_zeros, Q3|]. fold (padded m p). fold (padded m q).
    rewrite <- P, <- P'. reflexivity. }
  assert (EX : exists X, Y = map ints X).
  { clear - YI. induction Y as [|y Y IH]; [exists []; reflexivity|]. destruct IH as [X ->]; [intros; apply YI; right; auto|].
    destruct (YI y (or_introl eq_refl)) as [e ->]. exists (e :: X). reflexivity. }
  destruct EX as [X EX]. exists X. split; [rewrite EX, map_map; reflexivity|]. split.
  - rewrite EX in NY. apply NoDup_map_inv in NY. exact NY.
  - intro e. assert (IX : In e X <-> In (ints e) Y).
    { rewrite EX, in_map_iff. split; [eauto|]. intros [e' [E H]]. apply ints_inj in E. subst. exact H. }
    rewrite IX. unfold Y. rewrite in_flat_map. split.
    + intros [p [Hp Hy]]. destruct (Sound p Hp _ Hy) as [e' [E P]]. apply ints_inj in E. subst e'. apply HL in Hp.
      destruct Hp as [P1 [_ [_ P4]]]. split; [rewrite (Permutation_length P); apply padded_length, P4|].
      rewrite (nsum_perm _ _ P). unfold padded. rewrite nsum_app, nsum_zeros. lia.
    + intros [H1 H2]. destruct (sorted_exists e) as [p [z [P [S1 S2]]]].
      assert (Len : length p + z = m) by (rewrite <- H1, (Permutation_length P), app_length, repeat_length; reflexivity).
      assert (In p L). { apply HL. split; [|split; [exact S2|split; [exact S1|lia]]]. rewrite <- H2, (nsum_perm _ _ P), nsum_app, nsum_zeros. lia. }
      exists p. split; [assumption|]. apply Comp; [assumption|]. unfold padded. replace (m - length p) with z by lia. exact P.
Qed.

