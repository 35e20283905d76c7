From Verif Require Import M_Syntax M_Float M_Hash M_NumTheory M_Comb S_Comb P_Hash.
From Coq Require Import Permutation.
Open Scope nat_scope.

Lemma nsum_cons x p : nsum (x :: p) = x + nsum p. Proof. reflexivity. Qed.

Lemma in_revseq i n : In i (rev (seq 1 n)) <-> 1 <= i <= n.
Proof. rewrite <- in_rev, in_seq. lia. Qed.

Lemma nonincr_cons x p : nonincreasing (x :: p) <-> (match p with [] => True | y :: _ => y <= x end) /\ nonincreasing p.
Proof. destruct p; cbn; tauto. Qed.

Lemma nsum_hd y p : y <= nsum (y :: p). Proof. rewrite nsum_cons. lia. Qed.

(* all partitions whose first part is at most [start] *)
Lemma gen_parts_in : forall k n start p, 1 <= n -> start <= n ->
  (In p (gen_parts k n start) <->
   is_partition n k p /\ match p with [] => True | x :: _ => x <= start end).
Proof.
  induction k as [|k IH]; intros n start p Hn Hs.
  - cbn. split; [tauto|]. intros [[H1 [_ [_ H2]]] _]. destruct p; [cbn in H1; lia|cbn in H2; lia].
  - cbn [gen_parts]. rewrite in_flat_map. split.
    + intros [i [Hi Hp]]. apply in_revseq in Hi. destruct (Nat.eqb_spec i n) as [->|N].
      * destruct Hp as [<-|[]]. split; [|lia]. split; [cbn; lia|]. split; [intros j [<-|[]]; lia|].
        split; [exact I|cbn; lia].
      * apply in_map_iff in Hp. destruct Hp as [q [<- Hq]].
        apply IH in Hq; [|lia|lia]. destruct Hq as [[Q1 [Q2 [Q3 Q4]]] Q5].
        split; [|lia]. split; [rewrite nsum_cons; lia|]. split; [intros j [<-|Hj]; [lia|auto]|].
        split; [|cbn; lia]. apply nonincr_cons. split; [|assumption]. destruct q; [exact I|lia].
    + intros [[P1 [P2 [P3 P4]]] P5]. destruct p as [|x q]; [cbn in P1; lia|].
      exists x. assert (1 <= x) by (apply P2; left; reflexivity).
      split; [apply in_revseq; lia|]. rewrite nsum_cons in P1.
      destruct (Nat.eqb_spec x n) as [->|N].
      * destruct q as [|y q]; [left; reflexivity|]. exfalso.
        assert (1 <= y) by (apply P2; right; left; reflexivity). rewrite nsum_cons in P1. lia.
      * apply in_map. apply IH; [lia|lia|]. apply nonincr_cons in P3. destruct P3 as [P3 P3'].
        split.
        -- split; [lia|]. split; [intros; apply P2; right; assumption|]. split; [assumption|cbn in P4; lia].
        -- destruct q as [|y q]; [exact I|]. rewrite nsum_cons in P1. lia.
Qed.

Lemma lex_dec_app l l' : lex_decreasing l -> lex_decreasing l' ->
  (forall p q, In p l -> In q l' -> lex_lt q p) -> lex_decreasing (l ++ l').
Proof.
  induction l as [|x t IH]; intros H H' C; [exact H'|]. destruct H as [H1 H2]. split.
  - intros q Hq. apply in_app_or in Hq. destruct Hq as [Hq|Hq]; [auto|apply C; [left; reflexivity|assumption]].
  - apply IH; [assumption|assumption|]. intros; apply C; [right|]; assumption.
Qed.
Lemma lex_dec_map i l : lex_decreasing l -> lex_decreasing (map (cons i) l).
Proof.
  induction l as [|x t IH]; [constructor|]. intros [H1 H2]. split; [|auto].
  intros q Hq. apply in_map_iff in Hq. destruct Hq as [r [<- Hr]]. apply lex_tail, H1, Hr.
Qed.

Lemma gen_parts_hd k n start p : In p (gen_parts k n start) -> exists x q, p = x :: q /\ 1 <= x <= start.
Proof.
  destruct k; [intros []|]. cbn [gen_parts]. rewrite in_flat_map. intros [i [Hi Hp]]. apply in_revseq in Hi.
  destruct (Nat.eqb i n).
  - destruct Hp as [<-|[]]. exists i, []. auto.
  - apply in_map_iff in Hp. destruct Hp as [q [<- _]]. exists i, q. auto.
Qed.

Lemma gen_parts_lex : forall k n start, lex_decreasing (gen_parts k n start).
Proof.
  induction k as [|k IH]; intros n start; [exact I|].
  cbn [gen_parts]. induction start as [|s IHs]; [exact I|].
  rewrite seq_S, rev_app_distr. cbn [rev app flat_map plus].
  apply lex_dec_app; [|apply IHs|].
  - destruct (Nat.eqb (S s) n); [split; [intros q []|exact I]|]. apply lex_dec_map, IH.
  - intros p q Hp Hq.
    assert (G : exists q', q = (hd 0 q) :: q' /\ hd 0 q <= s).
    { apply (gen_parts_hd (S k) n s) in Hq. destruct Hq as [x [q' [-> Hx]]]. exists q'. cbn. split; [reflexivity|lia]. }
    destruct G as [q' [-> Hq']]. cbn [hd] in Hq'.
    assert (P : exists p', p = S s :: p').
    { destruct (Nat.eqb (S s) n); [destruct Hp as [<-|[]]; eauto|].
      apply in_map_iff in Hp. destruct Hp as [p' [<- _]]. eauto. }
    destruct P as [p' ->]. apply lex_head. lia.
Qed.

Lemma lex_lt_irrefl p : ~ lex_lt p p.
Proof. induction p as [|x p IH]; intro H; inversion H; subst; [lia|auto]. Qed.

Lemma lex_dec_nodup l : lex_decreasing l -> NoDup l.
Proof.
  induction l as [|x t IH]; [constructor|]. intros [H1 H2]. constructor; [|auto].
  intro Hx. apply (lex_lt_irrefl x). auto.
Qed.

(* ---- permutations ---- *)
Lemma same_list_refl p : same_list p p = true.
Proof. induction p as [|x p IH]; [reflexivity|]. cbn [same_list]. rewrite sameq_refl. exact IH. Qed.

Lemma same_list_eq l : sameq_faithful l -> forall p q, incl p l -> incl q l -> same_list p q = true -> p = q.
Proof.
  intro F. induction p as [|x p IH]; intros [|y q] Hp Hq H; try discriminate; [reflexivity|].
  cbn [same_list] in H. apply andb_true_iff in H. destruct H as [H1 H2]. f_equal.
  - apply F; [apply Hp; left; reflexivity|apply Hq; left; reflexivity|exact H1].
  - apply IH; [intros z Hz; apply Hp; right; exact Hz|intros z Hz; apply Hq; right; exact Hz|exact H2].
Qed.

Lemma perm_contains_false l p : perm_contains l p = false -> ~ In p l.
Proof.
  intros H Hi. unfold perm_contains in H. assert (E : existsb (fun q => same_list p q) l = true).
  { apply existsb_exists. exists p. split; [exact Hi|apply same_list_refl]. }
  rewrite E in H. discriminate.
Qed.

Lemma add_perms_in x ps : forall acc p, In p (add_perms x ps acc) -> In p acc \/ exists q, In q ps /\ p = x :: q.
Proof.
  unfold add_perms. induction ps as [|q ps IH]; intros acc p H; cbn [fold_left] in H; [left; exact H|].
  apply IH in H. destruct H as [H|[r [Hr ->]]]; [|right; exists r; split; [right; exact Hr|reflexivity]].
  destruct (perm_contains acc (x :: q)); [left; exact H|].
  apply in_app_or in H. destruct H as [H|[<-|[]]]; [left; exact H|right; exists q; split; [left; reflexivity|reflexivity]].
Qed.
Lemma add_perms_mono x ps : forall acc p, In p acc -> In p (add_perms x ps acc).
Proof.
  unfold add_perms. induction ps as [|q ps IH]; intros acc p H; cbn [fold_left]; [exact H|].
  apply IH. destruct (perm_contains acc (x :: q)); [exact H|]. apply in_or_app; left; exact H.
Qed.
Lemma add_perms_nodup x ps : forall acc, NoDup acc -> NoDup (add_perms x ps acc).
Proof.
  unfold add_perms. induction ps as [|q ps IH]; intros acc H; cbn [fold_left]; [exact H|].
  apply IH. destruct (perm_contains acc (x :: q)) eqn:E; [exact H|].
  apply (Permutation_NoDup (l := (x :: q) :: acc)).
  - apply Permutation_cons_append.
  - constructor; [apply perm_contains_false, E|exact H].
Qed.
Lemma add_perms_complete l x ps : sameq_faithful l -> In x l -> (forall q, In q ps -> incl q l) ->
  forall acc, (forall q, In q acc -> incl q l) -> forall q, In q ps -> In (x :: q) (add_perms x ps acc).
Proof.
  intros F Hx. unfold add_perms. induction ps as [|r ps IH]; intros Hps acc Hacc q Hq; [destruct Hq|].
  cbn [fold_left]. assert (Ir : incl (x :: r) l).
  { intros z [<-|Hz]; [exact Hx|]. apply (Hps r (or_introl eq_refl) z Hz). }
  destruct Hq as [<-|Hq].
  - apply (add_perms_mono x ps). destruct (perm_contains acc (x :: r)) eqn:E.
    + unfold perm_contains in E. apply existsb_exists in E. destruct E as [s [Hs Es]].
      rewrite (same_list_eq l F (x :: r) s Ir (Hacc s Hs) Es). exact Hs.
    + apply in_or_app. right. left. reflexivity.
  - apply IH; [intros; apply Hps; right; assumption| |exact Hq].
    intros s Hs. destruct (perm_contains acc (x :: r)); [auto|].
    apply in_app_or in Hs. destruct Hs as [Hs|[<-|[]]]; [auto|exact Ir].
Qed.

Lemma picks_perm l : forall x r, In (x, r) (picks l) -> Permutation (x :: r) l.
Proof.
  induction l as [|y t IH]; intros x r H; [destruct H|]. destruct H as [E|H].
  - injection E as <- <-. reflexivity.
  - apply in_map_iff in H. destruct H as [[z s] [E Hs]]. injection E as <- <-.
    rewrite perm_swap. constructor. apply IH, Hs.
Qed.
Lemma picks_in l x : In x l -> exists r, In (x, r) (picks l).
Proof.
  induction l as [|y t IH]; [intros []|]. intros [<-|H]; [exists t; left; reflexivity|].
  destruct (IH H) as [r Hr]. exists (y :: r). right. apply in_map_iff. exists (x, r). auto.
Qed.
Lemma picks_len l x r : In (x, r) (picks l) -> length l = S (length r).
Proof. intro H. apply picks_perm, Permutation_length in H. symmetry. exact H. Qed.

Lemma fold_perms_sound m ks : forall acc p,
  In p (fold_left (fun acc '(x, r) => add_perms x (gen_perms m r) acc) ks acc) ->
  In p acc \/ exists x r q, In (x, r) ks /\ In q (gen_perms m r) /\ p = x :: q.
Proof.
  induction ks as [|[x r] ks IH]; intros acc p H; cbn [fold_left] in H; [left; exact H|].
  apply IH in H. destruct H as [H|[y [s [q [H1 H2]]]]].
  - apply add_perms_in in H. destruct H as [H|[q [Hq ->]]]; [left; exact H|].
    right. exists x, r, q. split; [left; reflexivity|auto].
  - right. exists y, s, q. split; [right; exact H1|exact H2].
Qed.
Lemma fold_perms_nodup m ks : forall acc, NoDup acc ->
  NoDup (fold_left (fun acc '(x, r) => add_perms x (gen_perms m r) acc) ks acc).
Proof.
  induction ks as [|[x r] ks IH]; intros acc H; cbn [fold_left]; [exact H|]. apply IH, add_perms_nodup, H.
Qed.
Lemma fold_perms_mono m ks : forall acc p, In p acc ->
  In p (fold_left (fun acc '(x, r) => add_perms x (gen_perms m r) acc) ks acc).
Proof.
  induction ks as [|[x r] ks IH]; intros acc p H; cbn [fold_left]; [exact H|]. apply IH, add_perms_mono, H.
Qed.

Lemma gen_perms_unfold m l : (forall x, l <> [x]) ->
  gen_perms (S m) l = fold_left (fun acc '(x, r) => add_perms x (gen_perms m r) acc) (picks l) [].
Proof. intro H. destruct l as [|x [|y l]]; try reflexivity. exfalso; apply (H x); reflexivity. Qed.

Lemma gen_perms_sound : forall n l p, length l = n -> In p (gen_perms n l) -> Permutation p l.
Proof.
  induction n as [|m IH]; intros l p Hl H; [destruct H|].
  destruct l as [|x [|y l]]; [discriminate| |].
  - destruct H as [<-|[]]. reflexivity.
  - rewrite gen_perms_unfold in H by discriminate. apply fold_perms_sound in H.
    destruct H as [[]|[z [r [q [H1 [H2 ->]]]]]]. pose proof (picks_len _ _ _ H1) as L.
    transitivity (z :: r); [|apply picks_perm, H1]. constructor. apply IH; [lia|exact H2].
Qed.

Lemma gen_perms_nodup n l : NoDup (gen_perms n l).
Proof.
  destruct n; [constructor|]. destruct l as [|x [|y l]]; cbn [gen_perms]; [constructor| |].
  - constructor; [intros []|constructor].
  - apply fold_perms_nodup. constructor.
Qed.

Lemma fold_perms_complete l m ks : sameq_faithful l ->
  (forall x r, In (x, r) ks -> Permutation (x :: r) l) ->
  (forall x r q, In (x, r) ks -> In q (gen_perms m r) -> Permutation q r) ->
  forall acc, (forall q, In q acc -> incl q l) -> forall x r q, In (x, r) ks -> In q (gen_perms m r) ->
  In (x :: q) (fold_left (fun acc '(x, r) => add_perms x (gen_perms m r) acc) ks acc).
Proof.
  intro F. induction ks as [|[y s] ks IH]; intros Hk Hg acc Hacc x r q H Hq; [destruct H|].
  cbn [fold_left].
  assert (Iq : forall q, In q (gen_perms m s) -> incl q l).
  { intros q' Hq' z Hz. pose proof (Hg y s q' (or_introl eq_refl) Hq') as P.
    apply (Permutation_in z (Hk y s (or_introl eq_refl))). right. apply (Permutation_in z P Hz). }
  assert (Iy : In y l) by (apply (Permutation_in y (Hk y s (or_introl eq_refl))); left; reflexivity).
  destruct H as [E|H].
  - injection E as -> ->. apply fold_perms_mono. apply (add_perms_complete l); auto.
  - apply (IH (fun x r H => Hk x r (or_intror H)) (fun x r q H => Hg x r q (or_intror H))) with (r := r); [|exact H|exact Hq].
    intros q' Hq'. apply add_perms_in in Hq'. destruct Hq' as [Hq'|[q2 [Hq2 ->]]]; [auto|].
    intros z [<-|Hz]; [exact Iy|]. apply (Iq q2 Hq2 z Hz).
Qed.

Lemma gen_perms_complete : forall n l, length l = n -> l <> [] -> sameq_faithful l ->
  forall p, Permutation p l -> In p (gen_perms n l).
Proof.
  induction n as [|m IH]; intros l Hl Hne F p Hp; [destruct l; [congruence|discriminate]|].
  destruct l as [|x [|y l]]; [congruence| |].
  - apply Permutation_sym, Permutation_length_1_inv in Hp. subst p. left. reflexivity.
  - rewrite gen_perms_unfold by discriminate. set (L := x :: y :: l) in *.
    destruct p as [|z q]; [apply Permutation_nil in Hp; discriminate|].
    assert (Hz : In z L) by (apply (Permutation_in z Hp); left; reflexivity).
    destruct (picks_in L z Hz) as [r Hr]. pose proof (picks_perm L z r Hr) as Pr.
    pose proof (picks_len L z r Hr) as Lr.
    apply (fold_perms_complete L) with (r := r).
    + exact F.
    + apply picks_perm.
    + intros x' r' q' H1 H2. apply (gen_perms_sound m); [|exact H2]. pose proof (picks_len _ _ _ H1). lia.
    + intros q' [].
    + exact Hr.
    + apply IH.
      * lia.
      * intro E. rewrite E in Lr. subst L. cbn in Lr. lia.
      * intros a b Ha Hb. apply F; apply (Permutation_in _ Pr); right; assumption.
      * apply (Permutation_cons_inv (a := z)). rewrite Pr. exact Hp.
Qed.
