(* Property theorems: the report of ExpreduceDefinitionTimes (C135). *)
From Coq Require Import List String Bool ZArith Permutation Lia Sorting.Sorted.
Import ListNotations.
From Verif Require Import M_TimeCount.
Open Scope nat_scope.

(* ---- maps ---- *)
Lemma mget_set {V} (d : V) m k v j : mget d (mset m k v) j = if String.eqb k j then v else mget d m j.
Proof.
  induction m as [|[k' w] m IH]; cbn [mset mget]; [reflexivity|]. destruct (String.eqb_spec k' k) as [-> |N]; cbn [mget].
  - destruct (String.eqb k j); reflexivity.
  - rewrite IH. destruct (String.eqb_spec k' j) as [-> |N2]; [|reflexivity]. destruct (String.eqb_spec k j); [congruence|reflexivity].
Qed.
Definition keys {V} (m : list (string * V)) : list string := map fst m.
Lemma keys_set {V} (m : list (string * V)) k v j : In j (keys (mset m k v)) <-> j = k \/ In j (keys m).
Proof.
  induction m as [|[k' w] m IH]; cbn [mset keys map fst In]; [intuition|]. destruct (String.eqb_spec k' k) as [-> |N]; cbn [keys map fst In] in *.
  - intuition.
  - unfold keys in IH. rewrite IH. intuition.
Qed.
Lemma nodup_set {V} (m : list (string * V)) k v : NoDup (keys m) -> NoDup (keys (mset m k v)).
Proof.
  induction m as [|[k' w] m IH]; intro H; cbn [mset]; [constructor; [intros []|constructor]|].
  unfold keys in *. cbn [map fst] in *. apply NoDup_cons_iff in H. destruct H as [H1 H2].
  destruct (String.eqb_spec k' k) as [-> |N]; cbn [map fst]; constructor; auto.
  intro K. apply (proj1 (keys_set m k v k')) in K. destruct K as [K|K]; [congruence|contradiction].
Qed.
Lemma mget_in {V} (d : V) m k v : NoDup (keys m) -> (In (k, v) m <-> In k (keys m) /\ mget d m k = v).
Proof.
  induction m as [|[k' w] m IH]; intro H; cbn [In keys map fst mget]; [tauto|].
  unfold keys in *. cbn [map fst] in H. apply NoDup_cons_iff in H. destruct H as [H1 H2]. specialize (IH H2).
  destruct (String.eqb_spec k' k) as [-> |N].
  - split; [intros [E|I]; [injection E as ->; auto|apply (in_map fst) in I; contradiction]|intros [_ <-]; auto].
  - split; [intros [E|I]; [congruence|apply IH in I; tauto]|intros [[E|I] E2]; [congruence|right; apply IH; auto]].
Qed.

Section report.
  Context {T : Type} (zero : T) (add : T -> T -> T) (leb : T -> T -> bool).
  (* a total order (== of float64 is equality of the values that can occur) *)
  Context (leb_total : forall a b, leb a b = true \/ leb b a = true) (leb_trans : forall a b c, leb a b = true -> leb b c = true -> leb a c = true)
          (leb_anti : forall a b, leb a b = true -> leb b a = true -> a = b).
  Notation add_time := (add_time zero add). Notation counter := (counter T).

  (* a sequence of measurements *)
  Definition measure (c : counter) (l : list (string * T)) : counter := fold_left (fun c kv => add_time c (fst kv) (snd kv)) l c.
  (* the measurements for one key *)
  Definition for_key (k : string) (l : list (string * T)) : list T := map snd (filter (fun kv => String.eqb (fst kv) k) l).
  Definition good (c : counter) : Prop := NoDup (keys (times c)) /\ NoDup (keys (counts c)) /\ (forall k, In k (keys (times c)) <-> In k (keys (counts c))).
  Lemma good_add c k e : good c -> good (add_time c k e).
  Proof.
    intros (A & B & C). unfold add_time, good. cbn [times counts]. split; [apply nodup_set, A|]. split; [apply nodup_set, B|].
    intro j. rewrite !keys_set, C. tauto.
  Qed.
  Lemma measure_good l : forall c, good c -> good (measure c l).
  Proof. induction l as [|[k e] l IH]; intros c G; [exact G|]. apply IH, good_add, G. Qed.
  Lemma measure_spec l : forall c k,
    mget zero (times (measure c l)) k = fold_left add (for_key k l) (mget zero (times c) k) /\
    mget 0%Z (counts (measure c l)) k = (mget 0%Z (counts c) k + Z.of_nat (List.length (for_key k l)))%Z /\
    (In k (keys (times (measure c l))) <-> In k (keys (times c)) \/ In k (map fst l)).
  Proof.
    induction l as [|[j e] l IH]; intros c k; [cbn; split; [reflexivity|split; [lia|tauto]]|].
    change (measure c ((j, e) :: l)) with (measure (add_time c j e) l). destruct (IH (add_time c j e) k) as (A & B & C).
    rewrite A, B, C. unfold add_time, for_key. cbn [times counts filter fst map]. rewrite !mget_set, keys_set. destruct (String.eqb_spec j k) as [-> |N].
    - cbn [map snd fold_left List.length]. split; [reflexivity|]. split; [lia|]. cbn [In]. tauto.
    - split; [reflexivity|]. split; [reflexivity|]. cbn [In]. split; [intros [[E|K]|K]; auto; congruence|intros [K|[E|K]]; auto; congruence].
  Qed.
  (* after any sequence of measurements, the count of a key is the number of its
     measurements, and its time is their sum in that order *)
  Lemma totals_s : forall l k,
    mget zero (times (measure empty l)) k = fold_left add (for_key k l) zero /\
    mget 0%Z (counts (measure empty l)) k = Z.of_nat (List.length (for_key k l)) /\
    (In k (keys (times (measure empty l))) <-> In k (map fst l)).
  Proof. intros l k. destruct (measure_spec l empty k) as (A & B & C). rewrite A, B, C. cbn. split; [reflexivity|]. split; [lia|tauto]. Qed.

  (* ---- the report ---- *)
  Lemma teq_eq a b : teq leb a b = true <-> a = b.
  Proof.
    unfold teq. rewrite andb_true_iff. split; [intros [A B]; apply leb_anti; assumption|intros ->]. destruct (leb_total b b) as [K|K]; auto.
  Qed.
  (* groups: distinct times, each with the keys of that time *)
  Definition entries (n : list (T * list string)) : list (string * T) := flat_map (fun g => map (fun s => (s, fst g)) (snd g)) n.
  Lemma group_add_spec n k v : NoDup (map fst n) -> NoDup (map fst (group_add leb n k v)) /\
    (forall w, In w (map fst (group_add leb n k v)) <-> w = v \/ In w (map fst n)) /\ Permutation (entries (group_add leb n k v)) ((k, v) :: entries n).
  Proof.
    induction n as [|[w ks] n IH]; intro H; cbn [group_add].
    - split; [constructor; [intros []|constructor]|]. split; [cbn; intuition|reflexivity].
    - cbn [map fst] in H. apply NoDup_cons_iff in H. destruct H as [H1 H2]. destruct (teq leb w v) eqn:E.
      + apply teq_eq in E. subst w. split; [constructor; assumption|]. split; [cbn; intuition|].
        cbn [entries flat_map fst snd]. rewrite map_app, <- app_assoc. cbn [map app]. symmetry. apply Permutation_middle.
      + destruct (IH H2) as (A & B & C). split; [|split].
        * cbn [map fst]. constructor; [|exact A]. intro K. apply B in K. destruct K as [-> |K]; [|contradiction].
          rewrite (proj2 (teq_eq v v) eq_refl) in E. discriminate.
        * intro u. cbn [map fst In]. rewrite B. intuition.
        * cbn [entries flat_map fst snd]. change (Permutation (map (fun s => (s, w)) ks ++ entries (group_add leb n k v)) ((k, v) :: map (fun s => (s, w)) ks ++ entries n)).
          rewrite C. symmetry. apply Permutation_middle.
  Qed.
  Lemma groups_spec ord : NoDup (map fst (groups leb ord)) /\ Permutation (entries (groups leb ord)) ord.
  Proof.
    unfold groups. enough (K : forall n, NoDup (map fst n) -> let r := fold_left (fun n kv => group_add leb n (fst kv) (snd kv)) ord n in
      NoDup (map fst r) /\ Permutation (entries r) (entries n ++ ord)).
    { destruct (K [] (NoDup_nil _)) as [A B]. split; [exact A|exact B]. }
    induction ord as [|[k v] ord IH]; intros n H r; subst r; cbn [fold_left]; [rewrite app_nil_r; auto|].
    destruct (group_add_spec n k v H) as (A & _ & C). destruct (IH _ A) as [B D]. cbn [fst snd] in *. split; [exact B|].
    rewrite D, C. cbn [app]. apply Permutation_middle.
  Qed.
  Definition above (x y : T * list string) : Prop := leb (fst y) (fst x) = true.
  Lemma place_perm x l : Permutation (place leb x l) (x :: l).
  Proof.
    induction l as [|y l IH]; cbn [place]; [reflexivity|]. destruct (leb (fst x) (fst y)); [|reflexivity]. rewrite IH. apply perm_swap.
  Qed.
  Lemma place_sorted x l : StronglySorted above l -> StronglySorted above (place leb x l).
  Proof.
    induction l as [|y l IH]; intro H; cbn [place]; [constructor; constructor|]. apply StronglySorted_inv in H. destruct H as [H F].
    destruct (leb (fst x) (fst y)) eqn:E.
    - constructor; [apply IH, H|]. eapply Permutation_Forall; [symmetry; apply place_perm|]. constructor; [exact E|exact F].
    - assert (L : leb (fst y) (fst x) = true) by (destruct (leb_total (fst x) (fst y)); congruence).
      constructor; [constructor; assumption|]. constructor; [exact L|]. eapply Forall_impl; [|exact F]. intros z Z. unfold above in *. eapply leb_trans; eassumption.
  Qed.
  Lemma falling_spec n : Permutation (falling leb n) n /\ StronglySorted above (falling leb n).
  Proof.
    induction n as [|x n [A B]]; [split; constructor|]. cbn [falling fold_right]. split; [rewrite place_perm; constructor; exact A|apply place_sorted, B].
  Qed.

  Definition line (c : counter) (kv : string * T) : T * Z * string := (snd kv, mget 0%Z (counts c) (fst kv), fst kv).
  Lemma print_spec c num : forall l p, exists A B, l = A ++ B /\ print_groups c num p l = map (line c) (entries A) /\
    (B = [] \/ num <= p + List.length (entries A)) /\ (forall A' g A'', A = A' ++ g :: A'' -> p + List.length (entries A') < num).
  Proof.
    induction l as [|[t ks] l IH]; intro p; cbn [print_groups].
    - exists [], []. split; [reflexivity|]. split; [reflexivity|]. split; [auto|]. intros [|? ?] g A'' E; discriminate E.
    - destruct (Nat.leb_spec num p) as [L|L].
      + exists [], ((t, ks) :: l). split; [reflexivity|]. split; [reflexivity|]. split; [right; cbn; lia|]. intros [|? ?] g A'' E; discriminate E.
      + destruct (IH (p + List.length ks)) as (A & B & -> & R & S & P). exists ((t, ks) :: A), B. split; [reflexivity|]. split; [|split].
        * rewrite R. cbn [entries flat_map fst snd]. rewrite map_app, map_map. reflexivity.
        * cbn [entries flat_map fst snd]. rewrite app_length, map_length. fold (entries A). rewrite Nat.add_assoc. exact S.
        * intros [|a A'] g A'' E; cbn [app] in E; [cbn; lia|]. injection E as <- E. cbn [entries flat_map fst snd]. rewrite app_length, map_length.
          fold (entries A'). rewrite Nat.add_assoc. apply (P A' g A'' E).
  Qed.

  Lemma entries_app a b : entries (a ++ b) = entries a ++ entries b.
  Proof. unfold entries. apply flat_map_app. Qed.
  Lemma entries_in n s t : In (s, t) (entries n) -> exists a ks b, n = a ++ (t, ks) :: b /\ In s ks.
  Proof.
    intro H. apply in_flat_map in H. destruct H as ([w ks] & I & H). apply in_map_iff in H. destruct H as (x & E & H). cbn [fst snd] in *. injection E as -> ->.
    apply in_split in I. destruct I as (a & b & ->). exists a, ks, b. auto.
  Qed.
  Lemma entries_time n (P : T -> Prop) : (forall g, In g n -> P (fst g)) -> forall kv, In kv (entries n) -> P (snd kv).
  Proof. intros H [s t] I. destruct (entries_in _ _ _ I) as (a & ks & b & -> & _). apply (H (t, ks)). apply in_or_app. right. left. reflexivity. Qed.
  Lemma filter_none {X} (f : X -> bool) l : (forall x, In x l -> f x = false) -> filter f l = [].
  Proof. induction l as [|x l IH]; intro H; [reflexivity|]. cbn [filter]. rewrite H by (left; reflexivity). apply IH. intros y Y. apply H. right. exact Y. Qed.
  Lemma filter_all {X} (f : X -> bool) l : (forall x, In x l -> f x = true) -> filter f l = l.
  Proof. induction l as [|x l IH]; intro H; [reflexivity|]. cbn [filter]. rewrite H by (left; reflexivity). f_equal. apply IH. intros y Y. apply H. right. exact Y. Qed.
  Lemma filter_le {X} (f : X -> bool) l : List.length (filter f l) <= List.length l.
  Proof. induction l as [|x l IH]; cbn; [lia|]. destruct (f x); cbn; lia. Qed.
  Lemma perm_filter {X} (f : X -> bool) l l' : Permutation l l' -> Permutation (filter f l) (filter f l').
  Proof.
    induction 1 as [|x l l' _ IH|x y l|l l' l'' _ IH1 _ IH2]; cbn [filter]; [constructor|destruct (f x); [constructor|]; exact IH| |rewrite IH1; exact IH2].
    destruct (f x), (f y); try reflexivity. apply perm_swap.
  Qed.

  (* the number of keys with a larger time *)
  Definition larger (c : counter) (t : T) : nat := List.length (filter (fun kv => negb (leb (snd kv) t)) (times c)).
  (* whatever order the map is visited in, the report has one line for every key
     that fewer than num keys exceed in time, with its time and count; longer times
     come first *)
  Lemma sorted_app a b x y : StronglySorted above (a ++ b) -> In x a -> In y b -> above x y.
  Proof.
    induction a as [|z a IH]; intros S Ix Iy; [destruct Ix|]. cbn [app] in S. apply StronglySorted_inv in S. destruct S as [S F].
    destruct Ix as [<-|Ix]; [|apply IH; assumption]. rewrite Forall_forall in F. apply F, in_or_app. right. exact Iy.
  Qed.
  Lemma nodup_app_times (a b : list (T * list string)) x y : NoDup (map fst (a ++ b)) -> In x a -> In y b -> fst x <> fst y.
  Proof.
    rewrite map_app. intros N Ix Iy E. apply in_split in Ix. destruct Ix as (l1 & l2 & ->). rewrite map_app in N. cbn [map] in N.
    rewrite <- app_assoc in N. cbn [app] in N. apply NoDup_remove_2 in N. apply N. apply in_or_app. right. apply in_or_app. right. rewrite E. apply in_map, Iy.
  Qed.
  Lemma report_s : forall c num ord, good c -> Permutation ord (times c) ->
    (forall t n s, In (t, n, s) (truncated leb c num ord) <-> In (s, t) (times c) /\ n = mget 0%Z (counts c) s /\ larger c t < num) /\
    NoDup (map snd (truncated leb c num ord)) /\
    StronglySorted (fun x y => leb (fst (fst y)) (fst (fst x)) = true) (truncated leb c num ord).
  Proof.
    intros c num ord (G & _) Po. unfold truncated. destruct (groups_spec ord) as [Ng Pg]. destruct (falling_spec (groups leb ord)) as [Pf Sf].
    set (L := falling leb (groups leb ord)) in *.
    assert (Pe : Permutation (entries L) (times c)).
    { transitivity (entries (groups leb ord)); [apply Permutation_flat_map, Pf|]. rewrite Pg. exact Po. }
    assert (NL : NoDup (map fst L)) by (eapply Permutation_NoDup; [|exact Ng]; apply Permutation_map; symmetry; exact Pf).
    destruct (print_spec c num L 0) as (A & B & EL & -> & Full & Pre). clearbody L. subst L. cbn [Nat.add] in Full, Pre.
    assert (Ne : NoDup (map fst (entries (A ++ B)))).
    { eapply Permutation_NoDup; [|exact G]. apply Permutation_map. symmetry. exact Pe. }
    split; [|split].
    - intros t n s. unfold larger. rewrite <- (Permutation_length (perm_filter _ _ _ Pe)). rewrite entries_app, filter_app, app_length.
      split.
      + intro I. apply in_map_iff in I. destruct I as ([s' t'] & E & I). unfold line in E. cbn [fst snd] in E. injection E as -> <- ->.
        split; [eapply Permutation_in; [exact Pe|]; rewrite entries_app; apply in_or_app; left; exact I|]. split; [reflexivity|].
        destruct (entries_in _ _ _ I) as (a & ks & b & -> & _). specialize (Pre a (t, ks) b eq_refl).
        rewrite (filter_none _ (entries B)).
        2:{ apply (entries_time B (fun u => negb (leb u t) = false)). intros g Ig. apply negb_false_iff.
            apply (sorted_app (a ++ (t, ks) :: b) B (t, ks) g Sf); [apply in_or_app; right; left; reflexivity|exact Ig]. }
        rewrite entries_app, filter_app, app_length, (filter_none _ (entries ((t, ks) :: b))).
        2:{ apply (entries_time ((t, ks) :: b) (fun u => negb (leb u t) = false)). intros g [<-|Ig]; apply negb_false_iff.
            - cbn [fst]. destruct (leb_total t t); assumption.
            - rewrite <- app_assoc in Sf. cbn [app] in Sf. change ((t, ks) :: b ++ B) with ([(t, ks)] ++ b ++ B) in Sf. rewrite app_assoc in Sf.
              apply (sorted_app (a ++ [(t, ks)]) (b ++ B) (t, ks) g Sf); [apply in_or_app; right; left; reflexivity|apply in_or_app; left; exact Ig]. }
        pose proof (filter_le (fun kv : string * T => negb (leb (snd kv) t)) (entries a)). cbn [List.length]. lia.
      + intros (I & -> & Lt). apply (Permutation_in _ (Permutation_sym Pe)) in I. rewrite entries_app in I. apply in_app_or in I. destruct I as [I|I].
        * apply in_map_iff. exists (s, t). split; [reflexivity|exact I].
        * exfalso. destruct (entries_in _ _ _ I) as (a & ks & b & -> & _).
          destruct Full as [F|F]; [destruct a; discriminate F|].
          rewrite (filter_all _ (entries A)) in Lt; [lia|]. apply (entries_time A (fun u => negb (leb u t) = true)). intros g Ig. apply negb_true_iff.
          destruct (leb (fst g) t) eqn:E; [|reflexivity]. exfalso.
          assert (It : In (t, ks) (a ++ (t, ks) :: b)) by (apply in_or_app; right; left; reflexivity).
          apply (nodup_app_times A _ g (t, ks) NL Ig It). cbn [fst]. apply leb_anti; [exact E|]. apply (sorted_app A _ g (t, ks) Sf Ig It).
    - rewrite map_map, (map_ext _ fst) by reflexivity. rewrite entries_app, map_app in Ne. revert Ne. generalize (map fst (entries A)). intros k Ne.
      induction k as [|y k IH]; [constructor|]. cbn [app] in Ne. apply NoDup_cons_iff in Ne. destruct Ne as [N1 N2]. constructor; [|apply IH, N2].
      intro K. apply N1, in_or_app. left. exact K.
    - clear - Sf leb_total. assert (SA : StronglySorted above A).
      { revert Sf. induction A as [|x A IH]; intro S; [constructor|]. cbn [app] in S. apply StronglySorted_inv in S. destruct S as [S F]. constructor; [apply IH, S|].
        apply Forall_app in F. apply F. }
      clear Sf. induction SA as [|[t ks] A SA IH F]; [constructor|]. cbn [entries flat_map fst snd]. rewrite map_app, map_map.
      induction ks as [|s ks IHk]; cbn [map app]; [exact IH|]. constructor; [apply IHk; exact F|]. apply Forall_app. split.
      + apply Forall_forall. intros y Y. apply in_map_iff in Y. destruct Y as (z & <- & _). cbn [line fst snd]. destruct (leb_total t t); assumption.
      + apply Forall_forall. intros y Y. apply in_map_iff in Y. destruct Y as (kv & <- & Iy). cbn [line fst snd].
        apply (entries_time A (fun u => leb u t = true)); [|exact Iy]. intros g Ig. rewrite Forall_forall in F. exact (F g Ig).
  Qed.
  (* the report does not depend on the order, but for lines with equal times *)
  Lemma order_s : forall c num o1 o2, good c -> Permutation o1 (times c) -> Permutation o2 (times c) ->
    Permutation (truncated leb c num o1) (truncated leb c num o2).
  Proof.
    intros c num o1 o2 G P1 P2. destruct (report_s c num o1 G P1) as (I1 & N1 & _). destruct (report_s c num o2 G P2) as (I2 & N2 & _).
    apply NoDup_Permutation; [apply (NoDup_map_inv _ _ N1)|apply (NoDup_map_inv _ _ N2)|]. intros [[t n] s]. rewrite I1, I2. reflexivity.
  Qed.
  (* merging: every time is added to the time of the same key *)
  Lemma merge_times_s : forall c other ord k, NoDup (keys (times other)) -> Permutation ord (times other) ->
    mget zero (times (update zero add c ord)) k =
      if existsb (String.eqb k) (keys (times other)) then add (mget zero (times c) k) (mget zero (times other) k) else mget zero (times c) k.
  Proof.
    intros c other ord k N P. assert (No : NoDup (keys ord)) by (eapply Permutation_NoDup; [|exact N]; apply Permutation_map; symmetry; exact P).
    change (update zero add c ord) with (measure c ord). rewrite (proj1 (measure_spec ord c k)).
    assert (K : for_key k ord = if existsb (String.eqb k) (keys ord) then [mget zero ord k] else []).
    { clear - No. unfold for_key, keys in *. induction ord as [|[j v] ord IH]; [reflexivity|]. cbn [map fst] in No. apply NoDup_cons_iff in No. destruct No as [N1 N2].
      specialize (IH N2). cbn [filter fst existsb map mget]. rewrite (String.eqb_sym k j). destruct (String.eqb_spec j k) as [-> |Ne]; cbn [orb map snd]; [|exact IH].
      f_equal. rewrite IH. destruct (existsb (String.eqb k) (map fst ord)) eqn:E; [|reflexivity]. exfalso. apply existsb_exists in E. destruct E as (x & Ix & Ex). apply String.eqb_eq in Ex. subst x. contradiction. }
    rewrite K. assert (E : existsb (String.eqb k) (keys ord) = existsb (String.eqb k) (keys (times other))).
    { apply eq_true_iff_eq. rewrite !existsb_exists. split; intros (x & Ix & Ex); exists x; (split; [|exact Ex]); (eapply Permutation_in; [|exact Ix]); apply Permutation_map; [exact P|symmetry; exact P]. }
    rewrite E. destruct (existsb (String.eqb k) (keys (times other))) eqn:Q; [|reflexivity]. cbn [fold_left]. f_equal.
    apply existsb_exists in Q. destruct Q as (x & Ix & Ex). apply String.eqb_eq in Ex. subst x.
    assert (Hi : In (k, mget zero (times other) k) ord).
    { eapply Permutation_in; [symmetry; exact P|]. apply (mget_in zero); [exact N|]. split; [exact Ix|reflexivity]. }
    apply (mget_in zero ord k _ No) in Hi. apply Hi.
  Qed.
End report.

(* ---- C135 ---- *)
Definition total_order {T : Type} (leb : T -> T -> bool) : Prop :=
  (forall a b, leb a b = true \/ leb b a = true) /\ (forall a b c, leb a b = true -> leb b c = true -> leb a c = true) /\
  (forall a b, leb a b = true -> leb b a = true -> a = b).
(* after any sequence of measurements, the count of a key is the number of its
   measurements, and its time is their sum in that order *)
Theorem C135_totals : forall (T : Type) (zero : T) (add : T -> T -> T) l k,
  good (measure zero add empty l) /\
  mget zero (times (measure zero add empty l)) k = fold_left add (for_key k l) zero /\
  mget 0%Z (counts (measure zero add empty l)) k = Z.of_nat (List.length (for_key k l)) /\
  (In k (keys (times (measure zero add empty l))) <-> In k (map fst l)).
Proof.
  intros T zero add l k. split; [|apply totals_s]. apply measure_good. split; [constructor|]. split; [constructor|]. cbn. tauto.
Qed.
Print Assumptions C135_totals.
(* whatever order the map is visited in, the report has one line for every key
   that fewer than num keys exceed in time, with its time and count; longer times
   come first *)
Theorem C135_report : forall (T : Type) (leb : T -> T -> bool) (c : counter T) num ord, total_order leb -> good c -> Permutation ord (times c) ->
  (forall t n s, In (t, n, s) (truncated leb c num ord) <-> In (s, t) (times c) /\ n = mget 0%Z (counts c) s /\ larger leb c t < num) /\
  NoDup (map snd (truncated leb c num ord)) /\
  StronglySorted (fun x y => leb (fst (fst y)) (fst (fst x)) = true) (truncated leb c num ord).
Proof.
  intros T leb c num ord (A & B & D) G P. destruct (times c) as [|[s0 t0] l] eqn:E.
  - apply Permutation_sym, Permutation_nil in P. subst ord. unfold truncated. cbn. split; [|split; constructor].
    intros t n s. split; [intros []|intros ([] & _)].
  - rewrite <- E in P |- *. apply (report_s t0 (fun a _ => a) leb A B D c num ord G P).
Qed.
Print Assumptions C135_report.
(* the report does not depend on the order, but for lines with equal times *)
Theorem C135_order : forall (T : Type) (leb : T -> T -> bool) (c : counter T) num o1 o2, total_order leb -> good c ->
  Permutation o1 (times c) -> Permutation o2 (times c) -> Permutation (truncated leb c num o1) (truncated leb c num o2).
Proof.
  intros T leb c num o1 o2 O G P1 P2. destruct (C135_report T leb c num o1 O G P1) as (I1 & N1 & _). destruct (C135_report T leb c num o2 O G P2) as (I2 & N2 & _).
  apply NoDup_Permutation; [apply (NoDup_map_inv _ _ N1)|apply (NoDup_map_inv _ _ N2)|]. intros [[t n] s]. rewrite I1, I2. reflexivity.
Qed.
Print Assumptions C135_order.
(* merging: every time is added to the time of the same key *)
Theorem C135_merge_times : forall (T : Type) (zero : T) (add : T -> T -> T) c other ord k, NoDup (keys (times other)) -> Permutation ord (times other) ->
  mget zero (times (update zero add c ord)) k =
    if existsb (String.eqb k) (keys (times other)) then add (mget zero (times c) k) (mget zero (times other) k) else mget zero (times c) k.
Proof. intros T zero add. apply merge_times_s. Qed.
Print Assumptions C135_merge_times.

(* Refuted: merging loses counts (every merged key counts as one measurement) *)
Theorem C135_merge_counts_refuted : exists (c : counter Z) (k : string), good c /\ mget 0%Z (counts c) k = 2%Z /\
  mget 0%Z (counts (update 0%Z Z.add empty (times c))) k = 1%Z.
Proof.
  exists (measure 0%Z Z.add empty [("f"%string, 3%Z); ("f"%string, 4%Z)]), "f"%string. split; [|split; reflexivity].
  apply measure_good. split; [constructor|]. split; [constructor|]. cbn. tauto.
Qed.
Print Assumptions C135_merge_counts_refuted.
Lemma z_total : total_order Z.leb.
Proof.
  split; [|split]; intros *; rewrite ?Z.leb_le; lia.
Qed.
(* Refuted: the report is not limited to num lines: ties are all printed *)
Theorem C135_limit_refuted : forall m, exists c : counter Z, good c /\ List.length (truncated Z.leb c 1 (times c)) = S m.
Proof.
  intro m. set (l := map (fun i => (String.string_of_list_ascii (repeat Ascii.zero i), 5%Z)) (seq 0 (S m))).
  assert (G0 : good (@empty Z)) by (split; [constructor|split; [constructor|cbn; tauto]]).
  exists (measure 0%Z Z.add empty l). pose proof (measure_good 0%Z Z.add l _ G0) as G. split; [exact G|].
  assert (Inj : forall i j, String.string_of_list_ascii (repeat Ascii.zero i) = String.string_of_list_ascii (repeat Ascii.zero j) -> i = j).
  { intros i j E. apply (f_equal String.list_ascii_of_string) in E. rewrite !String.list_ascii_of_string_of_list_ascii in E.
    apply (f_equal (@List.length _)) in E. rewrite !repeat_length in E. exact E. }
  assert (Nl : NoDup (map fst l)).
  { unfold l. rewrite map_map. cbn [fst]. apply FinFun.Injective_map_NoDup; [intros i j; apply Inj|apply seq_NoDup]. }
  set (c := measure 0%Z Z.add empty l) in *.
  assert (Five : forall k t, In (k, t) (times c) -> t = 5%Z).
  { intros k t I. apply (mget_in 0%Z _ _ _ (proj1 G)) in I. destruct I as [Ik <-]. destruct (C135_totals Z 0%Z Z.add l k) as (_ & A & _ & C).
    fold c in A, C. rewrite A. apply C in Ik. apply in_map_iff in Ik. destruct Ik as ([k' t'] & E & I). cbn [fst] in E. subst k'.
    assert (K : for_key k l = [5%Z]); [|rewrite K; reflexivity].
    assert (F : forall kv, In kv l -> snd kv = 5%Z) by (intros kv J; unfold l in J; apply in_map_iff in J; destruct J as (i & <- & _); reflexivity).
    clearbody l. clear - Nl I F. unfold for_key. induction l as [|[j v] l IH]; [destruct I|]. cbn [map fst] in Nl. apply NoDup_cons_iff in Nl. destruct Nl as [N1 N2].
    cbn [filter fst]. destruct I as [E|I].
    - injection E as -> ->. rewrite String.eqb_refl. cbn [map snd]. f_equal; [apply (F (k, t')); left; reflexivity|].
      rewrite filter_none; [reflexivity|]. intros [a b] J. cbn [fst]. apply String.eqb_neq. intros ->. apply N1. apply (in_map fst) in J. exact J.
    - destruct (String.eqb_spec j k) as [-> |Ne]; [exfalso; apply N1; apply (in_map fst) in I; exact I|]. apply IH; auto. intros kv J. apply F. right. exact J. }
  destruct (C135_report Z Z.leb c 1 (times c) z_total G (Permutation_refl _)) as (I & N & _).
  assert (La : forall t, t = 5%Z -> larger Z.leb c t = 0).
  { intros t ->. unfold larger. rewrite filter_none; [reflexivity|]. intros [k u] J. cbn [snd]. rewrite (Five _ _ J). reflexivity. }
  assert (Pk : Permutation (map snd (truncated Z.leb c 1 (times c))) (map fst l)).
  { apply NoDup_Permutation; [exact N|exact Nl|]. intro k. destruct (C135_totals Z 0%Z Z.add l k) as (_ & _ & _ & C). fold c in C. rewrite <- C. split.
    - intro J. apply in_map_iff in J. destruct J as ([[t n] s] & E & J). cbn [snd] in E. subst s. apply I in J. destruct J as (J & _). apply (in_map fst) in J. exact J.
    - intro J. apply in_map_iff in J. destruct J as ([k' t] & E & J). cbn [fst] in E. subst k'. apply in_map_iff. exists (t, mget 0%Z (counts c) k, k). split; [reflexivity|].
      apply I. split; [exact J|]. split; [reflexivity|]. rewrite (La t (Five _ _ J)). lia. }
  apply Permutation_length in Pk. rewrite !map_length in Pk. rewrite Pk. unfold l. rewrite map_length, seq_length. reflexivity.
Qed.
Print Assumptions C135_limit_refuted.
Example C135_meets : let c := measure 0%Z Z.add empty [("f"%string, 3%Z); ("g"%string, 9%Z); ("f"%string, 4%Z); ("h"%string, 7%Z); ("k"%string, 1%Z)] in
  truncated Z.leb c 2 (rev (times c)) = [(9%Z, 1%Z, "g"%string); (7%Z, 1%Z, "h"%string); (7%Z, 2%Z, "f"%string)].
Proof. vm_compute. reflexivity. Qed.
