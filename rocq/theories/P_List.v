(* Proofs about the list functions. *)
From Verif Require Import M_Syntax M_Float M_Hash M_Order M_Sort M_Compare M_Match M_List
  S_Syntax S_Order S_Sort S_List P_Hash P_Order P_OrderTrans P_OrderZero P_Sort.
From Coq Require Import Permutation.
Open Scope nat_scope.

Lemma wrap64_small z : in_int64 z -> wrap64 z = z.
Proof. unfold in_int64, wrap64. intro H. rewrite Z.mod_small; lia. Qed.

Lemma all_some_iff {A} (l : list (option A)) : forall out, all_some l = Some out <-> l = map Some out.
Proof.
  induction l as [|[a|] t IH]; intro out.
  - cbn. split; [intro H; injection H as <-; reflexivity|destruct out; [reflexivity|discriminate]].
  - cbn. destruct (all_some t) as [o|] eqn:E; cbn.
    + split; [intro H; injection H as <-; cbn; f_equal; apply IH; reflexivity|].
      destruct out as [|b out]; [discriminate|]. cbn. intro H. injection H as <- H.
      apply IH in H. injection H as <-. reflexivity.
    + split; [discriminate|]. destruct out as [|b out]; [discriminate|]. cbn. intro H. injection H as <- H.
      apply IH in H. discriminate.
  - cbn. split; [discriminate|]. destruct out; discriminate.
Qed.

Lemma all_some_forall2 {A B} (f : A -> option B) (R : A -> B -> Prop) (l : list A) out :
  (forall a b, f a = Some b <-> R a b) -> all_some (map f l) = Some out <-> Forall2 R l out.
Proof.
  intro HR. rewrite all_some_iff. revert out. induction l as [|a t IH]; intros [|b out]; cbn.
  - split; [constructor|reflexivity].
  - split; [discriminate|inversion 1].
  - split; [discriminate|inversion 1].
  - split.
    + intro H. injection H as H1 H2. constructor; [apply HR; assumption|apply IH; assumption].
    + inversion 1; subst. f_equal; [apply HR; assumption|apply IH; assumption].
Qed.

Lemma validate_some z l k : in_int64 z -> validate_index (EInt z) l = Some k <-> z = Z.of_nat k /\ k < l.
Proof.
  intro H. unfold validate_index. rewrite (wrap64_small z H).
  destruct (Z.leb_spec (Z.of_nat l) z); cbn [orb]; [split; [discriminate|lia]|].
  destruct (Z.ltb_spec z 0); [split; [discriminate|lia]|].
  split; [intro E; injection E as <-; lia|]. intros [-> _]. rewrite Nat2Z.id. reflexivity.
Qed.

Lemma firstn_skipn_mid {A} (l : list A) lo n : lo + n <= length l ->
  exists b m a, l = b ++ m ++ a /\ length b = lo /\ length m = n /\ firstn n (skipn lo l) = m.
Proof.
  intro H. exists (firstn lo l), (firstn n (skipn lo l)), (skipn n (skipn lo l)).
  rewrite firstn_skipn, firstn_skipn. split; [reflexivity|].
  rewrite !firstn_length, skipn_length. repeat split; lia.
Qed.

Lemma firstn_mid {A} (b m a : list A) n k : length b = k -> length m = n -> firstn n (skipn k (b ++ m ++ a)) = m.
Proof.
  intros <- <-. rewrite skipn_app, skipn_all, Nat.sub_diag. cbn [app skipn].
  rewrite firstn_app, firstn_all, Nat.sub_diag. cbn [firstn]. apply app_nil_r.
Qed.

Lemma part_iff ix : Forall index_ok ix -> forall e x, apply_index ix e = Some x <-> part_of ix e x.
Proof.
  induction 1 as [|i r Hi Hr IH]; intros e x.
  - cbn. split; [intro H; injection H as <-; constructor|inversion 1; reflexivity].
  - destruct e as [s|s|z|n d|f|a1 a2|parts];
      try (cbn; split; [discriminate|inversion 1]).
    destruct parts as [|h args]; [cbn; split; [discriminate|]|].
    { inversion 1; subst. destruct k; discriminate. }
    cbn [apply_index]. destruct i as [s|s|z|n d|f|a1 a2|ip].
    + destruct (String.eqb_spec s nAll) as [->|NE].
      * assert (F : firstn (S (length (h :: args) - 1) - 1) (skipn 1 (h :: args)) = args).
        { change (skipn 1 (h :: args)) with args.
          replace (S (length (h :: args) - 1) - 1) with (length args) by (cbn [length]; lia). apply firstn_all. }
        rewrite F. clear F.
        destruct (all_some (map (apply_index r) args)) as [out|] eqn:E; cbn [option_map].
        -- rewrite (all_some_forall2 _ _ _ _ IH) in E. split.
           ++ intro H. injection H as <-. apply po_all. assumption.
           ++ intro H. inversion H; subst. f_equal. f_equal. f_equal.
              apply (proj2 (all_some_forall2 _ _ _ _ IH)) in E.
              match goal with K : Forall2 _ args _ |- _ => apply (proj2 (all_some_forall2 _ _ _ _ IH)) in K end. congruence.
        -- split; [discriminate|]. intro H. inversion H; subst.
           match goal with K : Forall2 _ args _ |- _ => apply (all_some_forall2 _ _ _ _ IH) in K end. congruence.
      * split; [discriminate|]. intro H. inversion H; subst. exfalso; apply NE; reflexivity.
    + split; [discriminate|inversion 1].
    + cbn in Hi. destruct (validate_index (EInt z) (length (h :: args))) as [k|] eqn:V.
      * apply validate_some in V; [|assumption]. destruct V as [-> Hk].
        destruct (nth_error (h :: args) k) as [p|] eqn:N; [|apply nth_error_None in N; lia].
        rewrite IH. split; [intro H; econstructor; eassumption|].
        intro H. inversion H; subst.
        match goal with K : Z.of_nat _ = Z.of_nat _ |- _ => apply Nat2Z.inj in K; subst end. congruence.
      * split; [discriminate|]. intro H. inversion H; subst.
        assert (K : k < length (h :: args)) by (apply nth_error_Some; congruence).
        pose proof (proj2 (validate_some (Z.of_nat k) (length (h :: args)) k Hi) (conj eq_refl K)). congruence.
    + split; [discriminate|inversion 1].
    + split; [discriminate|inversion 1].
    + split; [discriminate|inversion 1].
    + destruct ip as [|[s|s|z|n d|f|a1 a2|ip'] [|a [|b [|c ip'']]]];
        try (split; [discriminate|inversion 1]).
      destruct (String.eqb_spec s nSpan) as [->|NE]; [|split; [discriminate|]; intro H; inversion H; subst; exfalso; apply NE; reflexivity].
      destruct a as [s|s|za|n d|f|a1 a2|ipa];
        try (cbn [validate_index]; split; [discriminate|]; intro H; inversion H).
      set (L := length (h :: args)).
      assert (Ha : in_int64 za /\ (1 <= za)%Z) by (destruct b; cbn in Hi; tauto).
      destruct Ha as [Ia La].
      destruct (validate_index (EInt za) (S L)) as [lo|] eqn:V.
      2:{ split; [discriminate|]. intro H.
          assert (exists k, za = Z.of_nat k /\ k < S L) as (k & -> & Hk).
          { inversion H; subst.
            - exists (length before + 1). split; [lia|]. unfold L. cbn [length]. rewrite !app_length. lia.
            - exists (length before + 1). split; [lia|]. unfold L. cbn [length]. rewrite !app_length. lia. }
          pose proof (proj2 (validate_some _ (S L) k Ia) (conj eq_refl Hk)). congruence. }
      apply validate_some in V; [|assumption]. destruct V as [-> Hlo].
      (* the common part *)
      assert (CORE : forall hi, hi < L -> lo <= S hi ->
        (option_map (fun l => EExpr (h :: l)) (all_some (map (apply_index r) (firstn (S hi - lo) (skipn lo (h :: args))))) = Some x <->
         exists before mid after out, args = before ++ mid ++ after /\ length before + 1 = lo /\
           length before + length mid = hi /\ x = EExpr (h :: out) /\ Forall2 (part_of r) mid out)).
      { intros hi Hhi Hle. destruct lo as [|lo]; [lia|]. cbn [skipn]. unfold L in *. cbn [length] in *.
        destruct (firstn_skipn_mid args lo (S hi - S lo)) as (bf & md & af & E1 & E2 & E3 & E4); [lia|].
        rewrite E4. destruct (all_some (map (apply_index r) md)) as [o|] eqn:E; cbn [option_map].
        - pose proof (proj1 (all_some_forall2 _ _ _ _ IH) E) as F. split.
          + intro K. injection K as <-. exists bf, md, af, o. repeat split; try assumption; lia.
          + intros (b' & m' & a' & o' & F1 & F2 & F3 & -> & F5).
            rewrite F1 in E4. rewrite firstn_mid in E4 by lia. subst m'.
            apply (all_some_forall2 _ _ _ _ IH) in F5. congruence.
        - split; [discriminate|]. intros (b' & m' & a' & o' & F1 & F2 & F3 & -> & F5).
          rewrite F1 in E4. rewrite firstn_mid in E4 by lia. subst m'.
          apply (all_some_forall2 _ _ _ _ IH) in F5. congruence. }
      destruct b as [sb|sb|zb|nb db|fb|b1 b2|ipb];
        try (cbn [validate_index]; split; [discriminate|]; intro H; inversion H).
      * destruct (String.eqb_spec sb nAll) as [->|NE].
        -- rewrite CORE by (unfold L in *; cbn [length] in *; lia). split.
           ++ intros (bf & md & af & o & -> & <- & E3 & -> & F).
              assert (af = []).
              { destruct af; [reflexivity|]. unfold L in E3. cbn [length] in E3. rewrite !app_length in E3. cbn [length] in E3. lia. }
              subst af. rewrite app_nil_r. apply po_span_all. assumption.
           ++ intro H. inversion H; subst.
              exists before, mid, [], out. rewrite app_nil_r.
              repeat split; try assumption; try lia.
              unfold L. cbn [length]. rewrite app_length. lia.
        -- split; [discriminate|]. intro H. inversion H; subst; exfalso; apply NE; reflexivity.
      * cbn in Hi. destruct Hi as (_ & Ib & _ & Hab).
        destruct (validate_index (EInt zb) L) as [hi|] eqn:V.
        -- apply validate_some in V; [|assumption]. destruct V as [-> Hhi].
           rewrite CORE by lia. split.
           ++ intros (bf & md & af & o & -> & <- & <- & -> & F). apply po_span. assumption.
           ++ intro H. inversion H; subst.
              exists before, mid, after, out. repeat split; try assumption; lia.
        -- split; [discriminate|]. intro H. inversion H; subst.
           assert (K : length before + length mid < L).
           { unfold L. cbn [length]. rewrite !app_length. lia. }
           pose proof (proj2 (validate_some _ L _ Ib) (conj eq_refl K)). congruence.
Qed.

(* keep_new *)
Lemma existsb_app' {A} (f : A -> bool) l l' : existsb f (l ++ l') = existsb f l || existsb f l'.
Proof. induction l as [|a t IH]; cbn; [reflexivity|]. rewrite IH. apply orb_assoc. Qed.

Lemma existsb_N k l : existsb (N.eqb k) l = true <-> In k l.
Proof.
  rewrite existsb_exists. split.
  - intros (x & H & E). apply N.eqb_eq in E. subst. assumption.
  - intro H. exists k. split; [assumption|apply N.eqb_refl].
Qed.
Lemma existsb_N_false k l : existsb (N.eqb k) l = false <-> ~ In k l.
Proof. rewrite <- existsb_N. destruct (existsb (N.eqb k) l); split; congruence. Qed.

Lemma keep_new_snoc ok l x : forall seen,
  keep_new ok seen (l ++ [x]) = keep_new ok seen l ++
    (if ok (hash x) && negb (existsb (N.eqb (hash x)) seen || existsb (N.eqb (hash x)) (map hash l)) then [x] else []).
Proof.
  induction l as [|y t IH]; intro seen.
  - cbn [app keep_new map existsb]. rewrite orb_false_r. cbn zeta.
    destruct (ok (hash x) && negb (existsb (N.eqb (hash x)) seen)); reflexivity.
  - cbn [app keep_new map existsb]. cbn zeta.
    destruct (ok (hash y) && negb (existsb (N.eqb (hash y)) seen)) eqn:C.
    + rewrite IH. cbn [app existsb]. f_equal. f_equal. do 3 f_equal.
      destruct (N.eqb (hash x) (hash y)), (existsb (N.eqb (hash x)) seen); reflexivity.
    + rewrite IH. f_equal. destruct (N.eqb_spec (hash x) (hash y)) as [E|E]; cbn [orb]; [|reflexivity].
      rewrite E. rewrite orb_true_r. cbn [negb]. rewrite andb_false_r.
      apply andb_false_iff in C. destruct C as [C|C]; [rewrite C; reflexivity|].
      apply negb_false_iff in C. rewrite C. cbn [orb negb]. rewrite andb_false_r. reflexivity.
Qed.

Lemma keep_new_all l : first_occurrences l (keep_new (fun _ => true) [] l).
Proof.
  induction l as [|x l IH] using rev_ind; [constructor|].
  rewrite keep_new_snoc. cbn [existsb orb andb].
  destruct (existsb (N.eqb (hash x)) (map hash l)) eqn:E; cbn [negb].
  - rewrite app_nil_r. apply fo_old; [assumption|apply existsb_N; assumption].
  - apply fo_new; [assumption|apply existsb_N_false; assumption].
Qed.

Lemma keep_new_filter ok l : forall seen,
  keep_new ok seen l = keep_new (fun _ => true) seen (filter (fun x => ok (hash x)) l).
Proof.
  induction l as [|x t IH]; intro seen; [reflexivity|]. cbn [keep_new filter]. cbn zeta.
  destruct (ok (hash x)); cbn [andb]; [|apply IH].
  cbn [keep_new]. cbn zeta. cbn [andb]. destruct (negb (existsb (N.eqb (hash x)) seen)); rewrite IH; reflexivity.
Qed.

Lemma fo_facts l l' : first_occurrences l l' ->
  incl l' l /\ NoDup (map hash l') /\ (forall k, In k (map hash l') <-> In k (map hash l)).
Proof.
  induction 1 as [|l l' x H (I1 & I2 & I3) N|l l' x H (I1 & I2 & I3) N].
  - repeat split; cbn; try tauto. intros y Hy; exact Hy. constructor.
  - split; [|split].
    + intros y Hy. apply in_app_iff in Hy. apply in_app_iff. destruct Hy as [Hy|Hy]; [left; apply I1; assumption|right; assumption].
    + rewrite map_app. cbn [map]. apply (Permutation_NoDup (l := hash x :: map hash l')); [apply Permutation_cons_append|].
      constructor; [rewrite I3; assumption|assumption].
    + intro k. rewrite !map_app, !in_app_iff, I3. tauto.
  - split; [|split].
    + intros y Hy. apply in_app_iff. left. apply I1. assumption.
    + assumption.
    + intro k. rewrite map_app, in_app_iff, I3. cbn. split; [tauto|]. intros [K|[<-|[]]]; assumption.
Qed.

Lemma nodup_map_inv {A B} (f : A -> B) l : NoDup (map f l) -> NoDup l.
Proof. apply NoDup_map_inv. Qed.

Lemma fo_faithful l l' : hash_faithful l -> first_occurrences l l' ->
  NoDup l' /\ (forall x, In x l' <-> In x l).
Proof.
  intros F H. destruct (fo_facts l l' H) as (I1 & I2 & I3). split; [apply (nodup_map_inv hash); assumption|].
  intro x. split; [apply I1|]. intro Hx.
  assert (K : In (hash x) (map hash l')) by (apply I3; apply in_map; assumption).
  apply in_map_iff in K. destruct K as (y & E & Hy). rewrite (F x y); auto.
Qed.

(* headed lists *)
Lemma same_heads_ok h args ls : same_heads h args = Some ls ->
  length ls = length args /\ Forall2 (fun a l => exists h', is_sameq h h' = true /\ a = EExpr (h' :: l)) args ls.
Proof.
  revert ls. induction args as [|a t IH]; intros ls H; cbn in H.
  - injection H as <-. split; [reflexivity|constructor].
  - destruct a as [| | | | | |[|h' l]]; try discriminate.
    destruct (is_sameq h h') eqn:S; [|discriminate].
    destruct (same_heads h t) as [o|]; [|discriminate]. cbn in H. injection H as <-.
    destruct (IH o eq_refl) as [L F]. split; [cbn; lia|]. constructor; [|assumption]. exists h'. split; [assumption|reflexivity].
Qed.

Lemma same_heads_complete h ls : same_heads h (map (fun l => EExpr (h :: l)) ls) = Some ls.
Proof. induction ls as [|l t IH]; [reflexivity|]. cbn. rewrite sameq_refl, IH. reflexivity. Qed.

Lemma headed_complete h l ls : headed_lists (map (fun l => EExpr (h :: l)) (l :: ls)) = Some (h, l :: ls).
Proof. cbn [map headed_lists]. rewrite same_heads_complete. reflexivity. Qed.

Lemma same_heads_none h args : (exists a, In a args /\ forall h' l, a = EExpr (h' :: l) -> is_sameq h h' = false) ->
  same_heads h args = None.
Proof.
  intros (a & Ha & N). induction args as [|b t IH]; [destruct Ha|]. destruct Ha as [->|Ha].
  - destruct a as [| | | | | |[|h' l]]; try reflexivity. cbn. rewrite (N h' l eq_refl). reflexivity.
  - cbn. destruct b as [| | | | | |[|h' l]]; try reflexivity. destruct (is_sameq h h'); [|reflexivity].
    rewrite IH by assumption. reflexivity.
Qed.

(* Union *)
Lemma drop_repeats_spec l : forall y,
  (forall a b, In a (y :: l) -> In b (y :: l) -> is_sameq a b = true -> a = b) ->
  (forall a b, In a (y :: l) -> In b (y :: l) -> (0 <= ex_order a b)%Z -> (0 <= ex_order b a)%Z -> a = b) ->
  all_ordered (y :: l) ->
  NoDup (drop_repeats (Some y) l) /\ (forall z, In z (drop_repeats (Some y) l) <-> In z l /\ z <> y).
Proof.
  induction l as [|x t IH]; intros y FS AN O.
  - cbn. split; [constructor|tauto].
  - cbn [drop_repeats]. destruct (is_sameq y x) eqn:E.
    + apply FS in E; [|cbn; auto|cbn; auto]. subst x.
      destruct (IH y) as [N I].
      * intros a b Ha Hb. apply FS; cbn in *; tauto.
      * intros a b Ha Hb. apply AN; cbn in *; tauto.
      * destruct O as [_ O]. exact O.
      * split; [exact N|]. intro z. rewrite I. cbn. split; [tauto|]. intros [[->|H] K]; [congruence|tauto].
    + assert (NE : x <> y) by (intros ->; rewrite sameq_refl in E; discriminate).
      destruct (IH x) as [N I].
      * intros a b Ha Hb. apply FS; cbn in *; tauto.
      * intros a b Ha Hb. apply AN; cbn in *; tauto.
      * destruct O as [_ O]. exact O.
      * split.
        -- constructor; [rewrite I; tauto|assumption].
        -- intro z. cbn. rewrite I. split.
           ++ intros [->|[H K]]; [auto|]. split; [auto|]. intros ->. apply NE.
              destruct O as [O1 [O2 _]]. apply AN; cbn; auto.
              apply O1. cbn; auto.
           ++ intros [[->|H] K]; [auto|]. destruct (ex_eq_dec x z); [auto|]. right. split; [assumption|congruence].
Qed.

Lemma drop_repeats_none l :
  (forall a b, In a l -> In b l -> is_sameq a b = true -> a = b) ->
  (forall a b, In a l -> In b l -> (0 <= ex_order a b)%Z -> (0 <= ex_order b a)%Z -> a = b) ->
  all_ordered l ->
  NoDup (drop_repeats None l) /\ (forall z, In z (drop_repeats None l) <-> In z l).
Proof.
  intros FS AN O. destruct l as [|x t]; cbn [drop_repeats]; [split; [constructor|tauto]|].
  destruct (drop_repeats_spec t x FS AN O) as [N I]. split.
  - constructor; [rewrite I; tauto|assumption].
  - intro z. cbn. rewrite I. split; [tauto|]. intros [->|H]; [auto|].
    destruct (ex_eq_dec x z); [auto|]. right. split; [assumption|congruence].
Qed.

Lemma drop_repeats_ordered l : forall o, all_ordered l -> all_ordered (drop_repeats o l) /\ incl (drop_repeats o l) l.
Proof.
  induction l as [|x t IH]; intros o O; [split; [exact I|intros y Hy; exact Hy]|].
  cbn [drop_repeats]. destruct O as [O1 O2].
  destruct (match o with Some y => is_sameq y x | None => false end).
  - destruct (IH o O2) as [A B]. split; [assumption|]. intros y Hy. right. apply B. assumption.
  - destruct (IH (Some x) O2) as [A B]. split.
    + split; [|assumption]. intros y Hy. apply O1. apply B. assumption.
    + intros y [->|Hy]; [left; reflexivity|right; apply B; assumption].
Qed.

(* Intersection *)
Lemma filter_len {A} (f : A -> bool) l : length (filter f l) <= length l.
Proof. induction l as [|a t IH]; cbn; [lia|]. destruct (f a); cbn; lia. Qed.
Lemma hash_count_all ls k : hash_count ls k = length ls <-> forall l, In l ls -> In k (map hash l).
Proof.
  unfold hash_count. induction ls as [|l t IH]; [cbn; split; [tauto|reflexivity]|].
  cbn [filter]. destruct (existsb (N.eqb k) (map hash l)) eqn:E.
  - apply existsb_N in E. cbn [length]. split.
    + intros H l' [<-|Hl]; [assumption|]. apply IH; [lia|assumption].
    + intro H. f_equal. apply IH. intros l' Hl. apply H. right. assumption.
  - apply existsb_N_false in E. split.
    + cbn [length]. pose proof (filter_len (fun l0 => existsb (N.eqb k) (map hash l0)) t). lia.
    + intro H. exfalso. apply E. apply H. left. reflexivity.
Qed.

(* Flatten *)
Definition flat_value (h : ex) (l : list (ex * Z)) : list ex := flat_map (fun p => flat_arg h (snd p) (fst p)) l.

Lemma flat_value_step h l l' : unnest h l l' -> flat_value h l = flat_value h l'.
Proof.
  intros [before t d after Hd]. unfold flat_value. rewrite !flat_map_app. f_equal.
  cbn [flat_map fst snd flat_arg]. replace (0 <? d)%Z with true by (symmetry; apply Z.ltb_lt; assumption).
  rewrite sameq_refl. cbn [andb]. f_equal.
  rewrite flat_map_concat_map, (flat_map_concat_map _ (map _ t)), map_map. reflexivity.
Qed.

Lemma flat_value_steps h l l' : unnests h l l' -> flat_value h l = flat_value h l'.
Proof. induction 1 as [|l l' l'' H1 H2 IH]; [reflexivity|]. rewrite (flat_value_step _ _ _ H1). exact IH. Qed.

Lemma unnests_trans h l l' l'' : unnests h l l' -> unnests h l' l'' -> unnests h l l''.
Proof. induction 1; [auto|]. intro. econstructor; eauto. Qed.

Lemma unnests_ctx h l l' a b : unnests h l l' -> unnests h (a ++ l ++ b) (a ++ l' ++ b).
Proof.
  induction 1 as [|l l' l'' H1 H2 IH]; [constructor|]. eapply uns_step; [|exact IH].
  destruct H1 as [bf t d af Hd].
  replace (a ++ (bf ++ (EExpr (h :: t), d) :: af) ++ b) with ((a ++ bf) ++ (EExpr (h :: t), d) :: (af ++ b))
    by (rewrite <- !app_assoc; reflexivity).
  replace (a ++ (bf ++ map (fun x => (x, (d - 1)%Z)) t ++ af) ++ b) with ((a ++ bf) ++ map (fun x => (x, (d - 1)%Z)) t ++ (af ++ b))
    by (rewrite <- !app_assoc; reflexivity).
  constructor. assumption.
Qed.

Lemma unnests_app h l l' m m' : unnests h l l' -> unnests h m m' -> unnests h (l ++ m) (l' ++ m').
Proof.
  intros H1 H2. apply (unnests_trans _ _ (l' ++ m)).
  - apply (unnests_ctx h l l' [] m H1).
  - pose proof (unnests_ctx h m m' l' [] H2) as K. rewrite !app_nil_r in K. exact K.
Qed.

Definition stuck (h : ex) (l : list (ex * Z)) : Prop :=
  forall x d, In (x, d) l -> (d <= 0)%Z \/ forall t, x <> EExpr (h :: t).

Lemma flat_arg_unnests h e : forall d, head_faithful h [e] ->
  exists r, unnests h [(e, d)] r /\ stuck h r /\ map fst r = flat_arg h d e.
Proof.
  induction e as [s|s|z|n dd|f|a1 a2 IH1 IH2|l IH] using ex_ind'; intros d HF;
    try (eexists; split; [apply uns_done|]; split; [|reflexivity];
         intros x d' [E|[]]; injection E as <- <-; right; intros t; discriminate).
  destruct l as [|h' t].
  { eexists; split; [apply uns_done|]; split; [|reflexivity].
    intros x d' [E|[]]; injection E as <- <-; right; intros t; discriminate. }
  cbn [flat_arg]. destruct (Z.ltb_spec 0 d) as [Hd|Hd]; cbn [andb].
  2:{ eexists; split; [apply uns_done|]; split; [|reflexivity].
      intros x d' [E|[]]; injection E as <- <-; left; lia. }
  destruct (is_sameq h h') eqn:E.
  2:{ eexists; split; [apply uns_done|]; split; [|reflexivity].
      intros x d' [K|[]]; injection K as <- <-; right; intros u K. injection K as -> _.
      rewrite sameq_refl in E. discriminate. }
  assert (h' = h) as ->.
  { apply HF; [|assumption]. cbn [flat_map inner_heads app]. left. reflexivity. }
  assert (exists r, unnests h (map (fun x => (x, (d - 1)%Z)) t) r /\ stuck h r /\ map fst r = flat_map (flat_arg h (d - 1)) t) as (r & R1 & R2 & R3).
  { assert (HF' : forall x, In x t -> head_faithful h [x]).
    { intros x Hx h'' Hh. apply HF. cbn [flat_map] in *. rewrite app_nil_r in *. cbn [inner_heads flat_map].
      right. apply in_app_iff. right. apply in_flat_map. exists x. split; assumption. }
    clear HF E. apply Forall_inv_tail in IH. revert HF'.
    induction IH as [|x u Hx Hu IHu]; intro HF'; [exists []; split; [constructor|]; split; [intros ? ? []|reflexivity]|].
    destruct (Hx (d - 1)%Z (HF' x (or_introl eq_refl))) as (r1 & A1 & A2 & A3).
    destruct IHu as (r2 & B1 & B2 & B3); [intros y Hy; apply HF'; right; assumption|].
    exists (r1 ++ r2). split; [|split].
    - cbn [map]. apply (unnests_app h [(x, (d - 1)%Z)] r1 _ r2 A1 B1).
    - intros y dy Hy. apply in_app_iff in Hy. destruct Hy; [eapply A2|eapply B2]; eassumption.
    - rewrite map_app, A3, B3. reflexivity. }
  exists r. split; [|split; assumption].
  eapply uns_step; [apply (un_step h [] t d [] Hd)|]. cbn [app]. rewrite app_nil_r. exact R1.
Qed.

Lemma flatten_unnests h d l : head_faithful h l ->
  exists r, unnests h (map (fun x => (x, d)) l) r /\ stuck h r /\ map fst r = flatten_args h d l.
Proof.
  unfold flatten_args. induction l as [|x u IHu]; intro HF.
  - exists []. split; [constructor|]. split; [intros ? ? []|reflexivity].
  - destruct (flat_arg_unnests h x d) as (r1 & A1 & A2 & A3).
    { intros h' Hh. apply HF. cbn [flat_map] in *. rewrite app_nil_r in Hh. apply in_app_iff. left. assumption. }
    destruct IHu as (r2 & B1 & B2 & B3).
    { intros h' Hh. apply HF. cbn [flat_map]. apply in_app_iff. right. assumption. }
    exists (r1 ++ r2). split; [|split].
    + cbn [map]. apply (unnests_app h [(x, d)] r1 _ r2 A1 B1).
    + intros y dy Hy. apply in_app_iff in Hy. destruct Hy; [eapply A2|eapply B2]; eassumption.
    + cbn [flat_map]. rewrite map_app, A3, B3. reflexivity.
Qed.

Lemma depth_part l x : In x l -> (depth x < depth (EExpr l))%Z.
Proof.
  cbn [depth]. induction l as [|y t IH]; [intros []|]. intros [->|H]; cbn [fold_right]; [lia|]. specialize (IH H). lia.
Qed.
Lemma depth_nonneg e : (0 <= depth e)%Z.
Proof.
  destruct e as [| | | | | |l]; cbn [depth]; try lia. induction l as [|y t IH]; cbn [fold_right]; lia.
Qed.

Lemma unnest_depth h l l' : unnest h l l' -> (forall x d, In (x, d) l -> (depth x <= d)%Z) ->
  forall x d, In (x, d) l' -> (depth x <= d)%Z.
Proof.
  intros [bf t d af Hd] H x d' Hx. rewrite !in_app_iff in Hx. destruct Hx as [Hx|[Hx|Hx]].
  - apply H. apply in_app_iff. left. assumption.
  - apply in_map_iff in Hx. destruct Hx as (y & E & Hy). injection E as -> <-.
    pose proof (depth_part (h :: t) x (or_intror Hy)).
    specialize (H (EExpr (h :: t)) d). rewrite in_app_iff in H. specialize (H (or_intror (or_introl eq_refl))). lia.
  - apply H. apply in_app_iff. right. right. assumption.
Qed.

Lemma unnests_depth h l l' : unnests h l l' -> (forall x d, In (x, d) l -> (depth x <= d)%Z) ->
  forall x d, In (x, d) l' -> (depth x <= d)%Z.
Proof. induction 1; [auto|]. intro K. apply IHunnests. eapply unnest_depth; eassumption. Qed.

Lemma flatten_no_head h d l : head_faithful h l -> (forall x, In x l -> (depth x <= d)%Z) ->
  forall x t, In x (flatten_args h d l) -> x <> EExpr (h :: t).
Proof.
  intros HF D x t Hx ->. destruct (flatten_unnests h d l HF) as (r & R1 & R2 & R3).
  rewrite <- R3 in Hx. apply in_map_iff in Hx. destruct Hx as ([y dy] & E & Hy). cbn in E. subst y.
  assert (K : (depth (EExpr (h :: t)) <= dy)%Z).
  { eapply (unnests_depth _ _ _ R1); [|eassumption]. intros x d' Hx. apply in_map_iff in Hx.
    destruct Hx as (z & E & Hz). injection E as -> <-. apply D. assumption. }
  destruct (R2 _ _ Hy) as [L|L]; [|apply (L t); reflexivity].
  pose proof (depth_part (h :: t) h (or_introl eq_refl)). pose proof (depth_nonneg h). lia.
Qed.

Lemma flat_arg_heads h e : forall d x, In x (flat_arg h d e) -> head_faithful h [e] ->
  incl (inner_heads x) (inner_heads e).
Proof.
  induction e as [s|s|z|n dd|f|a1 a2 IH1 IH2|l IH] using ex_ind'; intros d x Hx HF;
    try (cbn in Hx; destruct Hx as [<-|[]]; apply incl_refl).
  destruct l as [|h' t]; [cbn in Hx; destruct Hx as [<-|[]]; apply incl_refl|].
  cbn [flat_arg] in Hx. destruct ((0 <? d)%Z && is_sameq h h') eqn:E; [|destruct Hx as [<-|[]]; apply incl_refl].
  apply andb_true_iff in E. destruct E as [_ E].
  assert (h' = h) as ->.
  { apply HF; [|assumption]. cbn [flat_map inner_heads app]. left. reflexivity. }
  apply in_flat_map in Hx. destruct Hx as (y & Hy & Hx).
  apply Forall_inv_tail in IH. rewrite Forall_forall in IH.
  cbn [inner_heads flat_map]. intros k Hk. right. apply in_app_iff. right. apply in_flat_map. exists y. split; [assumption|].
  revert k Hk. apply (IH y Hy (d - 1)%Z x Hx).
  intros h'' Hh. apply HF. cbn [flat_map] in *. rewrite app_nil_r in *. cbn [inner_heads flat_map].
  right. apply in_app_iff. right. apply in_flat_map. exists y. split; assumption.
Qed.

Lemma flatten_faithful h d l : head_faithful h l -> head_faithful h (flatten_args h d l).
Proof.
  intros HF h' Hh. apply HF. apply in_flat_map in Hh. destruct Hh as (x & Hx & Hh).
  unfold flatten_args in Hx. apply in_flat_map in Hx. destruct Hx as (y & Hy & Hx).
  apply in_flat_map. exists y. split; [assumption|].
  apply (flat_arg_heads h y d x Hx); [|assumption].
  intros h'' K. apply HF. cbn [flat_map] in K. rewrite app_nil_r in K. apply in_flat_map. exists y. split; assumption.
Qed.

Lemma flatten_fixed h d l : head_faithful h l -> (forall x t, In x l -> x <> EExpr (h :: t)) -> flatten_args h d l = l.
Proof.
  unfold flatten_args. induction l as [|x u IH]; intros HF N; [reflexivity|]. cbn [flat_map].
  rewrite IH.
  - destruct x as [| | | | | |[|h' t]]; try reflexivity. cbn [flat_arg].
    destruct (is_sameq h h') eqn:E; [|rewrite andb_false_r; reflexivity]. exfalso.
    assert (h' = h) as -> by (apply HF; [cbn; left; reflexivity|assumption]).
    apply (N (EExpr (h :: t)) t); [left; reflexivity|reflexivity].
  - intros h' Hh. apply HF. cbn [flat_map]. apply in_app_iff. right. assumption.
  - intros y t Hy. apply N. right. assumption.
Qed.
