(* Attributes round trip, decimal names, Module freshness, history. *)
From Verif Require Import M_Syntax M_Float M_Hash M_Match M_Defs S_Defs P_Hash P_Defs.
From Coq Require Import Sorted Permutation DecimalString DecimalZ DecimalPos.
Open Scope nat_scope.

(* ---- attributes *)
Lemma set_nth_len l : forall i, length (set_nth l i) = length l.
Proof. induction l as [|b t IH]; intros [|i]; cbn; auto. Qed.
Lemma set_nth_nth l : forall i j, nth j (set_nth l i) false = true <-> nth j l false = true \/ (i = j /\ j < length l).
Proof.
  induction l as [|b t IH]; intros [|i] [|j]; cbn [set_nth nth length]; try (rewrite IH);
    intuition (try lia; try discriminate; auto).
Qed.

Lemma inner_fold tbl s : forall a, Forall (fun p => snd p < length a) tbl ->
  let a' := fold_left (fun a '(n, i) => if String.eqb s n then set_nth a i else a) tbl a in
  length a' = length a /\
  forall j, nth j a' false = true <-> nth j a false = true \/ In (s, j) tbl.
Proof.
  induction tbl as [|[n i] t IH]; intros a H; cbn [fold_left].
  - split; [reflexivity|]. intro j. cbn [In]. tauto.
  - inversion H as [|? ? Hi Ht]; subst. cbn [snd] in Hi.
    destruct (String.eqb_spec s n) as [E|E].
    + subst n. destruct (IH (set_nth a i)) as [L N].
      { eapply Forall_impl; [|exact Ht]. intros p. rewrite set_nth_len. auto. }
      rewrite set_nth_len in L. split; [exact L|]. intro j. rewrite N, set_nth_nth. cbn [In].
      split; [intros [[A|[-> B]]|C]; auto|].
      intros [A|[B|C]]; auto. injection B as ->. left; right; auto.
    + destruct (IH a Ht) as [L N]. split; [exact L|]. intro j. rewrite N. cbn [In].
      split; [tauto|]. intros [A|[B|C]]; auto. congruence.
Qed.

Lemma table_bound : Forall (fun p => snd p < 19) str_to_field.
Proof. repeat constructor. Qed.

Lemma strings_to_attributes_nth ss j :
  nth j (strings_to_attributes ss) false = true <-> exists s, In s ss /\ In (s, j) str_to_field.
Proof.
  unfold strings_to_attributes.
  assert (G : forall ss a, length a = 19 ->
    nth j (fold_left (fun a s => fold_left (fun a '(n, i) => if String.eqb s n then set_nth a i else a) str_to_field a) ss a) false = true
    <-> nth j a false = true \/ exists s, In s ss /\ In (s, j) str_to_field).
  { clear ss. induction ss as [|s t IH]; intros a L; cbn [fold_left].
    - split; [auto|]. intros [A|(s & [] & _)]; exact A.
    - assert (Forall (fun p => snd p < length a) str_to_field) as B by (rewrite L; apply table_bound).
      destruct (inner_fold str_to_field s a B) as [L' N']. cbv zeta in L', N'.
      rewrite IH by (rewrite L'; exact L). rewrite N'. split.
      + intros [[A|C]|(s' & I & J)]; [left; exact A|right; exists s; split; [now left|exact C]|right; exists s'; split; [now right|exact J]].
      + intros [A|(s' & [<-|I] & J)]; [auto|auto|]. right. exists s'. auto. }
  rewrite G by reflexivity. split; [|intros H; right; exact H].
  intros [A|H]; [|exact H]. exfalso. assert (forall k m, nth k (repeat false m) false = false) as Z.
  { clear. intros k m. revert k. induction m as [|m IH]; intros [|k]; cbn; auto. }
  unfold no_attrs in A. rewrite Z in A. discriminate A.
Qed.

Definition pairb (p q : string * nat) : bool := String.eqb (fst p) (fst q) && Nat.eqb (snd p) (snd q).
Lemma tables_agree s i : In (s, i) str_to_field <-> In (i, s) field_to_str.
Proof.
  assert (A : map (fun p => (snd p, fst p)) str_to_field = field_to_str) by reflexivity.
  rewrite <- A. rewrite in_map_iff. split.
  - intro H. exists (s, i). auto.
  - intros ([s' i'] & E & H). cbn [fst snd] in E. injection E as -> ->. exact H.
Qed.
Lemma names_known s : (exists i, In (s, i) str_to_field) <-> In s known_attributes.
Proof.
  assert (A : forall t, In t (map fst str_to_field) <-> In t known_attributes).
  { intro t. split; intro H.
    - assert (forallb (fun t => existsb (String.eqb t) known_attributes) (map fst str_to_field) = true) as F by (vm_compute; reflexivity).
      rewrite forallb_forall in F. apply F in H. apply existsb_exists in H. destruct H as (u & I & E).
      apply String.eqb_eq in E. now subst.
    - assert (forallb (fun t => existsb (String.eqb t) (map fst str_to_field)) known_attributes = true) as F by (vm_compute; reflexivity).
      rewrite forallb_forall in F. apply F in H. apply existsb_exists in H. destruct H as (u & I & E).
      apply String.eqb_eq in E. now subst. }
  rewrite <- A, in_map_iff. split.
  - intros [i H]. exists (s, i). auto.
  - intros ([s' i] & E & H). cbn in E. subst. eauto.
Qed.

Lemma str_insert_in s l x : In x (str_insert s l) <-> x = s \/ In x l.
Proof.
  induction l as [|t r IH]; cbn [str_insert]; [cbn; intuition congruence|].
  destruct (String.leb s t); cbn [In]; [intuition congruence|]. rewrite IH. tauto.
Qed.
Lemma sort_strings_in l x : In x (sort_strings l) <-> In x l.
Proof.
  unfold sort_strings. induction l as [|s t IH]; cbn [fold_right]; [tauto|].
  rewrite str_insert_in, IH. cbn [In]. intuition congruence.
Qed.

Lemma attrs_to_strings_in a x : In x (attrs_to_strings a) <-> exists i, In (i, x) field_to_str /\ nth i a false = true.
Proof.
  unfold attrs_to_strings. rewrite sort_strings_in, in_flat_map. split.
  - intros ([i n] & I & H). destruct (nth i a false) eqn:E; [|destruct H].
    destruct H as [<-|[]]. eauto.
  - intros (i & I & E). exists (i, x). split; [exact I|]. rewrite E. now left.
Qed.

(* byte order on strings *)
Lemma ascii_lt_trans a b c : Ascii.compare a b = Lt -> Ascii.compare b c = Lt -> Ascii.compare a c = Lt.
Proof. unfold Ascii.compare. rewrite !N.compare_lt_iff. apply N.lt_trans. Qed.
Lemma ascii_cmp_refl a : Ascii.compare a a = Eq.
Proof. unfold Ascii.compare. apply N.compare_refl. Qed.
Lemma str_lt_trans : forall a b c, str_lt a b -> str_lt b c -> str_lt a c.
Proof.
  unfold str_lt. induction a as [|x s IH]; intros [|y t] [|z u]; cbn [String.compare]; try discriminate; auto.
  destruct (Ascii.compare x y) eqn:E1; try discriminate; destruct (Ascii.compare y z) eqn:E2; try discriminate; intros H1 H2.
  - apply Ascii.compare_eq_iff in E1, E2. subst. rewrite ascii_cmp_refl. eauto.
  - apply Ascii.compare_eq_iff in E1. subst. now rewrite E2.
  - apply Ascii.compare_eq_iff in E2. subst. now rewrite E1.
  - now rewrite (ascii_lt_trans x y z E1 E2).
Qed.
Lemma str_leb_cases s t : (String.leb s t = true /\ (s = t \/ str_lt s t)) \/ (String.leb s t = false /\ str_lt t s).
Proof.
  unfold String.leb, str_lt. destruct (String.compare s t) eqn:E.
  - left. split; [reflexivity|]. left. now apply String.compare_eq_iff.
  - left. auto.
  - right. split; [reflexivity|]. rewrite String.compare_antisym, E. reflexivity.
Qed.
Lemma str_insert_sorted s l : StronglySorted str_lt l -> ~ In s l -> StronglySorted str_lt (str_insert s l).
Proof.
  induction 1 as [|t r S IH F]; intro N; cbn [str_insert]; [repeat constructor|].
  destruct (str_leb_cases s t) as [[E [C|C]]|[E C]]; rewrite E.
  - exfalso. apply N. now left.
  - constructor; [constructor; assumption|]. constructor; [exact C|].
    eapply Forall_impl; [|exact F]. intros x Hx. now apply str_lt_trans with t.
  - constructor; [apply IH; intro I; apply N; now right|]. apply Forall_forall. intros x I.
    apply str_insert_in in I. destruct I as [->|I]; [exact C|]. rewrite Forall_forall in F. auto.
Qed.
Lemma sort_strings_sorted l : NoDup l -> StronglySorted str_lt (sort_strings l).
Proof.
  unfold sort_strings. induction 1 as [|s t N D IH]; cbn [fold_right]; [constructor|].
  apply str_insert_sorted; [exact IH|]. intro I. apply N. now apply sort_strings_in.
Qed.
Lemma flat_nodup (a : attrs) tbl : NoDup (map snd tbl) ->
  NoDup (flat_map (fun '(i, n) => if nth i a false then [n] else []) (tbl : list (nat * string))).
Proof.
  induction tbl as [|[i n] t IH]; cbn [map flat_map snd]; intro N; [constructor|].
  inversion N as [|? ? NI ND]; subst. destruct (nth i a false); cbn [app]; [|auto].
  constructor; [|auto]. intro I. apply NI. apply in_flat_map in I. destruct I as ([j m] & I & H).
  destruct (nth j a false); [|destruct H]. destruct H as [->|[]].
  apply in_map_iff. exists (j, n). auto.
Qed.
Lemma fields_nodup : NoDup (map snd field_to_str).
Proof.
  assert (forall l, (fix nd (l : list string) := match l with [] => true | x :: t => negb (existsb (String.eqb x) t) && nd t end) l = true -> NoDup l) as G.
  { induction l as [|x t IH]; intro H; [constructor|]. apply andb_true_iff in H. destruct H as [H1 H2].
    constructor; [|auto]. intro I. apply negb_true_iff in H1.
    assert (existsb (String.eqb x) t = true) as X; [|congruence].
    apply existsb_exists. exists x. split; [exact I|apply String.eqb_refl]. }
  apply G. vm_compute. reflexivity.
Qed.
Lemma attrs_to_strings_sorted a : StronglySorted str_lt (attrs_to_strings a).
Proof. unfold attrs_to_strings. apply sort_strings_sorted, flat_nodup, fields_nodup. Qed.

Lemma drop_sys_sys s : drop_sys (sysname s) = Some s.
Proof.
  unfold drop_sys, sysname. cbn [String.append String.prefix].
  assert (String.prefix "" s = true) as ->.
  { destruct s; reflexivity. }
  repeat (destruct (ascii_dec _ _) as [_|X]; [|congruence]).
  cbn [String.length Nat.sub substring].
  rewrite Nat.sub_0_r. f_equal. induction s as [|c s IH]; [reflexivity|]. cbn. now rewrite IH.
Qed.

(* ---- decimal names *)
Lemma to_int_nonnil z : Z.to_int z <> Decimal.Pos Decimal.Nil /\ Z.to_int z <> Decimal.Neg Decimal.Nil.
Proof.
  destruct z as [|p|p]; cbn [Z.to_int]; split; intro H; try discriminate H; injection H as H;
    now apply (Unsigned.to_uint_nonnil p).
Qed.
Lemma dec_inj x y : dec x = dec y -> x = y.
Proof.
  unfold dec. intro H. apply (f_equal NilZero.int_of_string) in H.
  rewrite !NilZero.isi in H by apply to_int_nonnil. injection H as H. now apply to_int_inj.
Qed.

Fixpoint str_has (c : ascii) (s : string) : Prop :=
  match s with EmptyString => False | String d t => c = d \/ str_has c t end.
Lemma uint_no_dollar u : ~ str_has "$"%char (NilEmpty.string_of_uint u).
Proof. induction u; cbn; intuition discriminate. Qed.
Lemma uint0_no_dollar u : ~ str_has "$"%char (NilZero.string_of_uint u).
Proof.
  intro H. destruct u as [|u|u|u|u|u|u|u|u|u|u].
  { cbn in H. destruct H as [H|[]]. discriminate H. }
  all: unfold NilZero.string_of_uint in H;
    match type of H with str_has _ (NilEmpty.string_of_uint ?v) => exact (uint_no_dollar v H) end.
Qed.
Lemma dec_no_dollar z : ~ str_has "$"%char (dec z).
Proof.
  unfold dec. destruct (Z.to_int z) as [u|u]; unfold NilZero.string_of_int.
  - apply uint0_no_dollar.
  - cbn [str_has]. intros [H|H]; [discriminate H|]. exact (uint0_no_dollar u H).
Qed.
Lemma str_has_app c s t : str_has c (append s t) <-> str_has c s \/ str_has c t.
Proof. induction s as [|d s IH]; cbn [append str_has]; [tauto|]. rewrite IH. tauto. Qed.
Lemma dollar_split : forall s1 d1 s2 d2, ~ str_has "$"%char d1 -> ~ str_has "$"%char d2 ->
  append s1 (append "$" d1) = append s2 (append "$" d2) -> s1 = s2 /\ d1 = d2.
Proof.
  induction s1 as [|c s1 IH]; intros d1 [|c2 s2] d2 N1 N2 H; cbn [append] in H.
  - injection H as ->. auto.
  - injection H as Hc Hd. exfalso. apply N1. rewrite Hd. apply str_has_app. right. cbn [str_has append]. left. reflexivity.
  - injection H as Hc Hd. exfalso. apply N2. rewrite <- Hd. apply str_has_app. right. cbn [str_has append]. left. reflexivity.
  - injection H as -> H. destruct (IH d1 s2 d2 N1 N2 H) as [-> ->]. auto.
Qed.
Definition uname (base : string) (mn : Z) : string := append base (append "$" (dec mn)).
Lemma uname_inj b1 m1 b2 m2 : uname b1 m1 = uname b2 m2 -> b1 = b2 /\ m1 = m2.
Proof.
  intro H. apply dollar_split in H; auto using dec_no_dollar. destruct H as [-> H]. split; [reflexivity|now apply dec_inj].
Qed.

(* ---- the search for an unused name *)
Lemma is_def_in st n : is_def st n = true <-> In n (map fst (st_defs st)).
Proof.
  unfold is_def, lookup. induction (st_defs st) as [|[k v] t IH]; cbn [assoc map In fst]; [split; [discriminate|tauto]|].
  destruct (String.eqb_spec k n) as [->|E]; [tauto|]. rewrite IH. tauto.
Qed.
Lemma snag_loop_some fuel : forall st b mn r, snag_loop fuel st b mn = Some r ->
  is_def st (uname b r) = false /\ (mn <= r)%Z /\ forall k, (mn <= k < r)%Z -> is_def st (uname b k) = true.
Proof.
  induction fuel as [|f IH]; intros st b mn r H; [discriminate|]. cbn [snag_loop] in H. fold (uname b mn) in H.
  destruct (is_def st (uname b mn)) eqn:E.
  - apply IH in H. destruct H as (A & B & C). split; [exact A|]. split; [lia|]. intros k K.
    destruct (Z.eq_dec k mn) as [->|N]; [exact E|]. apply C. lia.
  - injection H as <-. split; [exact E|]. split; [lia|]. intros; lia.
Qed.
Lemma snag_loop_none fuel : forall st b mn, snag_loop fuel st b mn = None ->
  forall k, (mn <= k < mn + Z.of_nat fuel)%Z -> is_def st (uname b k) = true.
Proof.
  induction fuel as [|f IH]; intros st b mn H k K; [lia|]. cbn [snag_loop] in H. fold (uname b mn) in H.
  destruct (is_def st (uname b mn)) eqn:E; [|discriminate].
  destruct (Z.eq_dec k mn) as [->|N]; [exact E|]. apply (IH st b (mn + 1)%Z H). lia.
Qed.
Lemma nodup_map_inj {A B} (f : A -> B) l : (forall x y, f x = f y -> x = y) -> NoDup l -> NoDup (map f l).
Proof.
  intros I. induction 1 as [|x t N D IH]; cbn; constructor; auto. rewrite in_map_iff. intros (y & E & J).
  apply I in E. now subst.
Qed.
Lemma snag_loop_total fuel st b mn : length (st_defs st) < fuel -> exists r, snag_loop fuel st b mn = Some r.
Proof.
  intro L. destruct (snag_loop fuel st b mn) as [r|] eqn:E; [eauto|]. exfalso.
  pose proof (snag_loop_none fuel st b mn E) as A.
  assert (length (map (fun i => uname b (mn + Z.of_nat i)) (seq 0 fuel)) <= length (map fst (st_defs st))) as X.
  { apply NoDup_incl_length.
    - apply nodup_map_inj; [|apply seq_NoDup]. intros x y H. apply uname_inj in H. lia.
    - intros u I. apply in_map_iff in I. destruct I as (i & <- & I). apply in_seq in I. apply is_def_in. apply A. lia. }
  rewrite !map_length, seq_length in X. lia.
Qed.
