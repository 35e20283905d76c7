(* Exactness of number evaluation and of the numeric part. *)
From Verif Require Import M_Syntax M_Float M_Hash M_Num S_Num.
From Coq Require Import QArith Qfield Permutation.
Open Scope Z_scope.

Lemma injZ_nz d : d <> 0 -> ~ (inject_Z d == 0)%Q.
Proof. unfold Qeq, inject_Z; cbn. lia. Qed.

Lemma injZ_eq x y : (inject_Z x == inject_Z y)%Q <-> x = y.
Proof. unfold Qeq, inject_Z; cbn. lia. Qed.

Lemma qdiv_eq n d n' d' : d <> 0 -> d' <> 0 ->
  ((inject_Z n / inject_Z d == inject_Z n' / inject_Z d')%Q <-> n * d' = n' * d).
Proof.
  intros H H'. apply injZ_nz in H, H'. split; intro E.
  - apply injZ_eq. rewrite !inject_Z_mult.
    setoid_replace (inject_Z n) with (inject_Z n / inject_Z d * inject_Z d)%Q by (field; assumption).
    rewrite E. field. assumption.
  - apply (f_equal inject_Z) in E. assert (E2 : (inject_Z n * inject_Z d' == inject_Z n' * inject_Z d)%Q) by (rewrite <- !inject_Z_mult, E; reflexivity).
    setoid_replace (inject_Z n / inject_Z d)%Q with (inject_Z n * inject_Z d' / (inject_Z d * inject_Z d'))%Q
      by (field; auto).
    rewrite E2. field. auto.
Qed.

Lemma qdiv_eq1 n d n' d' : d <> 0 -> d' <> 0 ->
  (inject_Z n / inject_Z d == inject_Z n' / inject_Z d')%Q -> n * d' = n' * d.
Proof. intros H H' E. exact (proj1 (qdiv_eq n d n' d' H H') E). Qed.

Lemma canonical_unique q q' e e' : canonical_of q e -> canonical_of q' e' -> (q == q')%Q -> e = e'.
Proof.
  intros H H' E.
  destruct e as [| |z|n d| | |]; try contradiction; destruct e' as [| |z'|n' d'| | |]; try contradiction;
    cbn [canonical_of] in H, H'.
  - rewrite H, H' in E. apply (proj1 (injZ_eq _ _)) in E. congruence.
  - destruct H' as [D [G V]]. exfalso.
    assert (inject_Z z == inject_Z z / inject_Z 1)%Q as Z1 by (field; discriminate).
    rewrite H, V, Z1 in E. apply qdiv_eq1 in E; [|lia|lia].
    assert (X : (d' | n')) by (exists z; lia).
    apply Z.divide_gcd_iff in X; [|lia]. rewrite Z.gcd_comm in X. lia.
  - destruct H as [D [G V]]. exfalso.
    assert (inject_Z z' == inject_Z z' / inject_Z 1)%Q as Z1 by (field; discriminate).
    rewrite H', V, Z1 in E. apply qdiv_eq1 in E; [|lia|lia].
    assert (X : (d | n)) by (exists z'; lia).
    apply Z.divide_gcd_iff in X; [|lia]. rewrite Z.gcd_comm in X. lia.
  - destruct H as [D [G V]], H' as [D' [G' V']]. rewrite V, V' in E.
    apply qdiv_eq1 in E; [|lia|lia].
    assert (X1 : (d | d')).
    { apply (Z.gauss d n d'); [exists n'; lia|]. rewrite Z.gcd_comm. exact G. }
    assert (X2 : (d' | d)).
    { apply (Z.gauss d' n' d); [exists n; lia|]. rewrite Z.gcd_comm. exact G'. }
    assert (d = d') as <- by (apply Z.divide_antisym_nonneg; lia || assumption).
    f_equal. nia.
Qed.

Lemma eval_rational_canonical n d : d <> 0 ->
  canonical_of (inject_Z n / inject_Z d) (eval_rational n d).
Proof.
  intro Hd. unfold eval_rational.
  destruct (Z.eqb_spec d 0) as [|_]; [contradiction|]. rewrite andb_false_r.
  destruct (Z.eqb_spec n 0) as [->|Hn].
  { cbn. unfold Qdiv. apply Qmult_0_l. }
  set (g := Z.gcd (Z.abs n) (Z.abs d)).
  assert (Hg : 0 < g).
  { unfold g. pose proof (Z.gcd_nonneg (Z.abs n) (Z.abs d)).
    assert (Z.gcd (Z.abs n) (Z.abs d) <> 0); [|lia]. intro E. apply Z.gcd_eq_0 in E. lia. }
  assert (An : Z.abs n = g * (Z.abs n / g)).
  { apply Z.div_exact; [lia|]. apply Z.mod_divide; [lia|]. apply Z.gcd_divide_l. }
  assert (Ad : Z.abs d = g * (Z.abs d / g)).
  { apply Z.div_exact; [lia|]. apply Z.mod_divide; [lia|]. apply Z.gcd_divide_r. }
  assert (G1 : Z.gcd (Z.abs n / g) (Z.abs d / g) = 1) by (apply Z.gcd_div_gcd; unfold g in *; lia).
  set (an := Z.abs n / g) in *. set (ad := Z.abs d / g) in *.
  assert (Hadp : 0 < ad) by nia.
  set (sn := if xorb (n <? 0) (d <? 0) then - an else an).
  assert (Cross : n * ad = sn * d).
  { unfold sn. destruct (Z.ltb_spec n 0), (Z.ltb_spec d 0); cbn [xorb]; nia. }
  assert (Val : (inject_Z n / inject_Z d == inject_Z sn / inject_Z ad)%Q).
  { apply qdiv_eq; lia. }
  destruct (Z.eqb_spec ad 1) as [E1|E1].
  - cbn [canonical_of]. rewrite Val, E1. fold sn. field; discriminate.
  - cbn [canonical_of]. fold sn. split; [lia|]. split; [|exact Val].
    unfold sn. destruct (xorb (n <? 0) (d <? 0)); rewrite ?Z.gcd_opp_l; exact G1.
Qed.

Lemma canonical_eval q e : canonical_of q e -> eval_number e = e.
Proof.
  destruct e as [| |z|n d| | |]; try contradiction; [reflexivity|].
  intros [D [G V]]. cbn [eval_number].
  apply (canonical_unique q q _ _); [|cbn; auto|reflexivity].
  assert (Hd : d <> 0) by lia. pose proof (eval_rational_canonical n d Hd) as C.
  destruct (eval_rational n d) as [| |z|n' d'| | |]; try contradiction; cbn in *; rewrite V; exact C.
Qed.

Lemma canonical_qval q e : canonical_of q e -> exact_real e = true /\ (qval0 e == q)%Q.
Proof.
  destruct e as [| |z|n d| | |]; try contradiction; cbn.
  - intro H. split; [reflexivity|]. symmetry; exact H.
  - intros [D [G V]]. unfold qval0. cbn. destruct (Z.eqb_spec d 0); [lia|]. split; [reflexivity|].
    symmetry; exact V.
Qed.

Lemma canonical_proper q q' e : (q == q')%Q -> canonical_of q e -> canonical_of q' e.
Proof.
  intro E. destruct e as [| |z|n d| | |]; try contradiction; cbn.
  - intro H. rewrite <- E. exact H.
  - intros [D [G V]]. repeat split; auto. rewrite <- E. exact V.
Qed.

(* evaluating any exact real yields its canonical form *)
Lemma eval_real_canonical e : exact_real e = true -> canonical_of (qval0 e) (eval_number e).
Proof.
  destruct e as [| |z|n d| | |]; try discriminate; intro H.
  - cbn. unfold qval0; cbn. reflexivity.
  - cbn in H. destruct (Z.eqb_spec d 0) as [|Hd]; [discriminate|]. cbn [eval_number].
    unfold qval0. cbn [qval]. destruct (Z.eqb_spec d 0); [contradiction|].
    apply eval_rational_canonical. assumption.
Qed.

(* ---- accumulators ---- *)
Definition opq (fn : fold_fn) (x y : Q) : Q := match fn with FoldAdd => (x + y)%Q | FoldMul => (x * y)%Q end.
Definition unitq (fn : fold_fn) : Q := match fn with FoldAdd => 0%Q | FoldMul => 1%Q end.
Definition foldq (fn : fold_fn) (l : list ex) : Q := fold_right (fun e q => opq fn (qval0 e) q) (unitq fn) l.

Lemma foldq_sum l : foldq FoldAdd l = qsum l. Proof. reflexivity. Qed.
Lemma foldq_prod l : foldq FoldMul l = qprod l. Proof. reflexivity. Qed.

Lemma opq_assoc fn x y z : (opq fn (opq fn x y) z == opq fn x (opq fn y z))%Q.
Proof. destruct fn; cbn; ring. Qed.
Lemma opq_comm fn x y : (opq fn x y == opq fn y x)%Q.
Proof. destruct fn; cbn; ring. Qed.
Lemma opq_unit fn x : (opq fn (unitq fn) x == x)%Q.
Proof. destruct fn; cbn; ring. Qed.
Lemma opq_proper fn x x' y y' : (x == x' -> y == y' -> opq fn x y == opq fn x' y')%Q.
Proof. intros H H'. destruct fn; cbn; rewrite H, H'; reflexivity. Qed.

(* value of the exact accumulators; no float, no complex *)
Definition acc_ok (a : acc) : Prop :=
  aF a = None /\ aC a = None /\ (forall n d, aR a = Some (n, d) -> d <> 0).
Definition acc_q (fn : fold_fn) (a : acc) : Q :=
  opq fn (match aI a with Some i => inject_Z i | None => unitq fn end)
         (match aR a with Some (n, d) => (inject_Z n / inject_Z d)%Q | None => unitq fn end).

Lemma int_op_q fn x y : (inject_Z (int_op fn x y) == opq fn (inject_Z x) (inject_Z y))%Q.
Proof. destruct fn; cbn [int_op opq]; [rewrite inject_Z_plus|rewrite inject_Z_mult]; reflexivity. Qed.

Lemma rat_int_q fn n d i : d <> 0 ->
  (inject_Z (fst (rat_int fn (n, d) i)) / inject_Z (snd (rat_int fn (n, d) i))
   == opq fn (inject_Z n / inject_Z d) (inject_Z i))%Q /\ snd (rat_int fn (n, d) i) <> 0.
Proof.
  intro H. apply injZ_nz in H as H'. destruct fn; cbn; split; auto.
  - rewrite inject_Z_plus, inject_Z_mult. field. assumption.
  - rewrite inject_Z_mult. field. assumption.
Qed.

Lemma rat_rat_q fn n d n' d' : d <> 0 -> d' <> 0 ->
  (inject_Z (fst (rat_rat fn (n, d) (n', d'))) / inject_Z (snd (rat_rat fn (n, d) (n', d')))
   == opq fn (inject_Z n / inject_Z d) (inject_Z n' / inject_Z d'))%Q
  /\ snd (rat_rat fn (n, d) (n', d')) <> 0.
Proof.
  intros H H1. apply injZ_nz in H as H'. apply injZ_nz in H1 as H1'.
  destruct fn; cbn; split; try nia.
  - rewrite inject_Z_plus, !inject_Z_mult. field. auto.
  - rewrite !inject_Z_mult. field. auto.
Qed.

Lemma qval0_rat n d : d <> 0 -> qval0 (ERat n d) = (inject_Z n / inject_Z d)%Q.
Proof. intro H. unfold qval0. cbn. destruct (Z.eqb_spec d 0); [contradiction|reflexivity]. Qed.

Lemma acc_real_ok fn a e : acc_ok a -> exact_real e = true ->
  exists a', acc_real fn a e = Some a' /\ acc_ok a' /\
    (acc_q fn a' == opq fn (acc_q fn a) (qval0 e))%Q /\
    (aI a' <> None \/ aR a' <> None).
Proof.
  intros [Hf [Hc Hr]] He. destruct e as [| |z|n d| | |]; try discriminate He.
  - eexists; split; [reflexivity|]. split; [repeat split; assumption|]. split; [|left; discriminate].
    unfold acc_q. cbn [aI aR]. change (qval0 (EInt z)) with (inject_Z z).
    set (r := match aR a with Some (n, d) => _ | None => _ end). clearbody r.
    destruct (aI a) as [i|].
    + rewrite (opq_proper fn _ _ _ _ (int_op_q fn i z) (Qeq_refl r)).
      destruct fn; cbn; ring.
    + destruct fn; cbn; ring.
  - cbn in He. destruct (Z.eqb_spec d 0) as [|Hd]; [discriminate|].
    eexists; split; [reflexivity|].
    rewrite (qval0_rat n d Hd). unfold acc_ok, acc_q. cbn [aI aR aF aC].
    set (i := match aI a with Some i => _ | None => _ end). clearbody i.
    destruct (aR a) as [[n' d']|].
    + specialize (Hr n' d' eq_refl). destruct (rat_rat_q fn n' d' n d Hr Hd) as [V D].
      destruct (rat_rat fn (n', d') (n, d)) as [n2 d2]. cbn [fst snd] in *.
      split; [|split; [|right; discriminate]].
      * repeat split; auto. intros x y E. injection E as <- <-. assumption.
      * rewrite (opq_proper fn _ _ _ _ (Qeq_refl i) V).
        symmetry. apply opq_assoc.
    + split; [|split; [|right; discriminate]].
      * repeat split; auto. intros x y E. injection E as <- <-. assumption.
      * destruct fn; cbn; ring.
Qed.

Lemma real_part_ok fn a : acc_ok a -> (aI a <> None \/ aR a <> None) ->
  exists e, real_part fn a = Some e /\ exact_real e = true /\ (qval0 e == acc_q fn a)%Q.
Proof.
  intros [Hf [Hc Hr]] Hs. unfold real_part, acc_q. rewrite Hf.
  destruct (aR a) as [[n d]|].
  - specialize (Hr n d eq_refl). destruct (aI a) as [i|].
    + destruct (rat_int_q fn n d i Hr) as [V D]. destruct (rat_int fn (n, d) i) as [n2 d2].
      cbn [fst snd] in *. eexists; split; [reflexivity|].
      rewrite (qval0_rat n2 d2 D). split; [cbn; destruct (Z.eqb_spec d2 0); [contradiction|reflexivity]|].
      rewrite V. apply opq_comm.
    + cbn [fst snd]. eexists; split; [reflexivity|]. rewrite (qval0_rat n d Hr).
      split; [cbn; destruct (Z.eqb_spec d 0); [contradiction|reflexivity]|].
      symmetry. apply opq_unit.
  - destruct (aI a) as [i|]; [|destruct Hs; contradiction].
    eexists; split; [reflexivity|]. split; [reflexivity|].
    rewrite opq_comm. symmetry. apply opq_unit.
Qed.

Lemma np_real_ok fn l : forall a, acc_ok a -> (forall e, In e l -> exact_real e = true) ->
  (l <> [] \/ aI a <> None \/ aR a <> None) ->
  exists e, np_real fn a l = Some e /\ exact_real e = true /\
    (qval0 e == opq fn (acc_q fn a) (foldq fn l))%Q.
Proof.
  induction l as [|x t IH]; intros a Ha Hl Hne.
  - destruct Hne as [Hne|Hne]; [contradiction|].
    destruct (real_part_ok fn a Ha Hne) as [e [E [X V]]].
    exists e. split; [exact E|]. split; [exact X|]. rewrite V. cbn [foldq fold_right].
    rewrite opq_comm. symmetry. apply opq_unit.
  - destruct (acc_real_ok fn a x Ha (Hl x (or_introl eq_refl))) as [a' [E [Oa [V S]]]].
    cbn [np_real]. rewrite E.
    destruct (IH a' Oa (fun e He => Hl e (or_intror He)) (or_intror S)) as [e [E2 [X V2]]].
    exists e. split; [exact E2|]. split; [exact X|]. rewrite V2.
    rewrite (opq_proper fn _ _ _ _ V (Qeq_refl (foldq fn t))). cbn [foldq fold_right].
    apply opq_assoc.
Qed.

Lemma acc0_ok : acc_ok acc0.
Proof. repeat split; discriminate. Qed.
Lemma acc0_q fn : (acc_q fn acc0 == unitq fn)%Q.
Proof. unfold acc_q, acc0; cbn. apply opq_unit. Qed.

Lemma np_real0 fn l : l <> [] -> (forall e, In e l -> exact_real e = true) ->
  exists e, np_real fn acc0 l = Some e /\ exact_real e = true /\ (qval0 e == foldq fn l)%Q.
Proof.
  intros H Hl. destruct (np_real_ok fn l acc0 acc0_ok Hl (or_introl H)) as [e [E [X V]]].
  exists e. split; [exact E|]. split; [exact X|]. rewrite V.
  rewrite (opq_proper fn _ _ _ _ (acc0_q fn) (Qeq_refl _)). apply opq_unit.
Qed.

(* on real lists, np agrees with np_real *)
Lemma np_np_real fn l : forall a, aC a = None -> (forall e, In e l -> exact_real e = true) ->
  np fn a l = (np_real fn a l, []).
Proof.
  induction l as [|x t IH]; intros a Ha Hl; cbn [np np_real].
  - unfold typed_real_part. rewrite Ha. reflexivity.
  - assert (Hx : exact_real x = true) by (apply Hl; left; reflexivity).
    assert (acc_num fn a x = acc_real fn a x) as -> by (destruct x; try discriminate Hx; reflexivity).
    destruct (acc_real fn a x) as [a'|] eqn:E.
    + apply IH; [|intros e He; apply Hl; right; assumption].
      destruct x; try discriminate Hx; cbn in E; injection E as <-; assumption.
    + destruct x; try discriminate Hx; discriminate E.
Qed.

Lemma numeric_exact fn l : l <> [] -> (forall e, In e l -> exact_real e = true) ->
  exists r, compute_numeric_part fn l = (Some r, []) /\ canonical_of (foldq fn l) (eval_number r).
Proof.
  intros H Hl. destruct (np_real0 fn l H Hl) as [e [E [X V]]].
  exists e. split.
  - unfold compute_numeric_part. rewrite np_np_real by (auto). rewrite E. reflexivity.
  - apply (canonical_proper (qval0 e)); [exact V|]. apply eval_real_canonical. exact X.
Qed.

Lemma foldq_perm fn l l' : Permutation l l' -> (foldq fn l == foldq fn l')%Q.
Proof.
  induction 1 as [|x l l' H IH|x y l|l l' l'' H IH H' IH']; cbn [foldq fold_right].
  - reflexivity.
  - apply opq_proper; [reflexivity|exact IH].
  - rewrite <- !opq_assoc. apply opq_proper; [apply opq_comm|reflexivity].
  - rewrite IH. exact IH'.
Qed.

Lemma foldq_app fn l l' : (foldq fn (l ++ l') == opq fn (foldq fn l) (foldq fn l'))%Q.
Proof.
  induction l as [|x t IH]; cbn [foldq fold_right app].
  - symmetry. apply opq_unit.
  - rewrite opq_assoc. apply opq_proper; [reflexivity|exact IH].
Qed.
