(* Exactness of complex numeric parts. *)
From Verif Require Import M_Syntax M_Float M_Hash M_Num S_Num P_Num.
From Coq Require Import QArith Qfield Permutation.
Open Scope Z_scope.

Definition copq (fn : fold_fn) : Q * Q -> Q * Q -> Q * Q := match fn with FoldAdd => cadd | FoldMul => cmul end.
Definition cunit (fn : fold_fn) : Q * Q := (unitq fn, 0%Q).
Definition cfold (fn : fold_fn) (l : list ex) : Q * Q := fold_right (fun e q => copq fn (cval e) q) (cunit fn) l.

Lemma ceq_refl x : ceq x x. Proof. split; reflexivity. Qed.
Lemma ceq_sym x y : ceq x y -> ceq y x. Proof. intros [A B]; split; symmetry; assumption. Qed.
Lemma ceq_trans x y z : ceq x y -> ceq y z -> ceq x z.
Proof. intros [A B] [C D]; split; etransitivity; eassumption. Qed.
Lemma copq_proper fn x x' y y' : ceq x x' -> ceq y y' -> ceq (copq fn x y) (copq fn x' y').
Proof. intros [A B] [C D]. destruct fn; split; cbn; rewrite A, ?B, C, ?D || rewrite B, D; reflexivity. Qed.
Lemma copq_assoc fn x y z : ceq (copq fn (copq fn x y) z) (copq fn x (copq fn y z)).
Proof. destruct fn; split; cbn; ring. Qed.
Lemma copq_comm fn x y : ceq (copq fn x y) (copq fn y x).
Proof. destruct fn; split; cbn; ring. Qed.
Lemma copq_unit fn x : ceq (copq fn (cunit fn) x) x.
Proof. destruct fn; split; cbn; ring. Qed.

Lemma np2_ok fn x y : exact_real x = true -> exact_real y = true ->
  exact_real (np2 fn x y) = true /\ (qval0 (np2 fn x y) == opq fn (qval0 x) (qval0 y))%Q.
Proof.
  intros Hx Hy. unfold np2.
  destruct (np_real0 fn [x; y]) as [e [E [X V]]]; [discriminate|intros z [<-|[<-|[]]]; assumption|].
  rewrite E. split; [exact X|]. rewrite V. cbn [foldq fold_right].
  apply opq_proper; [reflexivity|]. rewrite opq_comm. apply opq_unit.
Qed.

Lemma np3_ok fn x y z : exact_real x = true -> exact_real y = true -> exact_real z = true ->
  exact_real (np3 fn x y z) = true /\
  (qval0 (np3 fn x y z) == opq fn (qval0 x) (opq fn (qval0 y) (qval0 z)))%Q.
Proof.
  intros Hx Hy Hz. unfold np3.
  destruct (np_real0 fn [x; y; z]) as [e [E [X V]]]; [discriminate|intros w [<-|[<-|[<-|[]]]]; assumption|].
  rewrite E. split; [exact X|]. rewrite V. cbn [foldq fold_right].
  apply opq_proper; [reflexivity|]. apply opq_proper; [reflexivity|]. rewrite opq_comm. apply opq_unit.
Qed.

Definition pair_ok (c : ex * ex) : Prop := exact_real (fst c) = true /\ exact_real (snd c) = true.
Definition pval (c : ex * ex) : Q * Q := (qval0 (fst c), qval0 (snd c)).

Lemma cplx_real_ok fn c e : pair_ok c -> exact_real e = true ->
  pair_ok (cplx_real fn c e) /\ ceq (pval (cplx_real fn c e)) (copq fn (pval c) (qval0 e, 0%Q)).
Proof.
  destruct c as [re im]. intros [Hr Hi] He. cbn [fst snd] in *. destruct fn; cbn [cplx_real].
  - destruct (np2_ok FoldAdd re e Hr He) as [X V]. split; [split; assumption|].
    split; cbn [pval fst snd copq cadd]; [exact V|ring].
  - destruct (np2_ok FoldMul re e Hr He) as [X V]. destruct (np2_ok FoldMul im e Hi He) as [X' V'].
    split; [split; assumption|]. split; cbn [pval fst snd copq cmul]; [rewrite V|rewrite V']; cbn [opq]; ring.
Qed.

Lemma cplx_cplx_ok fn c c' : pair_ok c -> pair_ok c' ->
  pair_ok (cplx_cplx fn c c') /\ ceq (pval (cplx_cplx fn c c')) (copq fn (pval c) (pval c')).
Proof.
  destruct c as [re im], c' as [re' im']. intros [Hr Hi] [Hr' Hi']. cbn [fst snd] in *.
  destruct fn; cbn [cplx_cplx].
  - destruct (np2_ok FoldAdd re re' Hr Hr') as [X V]. destruct (np2_ok FoldAdd im im' Hi Hi') as [X' V'].
    split; [split; assumption|]. split; cbn [pval fst snd copq cadd]; assumption.
  - destruct (np2_ok FoldMul re re' Hr Hr') as [Xa Va].
    destruct (np3_ok FoldMul (EInt (-1)) im im' eq_refl Hi Hi') as [Xb Vb].
    destruct (np2_ok FoldMul re im' Hr Hi') as [Xc Vc].
    destruct (np2_ok FoldMul im re' Hi Hr') as [Xd Vd].
    destruct (np2_ok FoldAdd _ _ Xa Xb) as [Xe Ve]. destruct (np2_ok FoldAdd _ _ Xc Xd) as [Xf Vf].
    split; [split; assumption|]. split; cbn [pval fst snd copq cmul].
    + rewrite Ve, (opq_proper FoldAdd _ _ _ _ Va Vb). cbn [opq].
      change (qval0 (EInt (-1))) with (inject_Z (-1)). change (inject_Z (-1)) with (-1)%Q. ring.
    + rewrite Vf, (opq_proper FoldAdd _ _ _ _ Vc Vd). cbn [opq]. ring.
Qed.

Definition cacc_ok (a : acc) : Prop :=
  aF a = None /\ (forall n d, aR a = Some (n, d) -> d <> 0) /\ (forall c, aC a = Some c -> pair_ok c).
Definition cacc_q (fn : fold_fn) (a : acc) : Q * Q :=
  copq fn (match aC a with Some c => pval c | None => cunit fn end) (acc_q fn a, 0%Q).
Definition some_acc (a : acc) : Prop := aI a <> None \/ aR a <> None \/ aC a <> None.

Lemma copq_real fn x y : ceq (copq fn (x, 0%Q) (y, 0%Q)) (opq fn x y, 0%Q).
Proof. destruct fn; split; cbn; ring. Qed.

Lemma acc_num_ok fn a e : cacc_ok a -> exact_number e = true ->
  exists a', acc_num fn a e = Some a' /\ cacc_ok a' /\ some_acc a' /\
    ceq (cacc_q fn a') (copq fn (cacc_q fn a) (cval e)).
Proof.
  intros [Hf [Hr Hc]] He.
  destruct (exact_real e) eqn:Er.
  - (* strip the complex part *)
    set (a0 := {| aI := aI a; aR := aR a; aF := aF a; aC := None |}).
    destruct (acc_real_ok fn a0 e) as [a' [E [Oa [V S]]]]; [repeat split; auto|assumption|].
    exists {| aI := aI a'; aR := aR a'; aF := aF a'; aC := aC a |}.
    assert (En : acc_num fn a e = acc_real fn a e) by (destruct e; try discriminate Er; reflexivity).
    rewrite En. destruct Oa as [F' [C' R']].
    split; [|split; [|split]].
    + destruct e; try discriminate Er; cbn in E |- *; injection E as <-; reflexivity.
    + split; [exact F'|]. split; [exact R'|exact Hc].
    + destruct S; [left|right; left]; assumption.
    + unfold cacc_q. cbn [aC].
      change (acc_q fn {| aI := aI a'; aR := aR a'; aF := aF a'; aC := aC a |}) with (acc_q fn a').
      change (acc_q fn a0) with (acc_q fn a) in V.
      set (p := match aC a with Some c => pval c | None => cunit fn end).
      assert (Ev : cval e = (qval0 e, 0%Q)) by (destruct e; try discriminate Er; reflexivity).
      rewrite Ev. eapply ceq_trans; [|apply ceq_sym, copq_assoc].
      apply copq_proper; [apply ceq_refl|]. eapply ceq_trans; [|apply ceq_sym, copq_real].
      split; [exact V|reflexivity].
  - destruct e as [| | | | |re im|]; try discriminate He; try discriminate Er;
      try (cbn in He, Er; congruence).
    cbn in He. apply andb_true_iff in He. destruct He as [He1 He2].
    assert (Pe : pair_ok (re, im)) by (split; assumption).
    eexists; split; [reflexivity|]. unfold cacc_q. cbn [aC].
    match goal with |- context [acc_q fn {| aI := aI a; aR := aR a; aF := aF a; aC := ?X |}] =>
      change (acc_q fn {| aI := aI a; aR := aR a; aF := aF a; aC := X |}) with (acc_q fn a) end.
    destruct (aC a) as [c|] eqn:Ec.
    + destruct (cplx_cplx_ok fn c (re, im) (Hc c eq_refl) Pe) as [P V].
      split; [|split].
      * repeat split; auto; cbn in *; intros; try (eapply Hr; eassumption);
          match goal with H : Some _ = Some _ |- _ => injection H as <- end; apply P.
      * right; right; discriminate.
      * change (cval (ECplx re im)) with (pval (re, im)).
        eapply ceq_trans; [apply copq_proper; [exact V|apply ceq_refl]|].
        eapply ceq_trans; [apply copq_assoc|].
        eapply ceq_trans; [|apply ceq_sym, copq_assoc].
        apply copq_proper; [apply ceq_refl|apply copq_comm].
    + split; [|split].
      * repeat split; auto; cbn in *; intros; try (eapply Hr; eassumption);
          match goal with H : Some _ = Some _ |- _ => injection H as <- end; assumption.
      * right; right; discriminate.
      * change (cval (ECplx re im)) with (pval (re, im)).
        eapply ceq_trans; [apply copq_comm|].
        apply copq_proper; [|apply ceq_refl]. apply ceq_sym, copq_unit.
Qed.

Lemma typed_ok fn a : cacc_ok a -> some_acc a ->
  exists e, typed_real_part fn a = Some e /\ exact_number e = true /\ ceq (cval e) (cacc_q fn a).
Proof.
  intros [Hf [Hr Hc]] Hs. unfold typed_real_part, cacc_q.
  destruct (aC a) as [c|] eqn:Ec.
  - rewrite Hf. unfold acc_q. specialize (Hc c eq_refl).
    set (c2 := match aR a with Some (n, d) => cplx_real fn c (ERat n d) | None => c end).
    assert (H2 : pair_ok c2 /\ ceq (pval c2) (copq fn (pval c)
       (match aR a with Some (n, d) => (inject_Z n / inject_Z d)%Q | None => unitq fn end, 0%Q))).
    { unfold c2. destruct (aR a) as [[n d]|].
      - specialize (Hr n d eq_refl). destruct (cplx_real_ok fn c (ERat n d)) as [P V]; auto.
        { cbn. destruct (Z.eqb_spec d 0); [contradiction|reflexivity]. }
        split; [exact P|]. rewrite (qval0_rat n d Hr) in V. exact V.
      - split; [exact Hc|]. apply ceq_sym. eapply ceq_trans; [apply copq_comm|apply copq_unit]. }
    destruct H2 as [P2 V2].
    set (c3 := match aI a with Some i => cplx_real fn c2 (EInt i) | None => c2 end).
    assert (H3 : pair_ok c3 /\ ceq (pval c3) (copq fn (pval c2)
       (match aI a with Some i => inject_Z i | None => unitq fn end, 0%Q))).
    { unfold c3. destruct (aI a) as [i|].
      - apply (cplx_real_ok fn c2 (EInt i)); [assumption|reflexivity].
      - split; [exact P2|]. apply ceq_sym. eapply ceq_trans; [apply copq_comm|apply copq_unit]. }
    destruct H3 as [P3 V3].
    exists (ECplx (fst c3) (snd c3)). split; [reflexivity|]. split.
    + cbn. destruct P3 as [-> ->]. reflexivity.
    + change (cval (ECplx (fst c3) (snd c3))) with (pval c3).
      eapply ceq_trans; [exact V3|]. eapply ceq_trans; [apply copq_proper; [exact V2|apply ceq_refl]|].
      eapply ceq_trans; [apply copq_assoc|]. apply copq_proper; [apply ceq_refl|].
      eapply ceq_trans; [apply copq_comm|]. apply copq_real.
  - destruct (real_part_ok fn a) as [e [E [X V]]].
    + repeat split; auto.
    + destruct Hs as [H|[H|H]]; [left|right|contradiction]; assumption.
    + exists e. split; [exact E|]. split.
      * destruct e; try discriminate X; exact X.
      * assert (Ev : cval e = (qval0 e, 0%Q)) by (destruct e; try discriminate X; reflexivity).
        rewrite Ev. apply ceq_sym. eapply ceq_trans; [apply copq_unit|]. split; [symmetry; exact V|reflexivity].
Qed.

Lemma np_ok fn l : forall a, cacc_ok a -> (forall e, In e l -> exact_number e = true) ->
  (l <> [] \/ some_acc a) ->
  exists e, np fn a l = (Some e, []) /\ exact_number e = true /\
    ceq (cval e) (copq fn (cacc_q fn a) (cfold fn l)).
Proof.
  induction l as [|x t IH]; intros a Ha Hl Hne.
  - destruct Hne as [Hne|Hne]; [contradiction|].
    destruct (typed_ok fn a Ha Hne) as [e [E [X V]]]. exists e. cbn [np]. rewrite E.
    split; [reflexivity|]. split; [exact X|]. eapply ceq_trans; [exact V|]. cbn [cfold fold_right].
    apply ceq_sym. eapply ceq_trans; [apply copq_comm|apply copq_unit].
  - destruct (acc_num_ok fn a x Ha (Hl x (or_introl eq_refl))) as [a' [E [Oa [S V]]]].
    cbn [np]. rewrite E.
    destruct (IH a' Oa (fun e He => Hl e (or_intror He)) (or_intror S)) as [e [E2 [X V2]]].
    exists e. split; [exact E2|]. split; [exact X|]. eapply ceq_trans; [exact V2|].
    eapply ceq_trans; [apply copq_proper; [exact V|apply ceq_refl]|]. cbn [cfold fold_right].
    apply copq_assoc.
Qed.

Lemma numeric_complex fn l : l <> [] -> (forall e, In e l -> exact_number e = true) ->
  exists r, compute_numeric_part fn l = (Some r, []) /\ exact_number r = true /\
    ceq (cval r) (cfold fn l).
Proof.
  intros H Hl. destruct (np_ok fn l acc0) as [e [E [X V]]]; auto.
  - repeat split; discriminate.
  - exists e. split; [exact E|]. split; [exact X|]. eapply ceq_trans; [exact V|].
    assert (ceq (cacc_q fn acc0) (cunit fn)) as H0.
    { unfold cacc_q. cbn [aC acc0]. eapply ceq_trans; [apply copq_unit|]. split; [apply acc0_q|reflexivity]. }
    eapply ceq_trans; [apply copq_proper; [exact H0|apply ceq_refl]|]. apply copq_unit.
Qed.

(* evaluation of an exact number: canonical, provided the imaginary part does
   not collide with the hash of 0 *)
Lemma eval_complex_canonical e : exact_number e = true ->
  (forall re im, e = ECplx re im -> is_sameq (eval_real im) (EInt 0) = true -> eval_real im = EInt 0) ->
  canonical_cof (cval e) (eval_number e).
Proof.
  intros He Hc. destruct e as [| |z|n d|f|re im|l]; try discriminate He.
  - split; [reflexivity|]. apply (eval_real_canonical (EInt z)). reflexivity.
  - pose proof (eval_real_canonical (ERat n d) He) as C. cbn [eval_number cval] in *.
    destruct (eval_rational n d) eqn:E; try contradiction; split; auto; reflexivity.
  - cbn in He. apply andb_true_iff in He. destruct He as [H1 H2].
    assert (R : forall x, exact_real x = true -> canonical_of (qval0 x) (eval_real x)).
    { intros x Hx. pose proof (eval_real_canonical x Hx) as C.
      destruct x; try discriminate Hx; exact C. }
    pose proof (R re H1) as C1. pose proof (R im H2) as C2. specialize (Hc re im eq_refl).
    cbn [eval_number cval].
    destruct (is_sameq (eval_real im) (EInt 0)) eqn:S.
    + specialize (Hc eq_refl). rewrite Hc in C2. cbn in C2.
      assert (Z0 : (qval0 im == 0)%Q) by (rewrite C2; reflexivity).
      destruct (eval_real re) eqn:E; try contradiction; split; auto.
    + cbn [canonical_cof fst snd]. split; [|split; assumption]. intro Z0.
      assert (eval_real im = EInt 0) as E0.
      { apply (canonical_unique _ 0%Q _ _ C2); [cbn; reflexivity|exact Z0]. }
      rewrite E0 in S. vm_compute in S. discriminate S.
Qed.
