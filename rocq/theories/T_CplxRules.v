(* C136: the library rules about complex numbers and the builtin arithmetic agree. *)
From Verif Require Import M_Syntax M_Float M_Hash M_Num S_Num P_Num P_Cplx M_CplxRules.
From Coq Require Import List Permutation QArith Lia.
Import ListNotations.
Open Scope Z_scope.

(* ---- specification ---- *)
(* the sum, or the product, of a list of complex numbers with rational parts *)
Definition total (fn : fold_fn) (l : list ex) : Q * Q := match fn with FoldAdd => csum l | FoldMul => cprod l end.
Definition all_exact (l : list ex) : Prop := forall e, In e l -> exact_number e = true.
(* the imaginary part is not 0 but SameQ to 0: their 64-bit hashes collide *)
Definition collides (c : ex) : Prop :=
  match c with ECplx _ im => is_sameq (eval_real im) (EInt 0) = true /\ eval_real im <> EInt 0 | _ => False end.
(* any number of rule applications, no hash colliding on the way; the new complex
   number is evaluated and takes part in the next one *)
Inductive rules (fn : fold_fn) : list ex -> list ex -> Prop :=
| rs_done l : rules fn l l
| rs_step l c rest l' : cplx_step fn l c rest -> ~ collides c -> rules fn (eval_number c :: rest) l' -> rules fn l l'.

(* ---- proofs ---- *)
Lemma total_cfold fn l : total fn l = cfold fn l.
Proof. destruct fn; reflexivity. Qed.
Lemma cfold_cons fn e l : cfold fn (e :: l) = copq fn (cval e) (cfold fn l). Proof. reflexivity. Qed.
Lemma cfold_perm fn l l' : Permutation l l' -> ceq (cfold fn l) (cfold fn l').
Proof.
  induction 1 as [|x l l' H IH|x y l|l l2 l3 H1 IH1 H2 IH2]; try apply ceq_refl.
  - rewrite !cfold_cons. apply copq_proper; [apply ceq_refl|exact IH].
  - rewrite !cfold_cons. eapply ceq_trans; [apply ceq_sym, copq_assoc|].
    eapply ceq_trans; [apply copq_proper; [apply copq_comm|apply ceq_refl]|]. apply copq_assoc.
  - eapply ceq_trans; eassumption.
Qed.
Lemma not_collides c : ~ collides c -> forall re im, c = ECplx re im -> is_sameq (eval_real im) (EInt 0) = true -> eval_real im = EInt 0.
Proof.
  intros N re im -> S. cbn [collides] in N.
  destruct (eval_real im) as [s|s|z|n d|f|a b|l]; try (exfalso; apply N; split; [exact S|discriminate]).
  destruct (Z.eq_dec z 0) as [->|Nz]; [reflexivity|]. exfalso. apply N. split; [exact S|]. congruence.
Qed.
Lemma canonical_exact q e : canonical_cof q e -> exact_number e = true /\ ceq (cval e) q.
Proof.
  intro H. destruct e as [s|s|z|n d|f|re im|l]; cbn [canonical_cof canonical_of] in H; try solve [destruct H as [_ []]].
  - destruct H as [H1 H2]. split; [reflexivity|]. split; [symmetry; exact H2|symmetry; exact H1].
  - destruct H as [H1 H2]. destruct (canonical_qval _ (ERat n d) H2) as [X V]. split; [exact X|].
    split; [exact V|symmetry; exact H1].
  - destruct H as (_ & H1 & H2). destruct (canonical_qval _ _ H1) as [X1 V1], (canonical_qval _ _ H2) as [X2 V2].
    split; [cbn; rewrite X1, X2; reflexivity|split; assumption].
Qed.
Lemma canonical_cof_unique q q' e e' : canonical_cof q e -> canonical_cof q' e' -> ceq q q' -> e = e'.
Proof.
  intros H H' [E1 E2].
  destruct e as [s|s|z|n d|f|re im|l]; try solve [destruct H as [_ []]];
    destruct e' as [s'|s'|z'|n' d'|f'|re' im'|l']; try solve [destruct H' as [_ []]];
    cbn [canonical_cof] in H, H'.
  1-2,4-5: destruct H as [_ H], H' as [_ H']; eapply canonical_unique; eassumption.
  1-2: exfalso; destruct H as [H _], H' as [H' _]; apply H'; rewrite <- E2; exact H.
  1-2: exfalso; destruct H as [H _], H' as [H' _]; apply H; rewrite E2; exact H'.
  destruct H as (_ & H1 & H2), H' as (_ & H1' & H2'). f_equal; eapply canonical_unique; eassumption.
Qed.
Lemma num_canonical c : exact_number c = true -> ~ collides c -> canonical_cof (cval c) (eval_number c).
Proof. intros X N. apply eval_complex_canonical; [exact X|apply not_collides, N]. Qed.
(* the fold of exact reals is an exact real *)
Lemma num_op_real fn l : l <> [] -> (forall e, In e l -> exact_real e = true) ->
  exact_real (num_op fn l) = true /\ ceq (qval0 (num_op fn l), 0%Q) (cfold fn l).
Proof.
  intros N H.
  assert (HC : forall e, In e l -> exact_number e = true) by (intros e I; specialize (H e I); destruct e; try discriminate H; exact H).
  destruct (numeric_complex fn l N HC) as [r [E [X V]]].
  assert (R : forall m, (forall e, In e m -> exact_real e = true) -> (snd (cfold fn m) == 0)%Q).
  { intros m. induction m as [|e m IH]; intro A; [destruct fn; reflexivity|].
    rewrite cfold_cons. assert (S : snd (cval e) = 0%Q) by (specialize (A e (or_introl eq_refl)); destruct e; try discriminate A; reflexivity).
    specialize (IH (fun x I => A x (or_intror I))). destruct fn; cbn [copq]; [cbn [cadd snd]; rewrite S, IH; reflexivity|].
    cbn [cmul snd]. rewrite S, IH. ring. }
  assert (RR : exact_real r = true).
  { unfold compute_numeric_part in E.
    assert (G : forall m a, aC a = None -> (forall e, In e m -> exact_real e = true) -> forall y, np fn a m = (Some y, []) ->
      (forall p q, y <> ECplx p q)).
    { intros m. induction m as [|e m IH]; intros a Ac A y Ey p q ->.
      - cbn [np] in Ey. unfold typed_real_part in Ey. rewrite Ac in Ey. unfold real_part in Ey.
        destruct (aF a), (aR a) as [[? ?]|], (aI a); try discriminate Ey; injection Ey as Ey; try discriminate Ey;
          repeat match type of Ey with context [match ?x with _ => _ end] => destruct x; try discriminate Ey end.
      - cbn [np] in Ey. specialize (A e (or_introl eq_refl)) as Ae.
        destruct e as [| |z|n d| | |]; try discriminate Ae; cbn [acc_num acc_real] in Ey;
          (eapply IH; [|intros x I; apply A; right; exact I|exact Ey|reflexivity]); cbn [aC]; assumption. }
    specialize (G l acc0 eq_refl H r E). destruct r; try discriminate X; try exact X. exfalso. eapply G. reflexivity. }
  unfold num_op. rewrite E.
  assert (C : ~ collides r) by (destruct r; try discriminate RR; exact (fun f => f)).
  destruct (canonical_exact _ _ (num_canonical r X C)) as [X' V'].
  assert (R' : exact_real (eval_number r) = true).
  { pose proof (eval_real_canonical r RR) as K. apply canonical_qval in K. apply K. }
  split; [exact R'|].
  assert (CV : cval (eval_number r) = (qval0 (eval_number r), 0%Q)) by (destruct (eval_number r); try discriminate R'; reflexivity).
  rewrite <- CV. eapply ceq_trans; eassumption.
Qed.

Lemma in2 a b : exact_real a = true -> exact_real b = true -> forall e, In e [a; b] -> exact_real e = true.
Proof. intros A B e [<-|[<-|[]]]; assumption. Qed.
Lemma num2 fn a b : exact_real a = true -> exact_real b = true ->
  exact_real (num_op fn [a; b]) = true /\ (qval0 (num_op fn [a; b]) == match fn with FoldAdd => qval0 a + qval0 b | FoldMul => qval0 a * qval0 b end)%Q.
Proof.
  intros A B. destruct (num_op_real fn [a; b] ltac:(discriminate) (in2 a b A B)) as [X [V _]]. split; [exact X|].
  cbn [fst] in V. rewrite V. rewrite !cfold_cons.
  assert (Ca : cval a = (qval0 a, 0%Q)) by (destruct a; try discriminate A; reflexivity).
  assert (Cb : cval b = (qval0 b, 0%Q)) by (destruct b; try discriminate B; reflexivity).
  rewrite Ca, Cb. destruct fn; cbn; ring.
Qed.
Lemma num3 a b : exact_real a = true -> exact_real b = true ->
  exact_real (num_op FoldMul [EInt (-1); a; b]) = true /\ (qval0 (num_op FoldMul [EInt (-1); a; b]) == - (qval0 a * qval0 b))%Q.
Proof.
  intros A B. assert (I : forall e, In e [EInt (-1); a; b] -> exact_real e = true) by (intros e [<-|[<-|[<-|[]]]]; auto).
  destruct (num_op_real FoldMul [EInt (-1); a; b] ltac:(discriminate) I) as [X [V _]]. split; [exact X|].
  cbn [fst] in V. rewrite V. rewrite !cfold_cons.
  assert (Ca : cval a = (qval0 a, 0%Q)) by (destruct a; try discriminate A; reflexivity).
  assert (Cb : cval b = (qval0 b, 0%Q)) by (destruct b; try discriminate B; reflexivity).
  rewrite Ca, Cb. cbn. ring.
Qed.

Lemma parts re im : exact_number (ECplx re im) = true -> exact_real re = true /\ exact_real im = true.
Proof. intro H. cbn in H. apply andb_prop in H. exact H. Qed.
Lemma exact_of_real a : exact_number a = true -> is_real_number a = true -> exact_real a = true.
Proof. destruct a; intros H R; try discriminate R; exact H. Qed.

Lemma step_exact fn l c rest : all_exact l -> cplx_step fn l c rest ->
  exact_number c = true /\ all_exact rest /\ ceq (copq fn (cval c) (cfold fn rest)) (cfold fn l) /\ List.length l = S (S (List.length rest)).
Proof.
  intros A H.
  assert (K : forall x y, Permutation l (x :: y :: rest) ->
     exact_number x = true /\ exact_number y = true /\ all_exact rest /\
     ceq (cfold fn l) (copq fn (copq fn (cval x) (cval y)) (cfold fn rest)) /\ List.length l = S (S (List.length rest))).
  { intros x y P. assert (I : forall e, In e (x :: y :: rest) -> exact_number e = true).
    { intros e E. apply A. eapply Permutation_in; [apply Permutation_sym; exact P|exact E]. }
    split; [apply I; left; reflexivity|]. split; [apply I; right; left; reflexivity|].
    split; [intros e E; apply I; right; right; exact E|]. split; [|exact (Permutation_length P)].
    eapply ceq_trans; [apply cfold_perm; exact P|]. rewrite !cfold_cons. apply ceq_sym, copq_assoc. }
  destruct H as [l a re im rest P R|l a re im rest P R|l x y u v rest P|l x y u v rest P];
    destruct (K _ _ P) as (X & Y & Z & V & L).
  - apply (exact_of_real _ X) in R. apply parts in Y. destruct Y as [Y1 Y2].
    destruct (num2 FoldMul a re R Y1) as [E1 V1], (num2 FoldMul a im R Y2) as [E2 V2].
    split; [cbn [exact_number]; rewrite E1, E2; reflexivity|]. split; [exact Z|]. split; [|exact L].
    eapply ceq_trans; [|apply ceq_sym; exact V]. apply copq_proper; [|apply ceq_refl].
    assert (Ca : cval a = (qval0 a, 0%Q)) by (destruct a; try discriminate R; reflexivity). rewrite Ca.
    cbn [cval copq]. split; cbn [cmul fst snd]; [rewrite V1|rewrite V2]; ring.
  - apply (exact_of_real _ X) in R. apply parts in Y. destruct Y as [Y1 Y2].
    destruct (num2 FoldAdd a re R Y1) as [E1 V1].
    split; [cbn [exact_number]; rewrite E1, Y2; reflexivity|]. split; [exact Z|]. split; [|exact L].
    eapply ceq_trans; [|apply ceq_sym; exact V]. apply copq_proper; [|apply ceq_refl].
    assert (Ca : cval a = (qval0 a, 0%Q)) by (destruct a; try discriminate R; reflexivity). rewrite Ca.
    cbn [cval copq]. split; cbn [cadd fst snd]; [rewrite V1|]; ring.
  - apply parts in X, Y. destruct X as [X1 X2], Y as [Y1 Y2].
    destruct (num2 FoldAdd x u X1 Y1) as [E1 V1], (num2 FoldAdd y v X2 Y2) as [E2 V2].
    split; [cbn [exact_number]; rewrite E1, E2; reflexivity|]. split; [exact Z|]. split; [|exact L].
    eapply ceq_trans; [|apply ceq_sym; exact V]. apply copq_proper; [|apply ceq_refl].
    cbn [cval copq]. split; cbn [cadd fst snd]; [rewrite V1|rewrite V2]; ring.
  - apply parts in X, Y. destruct X as [X1 X2], Y as [Y1 Y2].
    destruct (num2 FoldMul x u X1 Y1) as [E1 V1], (num3 y v X2 Y2) as [E2 V2],
      (num2 FoldMul x v X1 Y2) as [E3 V3], (num2 FoldMul y u X2 Y1) as [E4 V4].
    destruct (num2 FoldAdd _ _ E1 E2) as [E5 V5], (num2 FoldAdd _ _ E3 E4) as [E6 V6].
    split; [cbn [exact_number]; rewrite E5, E6; reflexivity|]. split; [exact Z|]. split; [|exact L].
    eapply ceq_trans; [|apply ceq_sym; exact V]. apply copq_proper; [|apply ceq_refl].
    cbn [cval copq]. split; cbn [cmul fst snd]; [rewrite V5, V1, V2|rewrite V6, V3, V4]; ring.
Qed.

(* Any number of rule applications keeps the sum, or the product, and leaves
   exact numbers. *)
Theorem C136_value : forall fn l l', all_exact l -> rules fn l l' ->
  all_exact l' /\ ceq (total fn l') (total fn l).
Proof.
  intros fn l l' A H. rewrite !total_cfold. induction H as [l|l c rest l' S N H IH]; [split; [exact A|apply ceq_refl]|].
  destruct (step_exact fn l c rest A S) as (X & R & V & _).
  destruct (canonical_exact _ _ (num_canonical c X N)) as [X' V'].
  destruct IH as [A' IH]; [intros e [<-|I]; [exact X'|exact (R e I)]|]. split; [exact A'|].
  eapply ceq_trans; [exact IH|]. rewrite cfold_cons.
  eapply ceq_trans; [apply copq_proper; [exact V'|apply ceq_refl]|]. exact V.
Qed.
Print Assumptions C136_value.

(* Whatever rules fire first and in whatever order, the builtin then returns the
   number it would have returned without them. *)
Theorem C136_agree_partial : forall fn l l', all_exact l -> l <> [] -> rules fn l l' ->
  (forall m r, m = l \/ m = l' -> compute_numeric_part fn m = (Some r, []) -> ~ collides r) ->
  num_op fn l' = num_op fn l.
Proof.
  intros fn l l' A N H C. destruct (C136_value fn l l' A H) as [A' V]. rewrite !total_cfold in V.
  assert (N' : l' <> []).
  { clear C V A' A. induction H as [l|l c rest l' S K H IH]; [exact N|]. apply IH. discriminate. }
  destruct (numeric_complex fn l N A) as [r [E [X W]]], (numeric_complex fn l' N' A') as [r' [E' [X' W']]].
  pose proof (num_canonical r X (C l r (or_introl eq_refl) E)) as K.
  pose proof (num_canonical r' X' (C l' r' (or_intror eq_refl) E')) as K'.
  unfold num_op. rewrite E, E'. eapply canonical_cof_unique; [exact K'|exact K|].
  eapply ceq_trans; [exact W'|]. eapply ceq_trans; [exact V|]. apply ceq_sym, W.
Qed.
Print Assumptions C136_agree_partial.

(* The rules come to an end: each takes two numbers away and adds one ... *)
Theorem C136_shorter : forall fn l c rest, cplx_step fn l c rest -> List.length l = S (List.length (eval_number c :: rest)).
Proof. intros fn l c rest H. destruct H; match goal with P : Permutation _ _ |- _ => exact (Permutation_length P) end. Qed.
Print Assumptions C136_shorter.

(* ... and one applies as long as there are two numbers, one of them complex. *)
Theorem C136_progress : forall fn l, all_exact l -> (2 <= List.length l)%nat -> (exists re im, In (ECplx re im) l) ->
  exists c rest, cplx_step fn l c rest.
Proof.
  intros fn l A L [re [im I]]. apply in_split in I. destruct I as [p [s E]].
  assert (P : Permutation l (ECplx re im :: (p ++ s))) by (rewrite E; apply Permutation_sym, Permutation_middle).
  destruct (p ++ s) as [|b rest] eqn:B; [rewrite (Permutation_length P) in L; cbn in L; lia|].
  assert (X : exact_number b = true) by (apply A; eapply Permutation_in; [apply Permutation_sym; exact P|right; left; reflexivity]).
  assert (P' : Permutation l (b :: ECplx re im :: rest)) by (eapply perm_trans; [exact P|apply perm_swap]).
  destruct b as [s0|s0|z|n d|f|x y|m]; try discriminate X; destruct fn; eexists _, rest.
  - apply cs_add_real with (a := EInt z) (1 := P'). reflexivity.
  - apply cs_mul_real with (1 := P'). reflexivity.
  - apply cs_add_real with (a := ERat n d) (1 := P'). reflexivity.
  - apply cs_mul_real with (1 := P'). reflexivity.
  - apply cs_add with (1 := P).
  - apply cs_mul with (1 := P).
Qed.
Print Assumptions C136_progress.

(* (1 + 2I)(3 - I/2) (1/2) by the rules, and by the builtin *)
Definition c136_l : list ex := [ECplx (EInt 1) (EInt 2); ECplx (EInt 3) (ERat (-1) 2); ERat 1 2].
Example c136_step1 : cplx_step FoldMul c136_l (ECplx (EInt 4) (ERat 11 2)) [ERat 1 2].
Proof. exact (cs_mul c136_l (EInt 1) (EInt 2) (EInt 3) (ERat (-1) 2) [ERat 1 2] (Permutation_refl _)). Qed.
Example c136_rules : rules FoldMul c136_l [ECplx (EInt 2) (ERat 11 4)] /\ num_op FoldMul c136_l = ECplx (EInt 2) (ERat 11 4).
Proof.
  split; [|vm_compute; reflexivity].
  eapply rs_step; [exact c136_step1|intros [H _]; vm_compute in H; discriminate H|].
  eapply (rs_step _ _ (ECplx (EInt 2) (ERat 11 4)) []).
  - exact (cs_mul_real _ (ERat 1 2) (EInt 4) (ERat 11 2) [] (perm_swap _ _ _) eq_refl).
  - intros [H _]; vm_compute in H; discriminate H.
  - apply rs_done.
Qed.
