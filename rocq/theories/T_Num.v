(* Property theorems: exact numbers (C01, C02, C03). *)
From Verif Require Import M_Syntax M_Float M_Hash M_Num S_Num P_Num P_Cplx.
From Coq Require Import QArith Permutation.
Open Scope Z_scope.

Theorem C01_rational_canonical : forall n d, d <> 0 ->
  canonical_of (inject_Z n / inject_Z d) (eval_number (ERat n d)).
Proof. intros n d H. exact (eval_rational_canonical n d H). Qed.
Print Assumptions C01_rational_canonical.

Theorem C01_rational_zero_denominator : forall n,
  eval_number (ERat n 0) = (if n =? 0 then sys "Indeterminate" else sys "ComplexInfinity").
Proof.
  intro n. cbn. unfold eval_rational. destruct (n =? 0); reflexivity.
Qed.
Print Assumptions C01_rational_zero_denominator.

(* "the Integer q when d divides n" and only then *)
Theorem C01_integer_iff_divides : forall n d, d <> 0 ->
  (forall k, n = k * d -> eval_number (ERat n d) = EInt k) /\
  (forall k, eval_number (ERat n d) = EInt k -> n = k * d).
Proof.
  intros n d H. pose proof (eval_rational_canonical n d H) as C. split; intros k E.
  - refine (canonical_unique _ _ _ _ C (_ : canonical_of (inject_Z k) (EInt k)) _); [cbn; reflexivity|].
    subst n. rewrite inject_Z_mult. field. apply injZ_nz. assumption.
  - cbn [eval_number] in E. rewrite E in C. cbn in C.
    assert (X : (inject_Z n / inject_Z d == inject_Z k / inject_Z 1)%Q).
    { rewrite C. field. }
    apply (qdiv_eq1 n d k 1) in X; [lia|assumption|discriminate].
Qed.
Print Assumptions C01_integer_iff_divides.

Theorem C01_rational_idempotent : forall n d,
  eval_number (eval_number (ERat n d)) = eval_number (ERat n d).
Proof.
  intros n d. destruct (Z.eq_dec d 0) as [->|H].
  - rewrite C01_rational_zero_denominator. destruct (n =? 0); reflexivity.
  - exact (canonical_eval _ _ (eval_rational_canonical n d H)).
Qed.
Print Assumptions C01_rational_idempotent.

(* same value, same expression; and conversely *)
Theorem C01_rational_unique : forall n d n' d', d <> 0 -> d' <> 0 ->
  (n * d' = n' * d <-> eval_number (ERat n d) = eval_number (ERat n' d')).
Proof.
  intros n d n' d' H H'.
  pose proof (eval_rational_canonical n d H) as C. pose proof (eval_rational_canonical n' d' H') as C'.
  split; intro E.
  - apply (canonical_unique _ _ _ _ C C'). apply (qdiv_eq n d n' d' H H'). exact E.
  - apply (qdiv_eq1 n d n' d' H H').
    destruct (canonical_qval _ _ C) as [_ V]. destruct (canonical_qval _ _ C') as [_ V'].
    cbn [eval_number] in E. rewrite <- V, <- V', E. reflexivity.
Qed.
Print Assumptions C01_rational_unique.

Example C01_ex1 : eval_number (ERat 6 (-4)) = ERat (-3) 2. Proof. reflexivity. Qed.
Example C01_ex2 : eval_number (ERat (-6) (-3)) = EInt 2. Proof. reflexivity. Qed.
Example C01_ex3 : eval_number (ERat (10 ^ 30) (4 * 10 ^ 29)) = ERat 5 2. Proof. reflexivity. Qed.

(* ---- C02 ---- *)
Theorem C02_exact_sum : forall l, l <> [] -> (forall e, In e l -> exact_real e = true) ->
  exists r, compute_numeric_part FoldAdd l = (Some r, []) /\ canonical_of (qsum l) (eval_number r).
Proof.
  intros l H Hl. destruct (numeric_exact FoldAdd l H Hl) as [r [E C]]. exists r. split; [exact E|].
  apply (canonical_proper (foldq FoldAdd l)); [|exact C]. rewrite foldq_sum. reflexivity.
Qed.
Print Assumptions C02_exact_sum.

Theorem C02_exact_product : forall l, l <> [] -> (forall e, In e l -> exact_real e = true) ->
  exists r, compute_numeric_part FoldMul l = (Some r, []) /\ canonical_of (qprod l) (eval_number r).
Proof.
  intros l H Hl. destruct (numeric_exact FoldMul l H Hl) as [r [E C]]. exists r. split; [exact E|].
  apply (canonical_proper (foldq FoldMul l)); [|exact C]. rewrite foldq_prod. reflexivity.
Qed.
Print Assumptions C02_exact_product.

Theorem C02_order_independent : forall fn l l' r r',
  l <> [] -> (forall e, In e l -> exact_real e = true) -> Permutation l l' ->
  compute_numeric_part fn l = (Some r, []) -> compute_numeric_part fn l' = (Some r', []) ->
  eval_number r = eval_number r'.
Proof.
  intros fn l l' r r' H Hl P E E'.
  assert (H' : l' <> []) by (intros ->; apply Permutation_sym, Permutation_nil in P; contradiction).
  assert (Hl' : forall e, In e l' -> exact_real e = true)
    by (intros e He; apply Hl, (Permutation_in _ (Permutation_sym P) He)).
  destruct (numeric_exact fn l H Hl) as [s [F C]]. destruct (numeric_exact fn l' H' Hl') as [s' [F' C']].
  rewrite E in F. rewrite E' in F'. injection F as <-. injection F' as <-.
  exact (canonical_unique _ _ _ _ C C' (foldq_perm fn l l' P)).
Qed.
Print Assumptions C02_order_independent.

(* adding (multiplying) a sublist first and then the rest gives the same *)
Theorem C02_grouping_independent : forall fn l1 l2 l3 r s t,
  l2 <> [] -> (forall e, In e (l1 ++ l2 ++ l3) -> exact_real e = true) ->
  compute_numeric_part fn l2 = (Some s, []) ->
  compute_numeric_part fn (l1 ++ eval_number s :: l3) = (Some t, []) ->
  compute_numeric_part fn (l1 ++ l2 ++ l3) = (Some r, []) ->
  eval_number t = eval_number r.
Proof.
  intros fn l1 l2 l3 r s t H He E2 Et Er.
  destruct (numeric_exact fn l2 H) as [s' [F C]].
  { intros e I. apply He, in_or_app. right. apply in_or_app. left. assumption. }
  rewrite E2 in F. injection F as <-. destruct (canonical_qval _ _ C) as [Xs Vs].
  destruct (numeric_exact fn (l1 ++ eval_number s :: l3)) as [t' [F Ct]].
  { destruct l1; discriminate. }
  { intros e I. apply in_app_or in I. destruct I as [I|[<-|I]]; [|assumption|];
      apply He, in_or_app; [left|right; apply in_or_app; right]; assumption. }
  rewrite Et in F. injection F as <-.
  destruct (numeric_exact fn (l1 ++ l2 ++ l3)) as [r' [F Cr]].
  { destruct l1; [|discriminate]. destruct l2; [contradiction|discriminate]. }
  { assumption. }
  rewrite Er in F. injection F as <-.
  apply (canonical_unique _ _ _ _ Ct Cr).
  rewrite (foldq_app fn l1), (foldq_app fn l1). apply opq_proper; [reflexivity|].
  rewrite (foldq_app fn l2 l3).
  exact (opq_proper fn _ _ (foldq fn l3) (foldq fn l3) Vs (Qeq_refl _)).
Qed.
Print Assumptions C02_grouping_independent.

Example C02_ex : exists r, compute_numeric_part FoldAdd [EInt 1; ERat 1 6; EInt 2; ERat (-2) 3] = (Some r, [])
   /\ eval_number r = ERat 5 2.
Proof. eexists. split; reflexivity. Qed.

(* ---- C03 ---- *)
Theorem C03_complex_sum : forall l, l <> [] -> (forall e, In e l -> exact_number e = true) ->
  exists r, compute_numeric_part FoldAdd l = (Some r, []) /\ exact_number r = true /\ ceq (cval r) (csum l).
Proof.
  intros l H Hl. exact (numeric_complex FoldAdd l H Hl).
Qed.
Print Assumptions C03_complex_sum.

Theorem C03_complex_product : forall l, l <> [] -> (forall e, In e l -> exact_number e = true) ->
  exists r, compute_numeric_part FoldMul l = (Some r, []) /\ exact_number r = true /\ ceq (cval r) (cprod l).
Proof.
  intros l H Hl. exact (numeric_complex FoldMul l H Hl).
Qed.
Print Assumptions C03_complex_product.

(* evaluating the number found keeps its value and makes it canonical; the
   side condition excludes a hash collision of the imaginary part with 0
   (see C09) *)
Theorem C03_complex_evaluated_canonical : forall e, exact_number e = true ->
  (forall re im, e = ECplx re im -> is_sameq (eval_real im) (EInt 0) = true -> eval_real im = EInt 0) ->
  canonical_cof (cval e) (eval_number e).
Proof. exact eval_complex_canonical. Qed.
Print Assumptions C03_complex_evaluated_canonical.

Example C03_ex : exists r, compute_numeric_part FoldMul [ECplx (EInt 1) (EInt 2); ECplx (ERat 1 2) (EInt (-1)); EInt 3] = (Some r, [])
   /\ eval_number r = ERat 15 2.
Proof. eexists. split; [reflexivity|]. vm_compute. reflexivity. Qed.
