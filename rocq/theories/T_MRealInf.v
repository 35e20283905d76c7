(* C122: sums and products with infinite machine reals. *)
From Verif Require Import M_Syntax M_Float P_Float M_Num.
From Coq Require Import ZArith Lia List.
Import ListNotations.
Open Scope Z_scope.

Definition finite (f : flt) : Prop := match f with FFin _ _ _ _ => True | FInf _ => False end.
Lemma fround_finite n d : finite (fround n d).
Proof.
  unfold fround. destruct (n =? 0); [exact I|]. destruct (fround_pos (Z.abs n) d) as [m e].
  destruct (m =? 2 ^ 53); exact I.
Qed.
Lemma fscaled_finite n k z : finite (fscaled n k z).
Proof. unfold fscaled. destruct (n =? 0); [exact I|]. destruct (0 <=? k); apply fround_finite. Qed.
Lemma fadd_finite f g : finite f -> finite g -> finite (fadd f g).
Proof. destruct f, g; intros F G; try contradiction. apply fscaled_finite. Qed.
Lemma fround_nonzero d : d <> 0 -> match fround d 1 with FFin _ m _ _ => (m =? 0)%N = false | FInf _ => False end.
Proof.
  intro D. unfold fround. destruct (Z.eqb_spec d 0) as [|_]; [contradiction|].
  pose proof (fround_pos_range (Z.abs d) 1 ltac:(lia) ltac:(lia)) as R.
  destruct (fround_pos (Z.abs d) 1) as [m e]. cbn [fst] in R.
  destruct (m =? 2 ^ 53); [reflexivity|]. apply N.eqb_neq. intro H. assert (m = 0) by (destruct m; [reflexivity|discriminate H|lia]). lia.
Qed.
Lemma rat_finite n d : d <> 0 -> finite (rat_big_float n d).
Proof.
  intro D. unfold rat_big_float, int_to_flt. pose proof (fround_nonzero d D) as Nz. pose proof (fround_finite n 1) as F.
  destruct (fround n 1) as [|s m e a]; [contradiction|]. destruct (fround d 1) as [|s' m' e' a']; [contradiction|].
  cbn [fquo]. rewrite Nz. destruct (m =? 0)%N; [exact I|apply fround_finite].
Qed.
Lemma fadd_inf a g : finite g -> fadd (FInf a) g = FInf a.
Proof. destruct g; [contradiction|reflexivity]. Qed.
Lemma fadd_fin_inf a g : finite g -> fadd g (FInf a) = FInf a.
Proof. destruct g; [contradiction|reflexivity]. Qed.
Lemma fadd_inf_inf a : fadd (FInf a) (FInf a) = FInf a.
Proof. cbn. rewrite Bool.eqb_reflx. reflexivity. Qed.

(* a real number: an Integer, a Rational, or a machine real that is not the
   infinity with the other sign *)
Definition summand (a : bool) (e : ex) : Prop :=
  match e with EInt _ => True | ERat _ d => d <> 0 | EFlt (FInf b) => b = a | EFlt (FFin _ _ _ _) => True | _ => False end.

Definition good (a : bool) (seen : Prop) (c : acc) : Prop :=
  aC c = None /\ (forall n d, aR c = Some (n, d) -> d <> 0) /\
  match aF c with Some (FInf b) => b = a /\ seen | _ => ~ seen end.

Lemma np_sum a l : forall c (seen : Prop), good a seen c -> (forall e, In e l -> summand a e) ->
  (seen \/ In (EFlt (FInf a)) l) -> np FoldAdd c l = (Some (EFlt (FInf a)), []).
Proof.
  induction l as [|e l IH]; intros c seen (C1 & C2 & C3) A H.
  - destruct H as [H|[]]. cbn [np]. unfold typed_real_part. rewrite C1. unfold real_part.
    destruct (aF c) as [[b|]|]; try contradiction. destruct C3 as [-> _]. cbn [flt_flt].
    destruct (aR c) as [[n d]|] eqn:R; [rewrite (fadd_inf a _ (rat_finite n d (C2 n d eq_refl)))|];
      (destruct (aI c) as [i|]; [rewrite (fadd_inf a) by apply fround_finite; reflexivity|reflexivity]).
  - assert (Ae := A e (or_introl eq_refl)). assert (A' : forall x, In x l -> summand a x) by (intros x I; apply A; right; exact I).
    destruct e as [s|s|z|n d|f|x y|m]; try contradiction; cbn [np acc_num acc_real].
    + apply (IH _ seen); [|exact A'|destruct H as [H|[H|H]]; [left; exact H|discriminate H|right; exact H]].
      split; [exact C1|split; [exact C2|exact C3]].
    + apply (IH _ seen); [|exact A'|destruct H as [H|[H|H]]; [left; exact H|discriminate H|right; exact H]].
      split; [exact C1|split; [|exact C3]]. cbn [aR]. intros n' d' E. cbn [summand] in Ae.
      destruct (aR c) as [[n0 d0]|] eqn:R.
      * injection E as _ <-. specialize (C2 n0 d0 eq_refl). apply Z.neq_mul_0. split; assumption.
      * injection E as _ <-. exact Ae.
    + destruct f as [b|s m e0 a0].
      * cbn [summand] in Ae. subst b. apply (IH _ True); [|exact A'|left; exact I].
        split; [exact C1|split; [exact C2|]]. cbn [aF flt_flt].
        destruct (aF c) as [[b|s m e0 a0]|].
        -- destruct C3 as [-> _]. rewrite fadd_inf_inf. split; [reflexivity|exact I].
        -- rewrite fadd_fin_inf by exact I. split; [reflexivity|exact I].
        -- split; [reflexivity|exact I].
      * apply (IH _ seen); [|exact A'|destruct H as [H|[H|H]]; [left; exact H|discriminate H|right; exact H]].
        split; [exact C1|split; [exact C2|]]. cbn [aF flt_flt].
        destruct (aF c) as [[b|s' m' e' a']|].
        -- destruct C3 as [-> S]. rewrite fadd_inf by exact I. split; [reflexivity|exact S].
        -- pose proof (fadd_finite (FFin s' m' e' a') (FFin s m e0 a0) I I) as F.
           destruct (fadd (FFin s' m' e' a') (FFin s m e0 a0)); [contradiction|exact C3].
        -- exact C3.
Qed.

(* A sum of real numbers one of which is an infinite machine real, and none is
   the infinity of the other sign, is that infinity, wherever it stands. *)
Theorem C122_infinite_sum : forall a l, (forall e, In e l -> summand a e) -> In (EFlt (FInf a)) l ->
  compute_numeric_part FoldAdd l = (Some (EFlt (FInf a)), []).
Proof.
  intros a l A H. apply (np_sum a l acc0 False); [|exact A|right; exact H].
  split; [reflexivity|split; [discriminate|exact (fun f => f)]].
Qed.
Print Assumptions C122_infinite_sum.

Example c122_infinite : compute_numeric_part FoldAdd [ERat 1 3; EFlt (int_to_flt 7); EFlt (FInf true); EInt 5] = (Some (EFlt (FInf true)), []).
Proof.
  apply C122_infinite_sum; [|right; right; left; reflexivity].
  intros e [<-|[<-|[<-|[<-|[]]]]]; cbn; try exact I; try reflexivity; discriminate.
Qed.
