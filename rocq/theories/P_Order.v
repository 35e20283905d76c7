From Verif Require Import M_Syntax M_Float M_Order S_Syntax P_Float.
From Coq Require Import ZifyBool ZifyNat Wf_nat.
Open Scope Z_scope.

(* ---- strings ---- *)
Lemma compare_strings_anti a : forall b, compare_strings b a = - compare_strings a b.
Proof.
  induction a as [|x s IH]; intros [|y t]; cbn [compare_strings]; try reflexivity.
  destruct (N.ltb_spec (N_of_ascii x) (N_of_ascii y)), (N.ltb_spec (N_of_ascii y) (N_of_ascii x));
    try reflexivity; try lia; apply IH.
Qed.

Lemma compare_strings_range a : forall b, -1 <= compare_strings a b <= 1.
Proof.
  induction a as [|x s IH]; intros [|y t]; cbn [compare_strings]; try lia.
  destruct (N.ltb_spec (N_of_ascii x) (N_of_ascii y)), (N.ltb_spec (N_of_ascii y) (N_of_ascii x));
    try lia; apply IH.
Qed.

Lemma compare_strings_zero a : forall b, compare_strings a b = 0 <-> a = b.
Proof.
  induction a as [|x s IH]; intros [|y t]; cbn [compare_strings]; split; try discriminate; try reflexivity.
  - destruct (N.ltb_spec (N_of_ascii y) (N_of_ascii x)); [discriminate|].
    destruct (N.ltb_spec (N_of_ascii x) (N_of_ascii y)); [discriminate|].
    rewrite IH. intros ->. f_equal.
    rewrite <- (ascii_N_embedding x), <- (ascii_N_embedding y). f_equal. lia.
  - intros [= <- <-]. rewrite N.ltb_irrefl. apply IH. reflexivity.
Qed.

Lemma compare_strings_trans a : forall b c,
  0 <= compare_strings a b -> 0 <= compare_strings b c ->
  0 <= compare_strings a c /\ (compare_strings a c = 0 -> compare_strings a b = 0 /\ compare_strings b c = 0).
Proof.
  induction a as [|x s IH]; intros [|y t] [|z u]; cbn [compare_strings]; try lia.
  destruct (N.ltb_spec (N_of_ascii y) (N_of_ascii x)), (N.ltb_spec (N_of_ascii z) (N_of_ascii y));
    try lia.
  destruct (N.ltb_spec (N_of_ascii x) (N_of_ascii y)), (N.ltb_spec (N_of_ascii y) (N_of_ascii z));
  destruct (N.ltb_spec (N_of_ascii z) (N_of_ascii x)); try lia;
  destruct (N.ltb_spec (N_of_ascii x) (N_of_ascii z)); try lia.
  apply IH.
Qed.

(* ---- fuel ---- *)
Section Congr.
  Variables r1 r2 : ex -> ex -> Z.
  Lemma lex_congr la : forall lb, (forall x y, In x la -> In y lb -> r1 x y = r2 x y) ->
    lex r1 la lb = lex r2 la lb.
  Proof.
    induction la as [|x ta IH]; intros [|y tb] H; cbn [lex]; try reflexivity.
    rewrite H by (left; reflexivity). rewrite IH; [reflexivity|].
    intros; apply H; right; assumption.
  Qed.
  Lemma lex_back_congr la : forall lb, (forall x y, In x la -> In y lb -> r1 x y = r2 x y) ->
    lex_back r1 la lb = lex_back r2 la lb.
  Proof.
    induction la as [|x ta IH]; intros [|y tb] H; cbn [lex_back]; try reflexivity.
    rewrite H by (left; reflexivity). rewrite IH; [reflexivity|].
    intros; apply H; right; assumption.
  Qed.
  Lemma lex_nums_congr la : forall lb, (forall x y, In x la -> In y lb -> r1 x y = r2 x y) ->
    lex_nums r1 la lb = lex_nums r2 la lb.
  Proof.
    induction la as [|x ta IH]; intros [|y tb] H; cbn [lex_nums]; try reflexivity.
    rewrite H by (left; reflexivity). rewrite IH; [reflexivity|].
    intros; apply H; right; assumption.
  Qed.
  Lemma cmp_plain_congr la lb : (forall x y, In x la -> In y lb -> r1 x y = r2 x y) ->
    cmp_plain r1 la lb = cmp_plain r2 la lb.
  Proof. intro H. unfold cmp_plain. rewrite (lex_congr la lb H). reflexivity. Qed.
  Lemma cmp_times_congr la lb : (forall x y, In x la -> In y lb -> r1 x y = r2 x y) ->
    cmp_times r1 la lb = cmp_times r2 la lb.
  Proof.
    intro H. unfold cmp_times. rewrite (lex_nums_congr la lb H).
    rewrite (lex_back_congr (rev la) (rev lb)); [reflexivity|].
    intros x y Hx Hy. rewrite <- in_rev in Hx, Hy. auto.
  Qed.
End Congr.

Definition smaller (a b x y : ex) : Prop := (ex_size x + ex_size y < ex_size a + ex_size b)%nat.

Lemma is_times_inv l : is_times l = true -> exists t, l = ESym nTimes :: t.
Proof.
  unfold is_times, has_head, head_assertion. destruct l as [|[s|s|z|n d|f|r i|p] t]; try discriminate.
  destruct (String.eqb_spec s nTimes) as [->|]; [eauto|discriminate].
Qed.
Lemma is_power_inv l : is_power l = true -> exists t, l = ESym nPower :: t.
Proof.
  unfold is_power, has_head, head_assertion. destruct l as [|[s|s|z|n d|f|r i|p] t]; try discriminate.
  destruct (String.eqb_spec s nPower) as [->|]; [eauto|discriminate].
Qed.
Lemma is_times_power l : is_times l = true -> is_power l = false.
Proof. intro H. apply is_times_inv in H. destruct H as [t ->]. reflexivity. Qed.
Lemma is_power_times l : is_power l = true -> is_times l = false.
Proof. intro H. apply is_power_inv in H. destruct H as [t ->]. reflexivity. Qed.

Lemma sm_in x y la lb : In x la -> In y lb -> smaller (EExpr la) (EExpr lb) x y.
Proof.
  intros Hx Hy. unfold smaller. rewrite !ex_size_expr.
  apply list_size_in in Hx. apply list_size_in in Hy. lia.
Qed.
Lemma sm_wt_l x y a lb : In x (wrap_times a) -> In y lb -> smaller a (EExpr lb) x y.
Proof.
  intros Hx Hy. unfold smaller. rewrite ex_size_expr. apply list_size_in in Hy.
  pose proof (ex_size_pos a). destruct Hx as [<-|[<-|[<-|[]]]]; cbn [ex_size]; lia.
Qed.
Lemma sm_wt_r x y la b : In x la -> In y (wrap_times b) -> smaller (EExpr la) b x y.
Proof.
  intros Hx Hy. unfold smaller. rewrite ex_size_expr. apply list_size_in in Hx.
  pose proof (ex_size_pos b). destruct Hy as [<-|[<-|[<-|[]]]]; cbn [ex_size]; lia.
Qed.
Lemma sm_wp_l x y a lb : In x (wrap_power a) -> In y lb -> smaller a (EExpr lb) x y.
Proof.
  intros Hx Hy. unfold smaller. rewrite ex_size_expr. apply list_size_in in Hy.
  pose proof (ex_size_pos a). destruct Hx as [<-|[<-|[<-|[]]]]; cbn [ex_size]; lia.
Qed.
Lemma sm_wp_r x y la b : In x la -> In y (wrap_power b) -> smaller (EExpr la) b x y.
Proof.
  intros Hx Hy. unfold smaller. rewrite ex_size_expr. apply list_size_in in Hx.
  pose proof (ex_size_pos b). destruct Hy as [<-|[<-|[<-|[]]]]; cbn [ex_size]; lia.
Qed.

Lemma cmp_exprs_congr r1 r2 la lb :
  (forall x y, smaller (EExpr la) (EExpr lb) x y -> r1 x y = r2 x y) ->
  cmp_exprs r1 la lb = cmp_exprs r2 la lb.
Proof.
  intro H. unfold cmp_exprs.
  destruct (negb (is_times la) && is_times lb).
  { apply cmp_times_congr. intros; apply H. apply sm_wt_l; assumption. }
  destruct (is_power la && negb (is_power lb)).
  { apply cmp_plain_congr. intros; apply H. apply sm_wp_r; assumption. }
  destruct (negb (is_times lb) && is_times la).
  { apply cmp_times_congr. intros; apply H. apply sm_wt_r; assumption. }
  destruct (negb (is_power la) && is_power lb).
  { apply cmp_plain_congr. intros; apply H. apply sm_wp_l; assumption. }
  destruct (is_times la && is_times lb).
  { apply cmp_times_congr. intros; apply H. apply sm_in; assumption. }
  apply cmp_plain_congr. intros; apply H. apply sm_in; assumption.
Qed.

Lemma order_step_congr r1 r2 a b :
  (forall x y, smaller a b x y -> r1 x y = r2 x y) ->
  order_step r1 a b = order_step r2 a b.
Proof.
  intro H. unfold order_step.
  destruct a as [s|s|z|n d|f|re im|la]; destruct b as [s'|s'|z'|n' d'|f'|re' im'|lb]; cbn [as_flt];
    try reflexivity.
  - destruct (is_power lb).
    { apply cmp_plain_congr. intros; apply H. apply sm_wp_l; assumption. }
    destruct (is_times lb); [|reflexivity].
    apply cmp_times_congr. intros; apply H. apply sm_wt_l; assumption.
  - destruct (is_power la).
    { apply cmp_plain_congr. intros; apply H. apply sm_wp_r; assumption. }
    destruct (is_times la); [|reflexivity].
    apply cmp_times_congr. intros; apply H. apply sm_wt_r; assumption.
  - apply cmp_exprs_congr. exact H.
Qed.

Lemma order_fuel_enough n : forall m a b,
  (ex_size a + ex_size b <= n)%nat -> (ex_size a + ex_size b <= m)%nat ->
  order_fuel n a b = order_fuel m a b.
Proof.
  induction n as [|k IH]; intros m a b Hn Hm.
  { pose proof (ex_size_pos a). lia. }
  destruct m as [|j]; [pose proof (ex_size_pos a); lia|].
  cbn [order_fuel]. apply order_step_congr. intros x y Hs. unfold smaller in Hs.
  apply IH; lia.
Qed.

Lemma ex_order_eq a b : ex_order a b = order_step ex_order a b.
Proof.
  unfold ex_order at 1.
  destruct (ex_size a + ex_size b)%nat as [|k] eqn:Hk; [pose proof (ex_size_pos a); lia|].
  cbn [order_fuel]. apply order_step_congr. intros x y Hs. unfold smaller in Hs.
  unfold ex_order. apply order_fuel_enough; lia.
Qed.

(* pair induction on the sum of sizes *)
Lemma pair_ind (P : ex -> ex -> Prop) :
  (forall a b, (forall x y, smaller a b x y -> P x y) -> P a b) -> forall a b, P a b.
Proof.
  intro H.
  assert (G : forall n a b, (ex_size a + ex_size b <= n)%nat -> P a b).
  { induction n as [|k IH]; intros a b Hn; [pose proof (ex_size_pos a); lia|].
    apply H. intros x y Hs. unfold smaller in Hs. apply IH. lia. }
  intros a b. apply (G _ a b (le_n _)).
Qed.

(* ---- antisymmetry ---- *)
Section Anti.
  Variable rec : ex -> ex -> Z.
  Lemma lex_anti la : forall lb, (forall x y, In x la -> In y lb -> rec y x = - rec x y) ->
    lex rec lb la = - lex rec la lb.
  Proof.
    induction la as [|x ta IH]; intros [|y tb] H; cbn [lex]; try reflexivity.
    rewrite (H x y) by (left; reflexivity).
    rewrite IH by (intros; apply H; right; assumption).
    destruct (Z.eqb_spec (rec x y) 0), (Z.eqb_spec (- rec x y) 0); lia.
  Qed.
  Lemma lex_back_anti la : forall lb, (forall x y, In x la -> In y lb -> rec y x = - rec x y) ->
    lex_back rec lb la = - lex_back rec la lb.
  Proof.
    induction la as [|x ta IH]; intros [|y tb] H; cbn [lex_back]; try reflexivity.
    rewrite (H x y) by (left; reflexivity).
    rewrite IH by (intros; apply H; right; assumption).
    rewrite (andb_comm (numberQ y)). destruct (numberQ x && numberQ y); [lia|].
    destruct (Z.eqb_spec (rec x y) 0), (Z.eqb_spec (- rec x y) 0); lia.
  Qed.
  Lemma lex_nums_anti la : forall lb, (forall x y, In x la -> In y lb -> rec y x = - rec x y) ->
    lex_nums rec lb la = - lex_nums rec la lb.
  Proof.
    induction la as [|x ta IH]; intros [|y tb] H; cbn [lex_nums]; try reflexivity.
    rewrite (H x y) by (left; reflexivity).
    rewrite IH by (intros; apply H; right; assumption).
    rewrite (andb_comm (numberQ y)). destruct (numberQ x && numberQ y); [|lia].
    destruct (Z.eqb_spec (rec x y) 0), (Z.eqb_spec (- rec x y) 0); lia.
  Qed.
  Lemma cmp_plain_anti la lb : (forall x y, In x la -> In y lb -> rec y x = - rec x y) ->
    cmp_plain rec lb la = - cmp_plain rec la lb.
  Proof.
    intro H. unfold cmp_plain. rewrite (lex_anti la lb H).
    destruct (Nat.ltb_spec (length la) (length lb)), (Nat.ltb_spec (length lb) (length la)); lia.
  Qed.
  Lemma cmp_times_anti la lb : (forall x y, In x la -> In y lb -> rec y x = - rec x y) ->
    cmp_times rec lb la = - cmp_times rec la lb.
  Proof.
    intro H. unfold cmp_times. rewrite (lex_nums_anti la lb H).
    rewrite (lex_back_anti (rev la) (rev lb))
      by (intros x y Hx Hy; rewrite <- in_rev in Hx, Hy; auto).
    destruct (Z.eqb_spec (lex_back rec (rev la) (rev lb)) 0) as [E|E];
      destruct (Z.eqb_spec (- lex_back rec (rev la) (rev lb)) 0) as [E'|E']; cbn [negb]; try lia.
    destruct (Z.eqb_spec (lex_nums rec la lb) 0), (Z.eqb_spec (- lex_nums rec la lb) 0); cbn [negb]; try lia.
    destruct (Nat.ltb_spec (length la) (length lb)), (Nat.ltb_spec (length lb) (length la)); lia.
  Qed.
  Lemma lex_range la : forall lb, (forall x y, In x la -> In y lb -> -1 <= rec x y <= 1) ->
    -1 <= lex rec la lb <= 1.
  Proof.
    induction la as [|x ta IH]; intros [|y tb] H; cbn [lex]; try lia.
    pose proof (H x y (or_introl eq_refl) (or_introl eq_refl)).
    assert (-1 <= lex rec ta tb <= 1) by (apply IH; intros; apply H; right; assumption).
    destruct (Z.eqb_spec (rec x y) 0); lia.
  Qed.
  Lemma lex_back_range la : forall lb, (forall x y, In x la -> In y lb -> -1 <= rec x y <= 1) ->
    -1 <= lex_back rec la lb <= 1.
  Proof.
    induction la as [|x ta IH]; intros [|y tb] H; cbn [lex_back]; try lia.
    pose proof (H x y (or_introl eq_refl) (or_introl eq_refl)).
    assert (-1 <= lex_back rec ta tb <= 1) by (apply IH; intros; apply H; right; assumption).
    destruct (numberQ x && numberQ y); [assumption|].
    destruct (Z.eqb_spec (rec x y) 0); lia.
  Qed.
  Lemma lex_nums_range la : forall lb, (forall x y, In x la -> In y lb -> -1 <= rec x y <= 1) ->
    -1 <= lex_nums rec la lb <= 1.
  Proof.
    induction la as [|x ta IH]; intros [|y tb] H; cbn [lex_nums]; try lia.
    pose proof (H x y (or_introl eq_refl) (or_introl eq_refl)).
    assert (-1 <= lex_nums rec ta tb <= 1) by (apply IH; intros; apply H; right; assumption).
    destruct (numberQ x && numberQ y); [|assumption].
    destruct (Z.eqb_spec (rec x y) 0); lia.
  Qed.
  Lemma cmp_plain_range la lb : (forall x y, In x la -> In y lb -> -1 <= rec x y <= 1) ->
    -1 <= cmp_plain rec la lb <= 1.
  Proof.
    intro H. unfold cmp_plain. pose proof (lex_range la lb H).
    destruct (Nat.ltb_spec (length la) (length lb)), (Nat.ltb_spec (length lb) (length la)); lia.
  Qed.
  Lemma cmp_times_range la lb : (forall x y, In x la -> In y lb -> -1 <= rec x y <= 1) ->
    -1 <= cmp_times rec la lb <= 1.
  Proof.
    intro H. unfold cmp_times. pose proof (lex_nums_range la lb H).
    assert (-1 <= lex_back rec (rev la) (rev lb) <= 1).
    { apply lex_back_range; intros x y Hx Hy; rewrite <- in_rev in Hx, Hy; auto. }
    destruct (negb _); [lia|]. destruct (negb _); [lia|].
    destruct (Nat.ltb_spec (length la) (length lb)), (Nat.ltb_spec (length lb) (length la)); lia.
  Qed.
End Anti.

Lemma cmp_flts_anti f g a b : cmp_flts g f b a = - cmp_flts f g a b.
Proof.
  unfold cmp_flts. rewrite (fcmp_opp g f). destruct (fcmp g f), a, b; reflexivity.
Qed.
Lemma cmp_flts_range f g a b : -1 <= cmp_flts f g a b <= 1.
Proof. unfold cmp_flts. destruct (fcmp g f), a, b; cbn; lia. Qed.

Lemma wf_cplx_flt re im : wf (ECplx re im) = true -> exists f, as_flt (ECplx re im) = Some f.
Proof.
  cbn [wf as_flt]. rewrite andb_true_iff. intros [H _].
  destruct re; cbn in *; try discriminate; eauto.
Qed.

(* numbers are exactly the things with a float value *)
Lemma wf_number e : wf e = true -> numberQ e = true -> exists f, as_flt e = Some f.
Proof.
  destruct e; cbn [numberQ]; try discriminate; intros H _; try (eexists; reflexivity).
  apply wf_cplx_flt; assumption.
Qed.
Lemma non_number_flt e : numberQ e = false -> as_flt e = None.
Proof. destruct e; cbn; try discriminate; reflexivity. Qed.

(* order_step with numbers on both sides *)
Lemma order_num a b f g : as_flt a = Some f -> as_flt b = Some g ->
  ex_order a b = if is_int a && is_int b
    then match a, b with EInt x, EInt y => cmp2z (Z.compare y x) | _, _ => 0 end
    else cmp_flts f g (is_int a) (is_int b).
Proof.
  intros Ha Hb. rewrite ex_order_eq. unfold order_step.
  destruct a; try discriminate Ha; destruct b; try discriminate Hb;
    rewrite ?Ha, ?Hb; try reflexivity.
Qed.

Lemma wt_in_wf a x : wf a = true -> In x (wrap_times a) -> wf x = true.
Proof. intros Ha [<-|[<-|[<-|[]]]]; auto. Qed.
Lemma wp_in_wf a x : wf a = true -> In x (wrap_power a) -> wf x = true.
Proof. intros Ha [<-|[<-|[<-|[]]]]; auto. Qed.

Ltac step_cases :=
  repeat match goal with
  | H : wf (ECplx ?a ?b) = true |- _ =>
      lazymatch goal with
      | _ : as_flt (ECplx a b) = Some _ |- _ => fail
      | _ => let f := fresh "f" in let E := fresh "Ef" in destruct (wf_cplx_flt a b H) as [f E]
      end
  end.

Lemma order_anti_range : forall a b, wf a = true -> wf b = true ->
  ex_order b a = - ex_order a b /\ -1 <= ex_order a b <= 1.
Proof.
  refine (pair_ind _ _). intros a b IH Ha Hb.
  assert (Sub : forall x y, smaller a b x y -> wf x = true -> wf y = true ->
     ex_order y x = - ex_order x y) by (intros x y S Wx Wy; apply (IH x y S Wx Wy)).
  assert (SubR : forall x y, smaller a b x y -> wf x = true -> wf y = true ->
     -1 <= ex_order x y <= 1) by (intros x y S Wx Wy; apply (IH x y S Wx Wy)).
  clear IH.
  destruct (numberQ a) eqn:Na.
  { destruct (wf_number a Ha Na) as [f Hf].
    destruct (numberQ b) eqn:Nb.
    - destruct (wf_number b Hb Nb) as [g Hg].
      rewrite (order_num b a g f Hg Hf), (order_num a b f g Hf Hg).
      destruct (is_int a) eqn:Ia, (is_int b) eqn:Ib; cbn [andb];
        try (split; [apply cmp_flts_anti|apply cmp_flts_range]).
      destruct a; try discriminate Ia; destruct b; try discriminate Ib.
      rewrite (Z.compare_antisym val0 val). destruct (val0 ?= val); cbn; lia.
    - rewrite (ex_order_eq b a), (ex_order_eq a b). unfold order_step.
      rewrite Hf, (non_number_flt b Nb).
      destruct a; try discriminate Na; destruct b; try discriminate Nb; lia. }
  destruct (numberQ b) eqn:Nb.
  { destruct (wf_number b Hb Nb) as [g Hg].
    rewrite (ex_order_eq b a), (ex_order_eq a b). unfold order_step.
    rewrite Hg, (non_number_flt a Na).
    destruct a; try discriminate Na; destruct b; try discriminate Nb; lia. }
  rewrite (ex_order_eq b a), (ex_order_eq a b). unfold order_step.
  destruct a as [s|s|z|n d|f|re im|la]; try discriminate Na;
    destruct b as [s'|s'|z'|n' d'|f'|re' im'|lb]; try discriminate Nb; cbn [as_flt];
    try (split; [apply compare_strings_anti|apply compare_strings_range]); try lia.
  - pose proof (wf_expr lb Hb) as Wl.
    destruct (is_power lb).
    { split; [apply cmp_plain_anti|apply cmp_plain_range]; intros x y Hx Hy;
        [apply Sub|apply SubR]; try (apply sm_wp_l; assumption); auto;
        (eapply wp_in_wf; [|eassumption]; reflexivity). }
    destruct (is_times lb); [|lia].
    split; [apply cmp_times_anti|apply cmp_times_range]; intros x y Hx Hy;
        [apply Sub|apply SubR]; try (apply sm_wt_l; assumption); auto;
        (eapply wt_in_wf; [|eassumption]; reflexivity).
  - pose proof (wf_expr la Ha) as Wl.
    destruct (is_power la).
    { split; [apply cmp_plain_anti|apply cmp_plain_range]; intros x y Hx Hy;
        [apply Sub|apply SubR]; try (apply sm_wp_r; assumption); auto;
        (eapply wp_in_wf; [|eassumption]; reflexivity). }
    destruct (is_times la); [|lia].
    split; [apply cmp_times_anti|apply cmp_times_range]; intros x y Hx Hy;
        [apply Sub|apply SubR]; try (apply sm_wt_r; assumption); auto;
        (eapply wt_in_wf; [|eassumption]; reflexivity).
  - pose proof (wf_expr la Ha) as Wa. pose proof (wf_expr lb Hb) as Wb.
    assert (C1 : forall x y, In x la -> In y lb -> ex_order y x = - ex_order x y).
    { intros; apply Sub; auto. apply sm_in; assumption. }
    assert (R1 : forall x y, In x la -> In y lb -> -1 <= ex_order x y <= 1).
    { intros; apply SubR; auto. apply sm_in; assumption. }
    assert (C2 : forall x y, In x (wrap_times (EExpr la)) -> In y lb -> ex_order y x = - ex_order x y).
    { intros x y Hx Hy; apply Sub; auto; [apply sm_wt_l; assumption|]. (eapply wt_in_wf; [|eassumption]; assumption). }
    assert (R2 : forall x y, In x (wrap_times (EExpr la)) -> In y lb -> -1 <= ex_order x y <= 1).
    { intros x y Hx Hy; apply SubR; auto; [apply sm_wt_l; assumption|]. (eapply wt_in_wf; [|eassumption]; assumption). }
    assert (C3 : forall x y, In x la -> In y (wrap_times (EExpr lb)) -> ex_order y x = - ex_order x y).
    { intros x y Hx Hy; apply Sub; auto; [apply sm_wt_r; assumption|]. (eapply wt_in_wf; [|eassumption]; assumption). }
    assert (R3 : forall x y, In x la -> In y (wrap_times (EExpr lb)) -> -1 <= ex_order x y <= 1).
    { intros x y Hx Hy; apply SubR; auto; [apply sm_wt_r; assumption|]. (eapply wt_in_wf; [|eassumption]; assumption). }
    assert (C4 : forall x y, In x (wrap_power (EExpr la)) -> In y lb -> ex_order y x = - ex_order x y).
    { intros x y Hx Hy; apply Sub; auto; [apply sm_wp_l; assumption|]. (eapply wp_in_wf; [|eassumption]; assumption). }
    assert (R4 : forall x y, In x (wrap_power (EExpr la)) -> In y lb -> -1 <= ex_order x y <= 1).
    { intros x y Hx Hy; apply SubR; auto; [apply sm_wp_l; assumption|]. (eapply wp_in_wf; [|eassumption]; assumption). }
    assert (C5 : forall x y, In x la -> In y (wrap_power (EExpr lb)) -> ex_order y x = - ex_order x y).
    { intros x y Hx Hy; apply Sub; auto; [apply sm_wp_r; assumption|]. (eapply wp_in_wf; [|eassumption]; assumption). }
    assert (R5 : forall x y, In x la -> In y (wrap_power (EExpr lb)) -> -1 <= ex_order x y <= 1).
    { intros x y Hx Hy; apply SubR; auto; [apply sm_wp_r; assumption|]. (eapply wp_in_wf; [|eassumption]; assumption). }
    unfold cmp_exprs.
    destruct (is_times la) eqn:Ta; [pose proof (is_times_power la Ta) as Pa|];
      (destruct (is_times lb) eqn:Tb; [pose proof (is_times_power lb Tb) as Pb|]);
      rewrite ?Pa, ?Pb; cbn [negb andb].
    + split; [apply cmp_times_anti|apply cmp_times_range]; assumption.
    + rewrite ?andb_false_r; cbn [negb andb].
      split; [apply cmp_times_anti|apply cmp_times_range]; assumption.
    + rewrite ?andb_false_r; cbn [negb andb].
      split; [apply cmp_times_anti|apply cmp_times_range]; assumption.
    + destruct (is_power la) eqn:Pa, (is_power lb) eqn:Pb; cbn [negb andb];
      split; try apply cmp_plain_anti; try apply cmp_plain_range; assumption.
Qed.
