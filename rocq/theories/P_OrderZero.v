(* Order 0 only for identical expressions, on settled expressions. *)
From Verif Require Import M_Syntax M_Float M_Order S_Syntax S_Order P_Float P_Order.
Open Scope Z_scope.

Lemma settled_wf e : settled e = true -> wf e = true.
Proof.
  induction e as [s|s|z|n d|f|r i IHr IHi|l IHl] using ex_ind'; try reflexivity; try discriminate.
  intro H. destruct (settled_expr l H) as [Hn [_ [_ Hs]]].
  apply wf_expr_intro; [assumption|]. intros x Hx.
  rewrite Forall_forall in IHl. apply IHl; auto.
Qed.

Section Lists.
  Variable r : ex -> ex -> Z.

  Lemma lex_zero_eq la : forall lb, length la = length lb ->
    (forall x y, In x la -> In y lb -> r x y = 0 -> x = y) ->
    lex r la lb = 0 -> la = lb.
  Proof.
    induction la as [|x ta IH]; intros [|y tb] Hl Hr H; try discriminate; [reflexivity|].
    cbn [lex] in H. destruct (Z.eqb_spec (r x y) 0) as [E|E]; [|contradiction].
    f_equal; [apply Hr; cbn; auto|]. apply IH; auto. intros; apply Hr; cbn; auto.
  Qed.

  Lemma cmp_plain_zero_eq la lb :
    (forall x y, In x la -> In y lb -> r x y = 0 -> x = y) ->
    cmp_plain r la lb = 0 -> la = lb.
  Proof.
    unfold cmp_plain. intros Hr.
    destruct (Nat.ltb_spec (length la) (length lb)); [discriminate|].
    destruct (Nat.ltb_spec (length lb) (length la)); [discriminate|].
    apply lex_zero_eq; [lia|assumption].
  Qed.

  Lemma lex_back_forall ra : forall rb, length ra = length rb -> lex_back r ra rb = 0 ->
    Forall2 (fun x y => numberQ x && numberQ y = false -> r x y = 0) ra rb.
  Proof.
    induction ra as [|x ta IH]; intros [|y tb] Hl H; try discriminate; constructor;
      cbn [lex_back] in H; injection Hl as Hl.
    - intro N. rewrite N in H. destruct (Z.eqb_spec (r x y) 0); [assumption|contradiction].
    - apply IH; [assumption|]. destruct (numberQ x && numberQ y); [assumption|].
      destruct (Z.eqb_spec (r x y) 0); [assumption|contradiction].
  Qed.

  Lemma lex_nums_forall la : forall lb, length la = length lb -> lex_nums r la lb = 0 ->
    Forall2 (fun x y => numberQ x && numberQ y = true -> r x y = 0) la lb.
  Proof.
    induction la as [|x ta IH]; intros [|y tb] Hl H; try discriminate; constructor;
      cbn [lex_nums] in H; injection Hl as Hl.
    - intro N. rewrite N in H. destruct (Z.eqb_spec (r x y) 0); [assumption|contradiction].
    - apply IH; [assumption|]. destruct (numberQ x && numberQ y); [|assumption].
      destruct (Z.eqb_spec (r x y) 0); [assumption|contradiction].
  Qed.

  Lemma forall2_rev {A B} (R : A -> B -> Prop) l l' : Forall2 R l l' -> Forall2 R (rev l) (rev l').
  Proof.
    induction 1; cbn; [constructor|]. apply Forall2_app; [assumption|]. repeat constructor. assumption.
  Qed.

  Lemma forall2_eq (R : ex -> ex -> Prop) (l l' : list ex) :
    Forall2 R l l' -> (forall x y, In x l -> In y l' -> R x y -> x = y) -> l = l'.
  Proof.
    induction 1 as [|x y l l' Hxy Hl IH]; intro H; [reflexivity|].
    f_equal; [apply H; cbn; auto|apply IH; intros; apply H; cbn; auto].
  Qed.

  Lemma forall2_and {A B} (R S : A -> B -> Prop) l l' : Forall2 R l l' -> Forall2 S l l' ->
    Forall2 (fun x y => R x y /\ S x y) l l'.
  Proof.
    induction 1; intro H2; inversion H2; subst; constructor; auto.
  Qed.

  Lemma cmp_times_zero_eq la lb :
    (forall x y, In x la -> In y lb -> r x y = 0 -> x = y) ->
    cmp_times r la lb = 0 -> la = lb.
  Proof.
    unfold cmp_times. intros Hr.
    destruct (Z.eqb_spec (lex_back r (rev la) (rev lb)) 0) as [E1|E1]; cbn [negb]; [|contradiction].
    destruct (Z.eqb_spec (lex_nums r la lb) 0) as [E2|E2]; cbn [negb]; [|contradiction].
    destruct (Nat.ltb_spec (length la) (length lb)); [discriminate|].
    destruct (Nat.ltb_spec (length lb) (length la)); [discriminate|]. intros _.
    assert (Hl : length la = length lb) by lia.
    apply lex_back_forall in E1; [|rewrite !rev_length; assumption].
    apply lex_nums_forall in E2; [|assumption].
    apply forall2_rev in E1. rewrite !rev_involutive in E1.
    pose proof (forall2_and _ _ _ _ E1 E2) as F. apply (forall2_eq _ _ _ F).
    intros x y Hx Hy [A B]. apply Hr; auto. destruct (numberQ x && numberQ y); auto.
  Qed.
End Lists.

Lemma wt_not_settled e l : settled (EExpr l) = true -> wrap_times e <> l.
Proof.
  intros H E. destruct (settled_expr l H) as [_ [_ [U _]]]. subst l. discriminate U.
Qed.
Lemma wp_not_settled e l : settled (EExpr l) = true -> wrap_power e <> l.
Proof.
  intros H E. destruct (settled_expr l H) as [_ [U _]]. subst l. discriminate U.
Qed.
Lemma wt_settled e x : settled e = true -> In x (wrap_times e) -> settled x = true.
Proof. intros H [<-|[<-|[<-|[]]]]; auto. Qed.
Lemma wp_settled e x : settled e = true -> In x (wrap_power e) -> settled x = true.
Proof. intros H [<-|[<-|[<-|[]]]]; auto. Qed.

Lemma order_zero_eq : forall a b, settled a = true -> settled b = true ->
  ex_order a b = 0 -> a = b.
Proof.
  apply (pair_ind (fun a b => settled a = true -> settled b = true -> ex_order a b = 0 -> a = b)).
  intros a b IH Sa Sb. rewrite ex_order_eq.
  destruct a as [s|s|z|n d|f|re im|la]; try discriminate Sa;
    destruct b as [s'|s'|z'|n' d'|f'|re' im'|lb]; try discriminate Sb; cbn [order_step as_flt];
    try lia.
  - intro H. apply compare_strings_zero in H. congruence.
  - destruct (settled_expr lb Sb) as [_ [_ [_ Hb]]].
    destruct (is_power lb).
    { intro H. apply cmp_plain_zero_eq in H; [exfalso; apply (wp_not_settled _ lb Sb H)|].
      intros x y Hx Hy. apply IH; auto; [apply sm_wp_l; assumption|]. apply (wp_settled _ x Sa Hx). }
    destruct (is_times lb); [|lia].
    intro H. apply cmp_times_zero_eq in H; [exfalso; apply (wt_not_settled _ lb Sb H)|].
    intros x y Hx Hy. apply IH; auto; [apply sm_wt_l; assumption|]. apply (wt_settled _ x Sa Hx).
  - intro H. apply compare_strings_zero in H. congruence.
  - destruct (Z.compare_spec z' z); cbn; congruence.
  - destruct (settled_expr la Sa) as [_ [_ [_ Ha]]].
    destruct (is_power la).
    { intro H. apply cmp_plain_zero_eq in H; [exfalso; apply (wp_not_settled _ la Sa (eq_sym H))|].
      intros x y Hx Hy. apply IH; auto; [apply sm_wp_r; assumption|]. apply (wp_settled _ y Sb Hy). }
    destruct (is_times la); [|lia].
    intro H. apply cmp_times_zero_eq in H; [exfalso; apply (wt_not_settled _ la Sa (eq_sym H))|].
    intros x y Hx Hy. apply IH; auto; [apply sm_wt_r; assumption|]. apply (wt_settled _ y Sb Hy).
  - destruct (settled_expr la Sa) as [_ [_ [_ Ha]]]. destruct (settled_expr lb Sb) as [_ [_ [_ Hb]]].
    unfold cmp_exprs. intro H.
    destruct (negb (is_times la) && is_times lb);
    [|destruct (is_power la && negb (is_power lb));
    [|destruct (negb (is_times lb) && is_times la);
    [|destruct (negb (is_power la) && is_power lb);
    [|destruct (is_times la && is_times lb)]]]].
    + apply cmp_times_zero_eq in H; [exfalso; apply (wt_not_settled _ lb Sb H)|].
      intros x y Hx Hy. apply IH; auto; [apply sm_wt_l; assumption|]. eapply wt_settled; [|exact Hx]; exact Sa.
    + apply cmp_plain_zero_eq in H; [exfalso; apply (wp_not_settled _ la Sa (eq_sym H))|].
      intros x y Hx Hy. apply IH; auto; [apply sm_wp_r; assumption|]. eapply wp_settled; [|exact Hy]; exact Sb.
    + apply cmp_times_zero_eq in H; [exfalso; apply (wt_not_settled _ la Sa (eq_sym H))|].
      intros x y Hx Hy. apply IH; auto; [apply sm_wt_r; assumption|]. eapply wt_settled; [|exact Hy]; exact Sb.
    + apply cmp_plain_zero_eq in H; [exfalso; apply (wp_not_settled _ lb Sb H)|].
      intros x y Hx Hy. apply IH; auto; [apply sm_wp_l; assumption|]. eapply wp_settled; [|exact Hx]; exact Sa.
    + f_equal. apply cmp_times_zero_eq in H; [assumption|].
      intros x y Hx Hy. apply IH; auto. apply sm_in; assumption.
    + f_equal. apply cmp_plain_zero_eq in H; [assumption|].
      intros x y Hx Hy. apply IH; auto. apply sm_in; assumption.
Qed.
