From Verif Require Import M_Syntax M_Float M_Hash M_Order M_Sort M_Compare S_Syntax S_Order S_Num S_Compare S_Sort
  P_Float P_Hash P_Order P_OrderTrans P_OrderNum P_Num P_Sort.
From Coq Require Import QArith Permutation.
Open Scope Z_scope.

Section Eq.
  Variable fmt : flt -> string.
  Fixpoint eq_list (x y : list ex) : eqres :=
    match x, y with
    | u :: x', v :: y' => match is_equal fmt u v with EqTrue => eq_list x' y' | _ => EqUnk end
    | _, _ => EqTrue
    end.
  Lemma is_equal_expr l l' : is_equal fmt (EExpr l) (EExpr l') =
    if (length l =? length l')%nat then eq_list l l' else EqUnk.
  Proof. reflexivity. Qed.

  Fixpoint no_flts (l : list ex) : bool := match l with [] => true | x :: t => no_flt x && no_flts t end.
  Lemma no_flt_expr l : no_flt (EExpr l) = no_flts l. Proof. reflexivity. Qed.

  Lemma is_equal_true a : forall b, no_flt a = true -> no_flt b = true ->
    (is_equal fmt a b = EqTrue <-> a = b).
  Proof.
    induction a as [s|s|z|n d|f|a1 a2 IH1 IH2|l IH] using ex_ind'; intros b Ha Hb; try discriminate Ha.
    - destruct b; cbn [is_equal]; try (split; discriminate).
      destruct (String.eqb_spec s name) as [->|N].
      + split; [reflexivity|]. intros _.
        destruct (String.eqb_spec name (sysname "False")) as [->|]; [reflexivity|].
        cbn [andb]. destruct (String.eqb_spec name (sysname "True")) as [->|]; reflexivity.
      + split; [|congruence]. intro H.
        destruct (_ && _); [discriminate|]. destruct (_ && _); discriminate.
    - destruct b; cbn [is_equal]; try (split; discriminate).
      destruct (String.eqb_spec s val) as [->|N]; split; congruence.
    - destruct b; cbn [is_equal]; try (split; discriminate).
      destruct (Z.eqb_spec z val) as [->|N]; split; congruence.
    - destruct b; cbn [is_equal]; try (split; discriminate).
      destruct (Z.eqb_spec n num) as [->|N]; cbn [andb]; [|split; congruence].
      destruct (Z.eqb_spec d den) as [->|N]; split; congruence.
    - destruct b; cbn [is_equal]; try (split; discriminate).
      cbn in Ha, Hb. apply andb_true_iff in Ha, Hb. destruct Ha as [A1 A2], Hb as [B1 B2].
      specialize (IH1 b1 A1 B1). specialize (IH2 b2 A2 B2). split.
      + intro H. destruct (is_equal fmt a1 b1); try discriminate. destruct (is_equal fmt a2 b2); try discriminate.
        f_equal; [apply IH1|apply IH2]; reflexivity.
      + intro H. injection H as -> ->. rewrite (proj2 IH1 eq_refl), (proj2 IH2 eq_refl). reflexivity.
    - destruct b as [| | | | | |l']; try (split; discriminate). rewrite is_equal_expr.
      rewrite no_flt_expr in Ha, Hb.
      assert (G : length l = length l' -> (eq_list l l' = EqTrue <-> l = l')).
      { revert l' Hb. induction IH as [|x t Hx IH IHt]; intros l' Hb E; destruct l' as [|y t']; try discriminate E.
        - split; reflexivity.
        - cbn in Ha, Hb. apply andb_true_iff in Ha, Hb. destruct Ha as [A1 A2], Hb as [B1 B2].
          specialize (Hx y A1 B1). injection E as E. specialize (IHt A2 t' B2 E). cbn [eq_list].
          split; intro H.
          + destruct (is_equal fmt x y); try discriminate. f_equal; [apply Hx; reflexivity|apply IHt; exact H].
          + injection H as -> ->. rewrite (proj2 Hx eq_refl). apply IHt. reflexivity. }
      destruct (Nat.eqb_spec (length l) (length l')) as [E|N].
      + rewrite (G E). split; congruence.
      + split; [discriminate|]. intro H. injection H as ->. congruence.
  Qed.

  Lemma is_equal_true_sym a : forall b, is_equal fmt a b = EqTrue -> is_equal fmt b a = EqTrue.
  Proof.
    induction a as [s|s|z|n d|f|a1 a2 IH1 IH2|l IH] using ex_ind'; intros b H;
      destruct b as [t|t|z'|n' d'|g|b1 b2|l']; try discriminate H; cbn [is_equal] in H |- *.
    - destruct (String.eqb_spec s t) as [E|N].
      + subst t. clear H. rewrite String.eqb_refl. destruct (String.eqb_spec s (sysname "False")) as [->|]; [reflexivity|].
        cbn [andb]. destruct (String.eqb_spec s (sysname "True")) as [->|]; reflexivity.
      + destruct (_ && _) in H; [discriminate|]. destruct (_ && _) in H; discriminate.
    - rewrite String.eqb_sym. exact H.
    - rewrite Z.eqb_sym. exact H.
    - exact H.
    - rewrite (Z.eqb_sym n'), (Z.eqb_sym d'). exact H.
    - exact H.
    - rewrite String.eqb_sym. exact H.
    - destruct (is_equal fmt a1 b1) eqn:E1; try discriminate. destruct (is_equal fmt a2 b2) eqn:E2; try discriminate.
      rewrite (IH1 _ E1), (IH2 _ E2). reflexivity.
    - change (is_equal fmt (EExpr l') (EExpr l) = EqTrue). change (is_equal fmt (EExpr l) (EExpr l') = EqTrue) in H.
      rewrite is_equal_expr in *. rewrite Nat.eqb_sym.
      destruct (length l =? length l')%nat; [|discriminate].
      revert l' H. induction IH as [|x t Hx IH IHt]; intros l' H; destruct l' as [|y t']; try reflexivity.
      cbn [eq_list] in *. destruct (is_equal fmt x y) eqn:E; try discriminate.
      rewrite (Hx _ E). apply IHt. exact H.
  Qed.

  Lemma equal_loop_true x l : forall acc, equal_loop fmt x l acc = ATrue <->
    acc = true /\ forall y, In y l -> is_equal fmt x y = EqTrue.
  Proof.
    induction l as [|y t IH]; intro acc; cbn [equal_loop].
    - destruct acc; split; try discriminate; [intros _; split; [reflexivity|intros y []]|reflexivity|intros [? _]; discriminate].
    - destruct (is_equal fmt x y) eqn:E.
      + rewrite IH. split; intros [A B]; (split; [exact A|]).
        * intros w [<-|Hw]; auto.
        * intros w Hw. apply B. right; assumption.
      + rewrite IH. split; intros [A B]; [discriminate|]. rewrite (B y (or_introl eq_refl)) in E. discriminate.
      + split; [discriminate|]. intros [A B]. rewrite (B y (or_introl eq_refl)) in E. discriminate.
  Qed.

  Lemma equal_loop_false x l : forall acc, equal_loop fmt x l acc = AFalse ->
    acc = false \/ exists y, In y l /\ is_equal fmt x y = EqFalse.
  Proof.
    induction l as [|y t IH]; intros acc H; cbn [equal_loop] in H.
    - destruct acc; [discriminate|left; reflexivity].
    - destruct (is_equal fmt x y) eqn:E; [| |discriminate].
      + destruct (IH _ H) as [?|[w [? ?]]]; [left; assumption|right; exists w; split; [right; assumption|assumption]].
      + right. exists y. split; [left; reflexivity|assumption].
  Qed.
End Eq.

(* --- inequalities --- *)
Lemma n_exact e : exact_real e = true -> exists f, n_of e = Some (EFlt f) /\ as_flt e = Some f.
Proof. destruct e; try discriminate; intros _; eexists; split; reflexivity. Qed.

Lemma order_flts f g : ex_order (EFlt f) (EFlt g) = cmp2z (fcmp g f).
Proof. rewrite ex_order_eq. cbn [order_step as_flt is_int]. unfold cmp_flts. cbn [negb andb]. rewrite !andb_false_r. reflexivity. Qed.

Definition fl (e : ex) : flt := match as_flt e with Some f => f | None => FInf false end.

Lemma as_flt_frac e : exact_real e = true -> exists n d, 0 < d /\ as_flt e = Some (fround n d) /\
   (qval0 e == n # (Z.to_pos d))%Q.
Proof.
  destruct e as [| |z|n d| | |]; try discriminate; intro H.
  - exists z, 1. split; [lia|]. split; [reflexivity|]. reflexivity.
  - cbn in H. destruct (Z.eqb_spec d 0) as [|Hd]; [discriminate|].
    exists (Z.sgn d * n), (Z.abs d). split; [lia|]. split.
    + cbn. unfold rat_to_flt. destruct (Z.eqb_spec d 0); [contradiction|reflexivity].
    + rewrite (qval0_rat n d Hd). apply qdiv_norm. assumption.
Qed.

Lemma fl_mono a b : exact_real a = true -> exact_real b = true -> (qval0 a <= qval0 b)%Q -> fle (fl a) (fl b).
Proof.
  intros Ha Hb Hle. unfold fl.
  destruct (as_flt_frac a Ha) as [n [d [Hd [-> V]]]]. destruct (as_flt_frac b Hb) as [n' [d' [Hd' [-> V']]]].
  apply fround_mono; auto. rewrite V, V' in Hle. unfold Qle in Hle. cbn [Qnum Qden] in Hle.
  rewrite !Z2Pos.id in Hle by lia. exact Hle.
Qed.

(* the comparison loop on exact reals, as a chain of float comparisons *)
Definition rel_flt (o : relop) (c : comparison) : bool :=
  match o, c with
  | RLess, Lt => true | RLessEqual, Gt => false | RLessEqual, _ => true
  | RGreater, Gt => true | RGreaterEqual, Lt => false | RGreaterEqual, _ => true
  | _, _ => false
  end.

Lemma order_in_ops o f g : existsb (Z.eqb (ex_order (EFlt f) (EFlt g))) (op_orders o) = rel_flt o (fcmp f g).
Proof.
  rewrite order_flts, fcmp_opp. destruct (fcmp f g), o; reflexivity.
Qed.

Fixpoint fchain (o : relop) (l : list ex) : bool :=
  match l with
  | x :: ((y :: _) as t) => rel_flt o (fcmp (fl x) (fl y)) && fchain o t
  | _ => true
  end.

Lemma cmp_loop_chain o l : forall p, (forall e, In e l -> exact_real e = true) -> exact_real p = true ->
  cmp_loop (op_orders o) (n_of p) l = if fchain o (p :: l) then ATrue else AFalse.
Proof.
  induction l as [|x t IH]; intros p Hl Hp; [reflexivity|].
  assert (Hx : exact_real x = true) by (apply Hl; left; reflexivity).
  destruct (n_exact p Hp) as [f [E1 E2]]. destruct (n_exact x Hx) as [g [E3 E4]].
  cbn [cmp_loop]. rewrite E1, E3, order_in_ops. cbn [fchain]. unfold fl at 1 2. rewrite E2, E4.
  destruct (rel_flt o (fcmp f g)); [|reflexivity].
  rewrite <- E3. rewrite (IH x); auto. intros; apply Hl; right; assumption.
Qed.

Lemma comparison_chain o l : (forall e, In e l -> exact_real e = true) ->
  comparison_eval o l = if fchain o l then ATrue else AFalse.
Proof.
  destruct l as [|x t]; intro H; [reflexivity|].
  assert (Hx : exact_real x = true) by (apply H; left; reflexivity).
  unfold comparison_eval. cbn [cmp_loop]. destruct (n_exact x Hx) as [f [E1 E2]].
  rewrite E1, <- E1. apply cmp_loop_chain; auto. intros; apply H; right; assumption.
Qed.

Definition rel_q (o : relop) (a b : ex) : Prop :=
  match o with
  | RLess => (qval0 a < qval0 b)%Q | RLessEqual => (qval0 a <= qval0 b)%Q
  | RGreater => (qval0 b < qval0 a)%Q | RGreaterEqual => (qval0 b <= qval0 a)%Q
  end.

Lemma rel_strict_sound o a b : exact_real a = true -> exact_real b = true -> o = RLess \/ o = RGreater ->
  rel_flt o (fcmp (fl a) (fl b)) = true -> rel_q o a b.
Proof.
  intros Ha Hb [-> | ->] H; cbn [rel_q]; apply Qnot_le_lt; intro L.
  - apply fl_mono in L; auto. unfold fle in L. rewrite fcmp_opp in L.
    destruct (fcmp (fl a) (fl b)); try discriminate H. apply L. reflexivity.
  - apply fl_mono in L; auto. unfold fle in L. destruct (fcmp (fl a) (fl b)); try discriminate H. apply L. reflexivity.
Qed.

Lemma rel_weak_complete o a b : exact_real a = true -> exact_real b = true -> o = RLessEqual \/ o = RGreaterEqual ->
  rel_q o a b -> rel_flt o (fcmp (fl a) (fl b)) = true.
Proof.
  intros Ha Hb [-> | ->] H; cbn [rel_q] in H; apply fl_mono in H; auto; unfold fle in H.
  - destruct (fcmp (fl a) (fl b)); [reflexivity|reflexivity|contradiction].
  - rewrite fcmp_opp in H. destruct (fcmp (fl a) (fl b)); [reflexivity|contradiction|reflexivity].
Qed.

Lemma fchain_chain_sound o l : (forall e, In e l -> exact_real e = true) -> o = RLess \/ o = RGreater ->
  fchain o l = true -> chain (rel_q o) l.
Proof.
  intros H Ho. induction l as [|x [|y t] IH]; intro E; cbn; auto.
  cbn in E. apply andb_true_iff in E. destruct E as [E1 E2]. split.
  - apply rel_strict_sound; auto; apply H; cbn; auto.
  - apply IH; auto. intros; apply H; right; assumption.
Qed.
Lemma fchain_chain_complete o l : (forall e, In e l -> exact_real e = true) -> o = RLessEqual \/ o = RGreaterEqual ->
  chain (rel_q o) l -> fchain o l = true.
Proof.
  intros H Ho. induction l as [|x [|y t] IH]; intro E; try reflexivity.
  destruct E as [E1 E2]. cbn [fchain]. apply andb_true_iff. split.
  - apply rel_weak_complete; auto; apply H; cbn; auto.
  - apply IH; auto. intros; apply H; right; assumption.
Qed.

Definition rel_z (o : relop) (a b : Z) : Prop :=
  match o with RLess => a < b | RLessEqual => a <= b | RGreater => a > b | RGreaterEqual => a >= b end.

Lemma fchain_small o l : (forall z, In z l -> Z.abs z <= 2 ^ 53) ->
  (fchain o (map EInt l) = true <-> chain (rel_z o) l).
Proof.
  intro H. induction l as [|x [|y t] IH]; [cbn; tauto|cbn; tauto|].
  cbn [map fchain chain] in *. rewrite andb_true_iff. rewrite IH by (intros; apply H; right; assumption).
  unfold fl. cbn [as_flt]. rewrite int_to_flt_cmp_exact by (apply H; cbn; auto).
  assert (rel_flt o (x ?= y) = true <-> rel_z o x y) as ->; [|reflexivity].
  destruct (Z.compare_spec x y), o; cbn; split; intros; try lia; try discriminate; reflexivity.
Qed.

(* --- Inequality --- *)
Definition cmp_relb (o : cmpop) (a b : Z) : bool :=
  match o with CLess => a <? b | CLessEqual => a <=? b | CGreater => b <? a | CGreaterEqual => b <=? a | CEqual => a =? b end.
Lemma cmp_relb_spec o a b : cmp_relb o a b = true <-> cmp_rel o a b.
Proof. destruct o; cbn; rewrite ?Z.ltb_lt, ?Z.leb_le, ?Z.eqb_eq; lia. Qed.

Definition lift (l : list (cmpop * Z)) : list (ex * ex) := map (fun '(o, z) => (cmp_name o, EInt z)) l.
Definition small (l : list (cmpop * Z)) : Prop := forall o z, In (o, z) l -> Z.abs z <= 2 ^ 53.

Lemma cmp_eval2 o x y : Z.abs x <= 2 ^ 53 -> Z.abs y <= 2 ^ 53 ->
  comparison_eval o [EInt x; EInt y] = if rel_flt o (x ?= y) then ATrue else AFalse.
Proof.
  intros Hx Hy. rewrite comparison_chain by (intros e [<-|[<-|[]]]; reflexivity).
  cbn [fchain]. unfold fl. cbn [as_flt]. rewrite int_to_flt_cmp_exact by assumption. rewrite andb_true_r. reflexivity.
Qed.

Lemma eval_op_int fmt o x y : Z.abs x <= 2 ^ 53 -> Z.abs y <= 2 ^ 53 ->
  eval_op fmt (cmp_name o) (EInt x) (EInt y) = if cmp_relb o x y then ATrue else AFalse.
Proof.
  intros Hx Hy.
  destruct o;
    [change (eval_op fmt (cmp_name CLess) (EInt x) (EInt y)) with (comparison_eval RLess [EInt x; EInt y])
    |change (eval_op fmt (cmp_name CLessEqual) (EInt x) (EInt y)) with (comparison_eval RLessEqual [EInt x; EInt y])
    |change (eval_op fmt (cmp_name CGreater) (EInt x) (EInt y)) with (comparison_eval RGreater [EInt x; EInt y])
    |change (eval_op fmt (cmp_name CGreaterEqual) (EInt x) (EInt y)) with (comparison_eval RGreaterEqual [EInt x; EInt y])
    |]; rewrite ?cmp_eval2 by assumption.
  - cbn [cmp_relb]. destruct (Z.ltb_spec x y), (Z.compare_spec x y); try lia; reflexivity.
  - cbn [cmp_relb]. destruct (Z.leb_spec x y), (Z.compare_spec x y); try lia; reflexivity.
  - cbn [cmp_relb]. destruct (Z.ltb_spec y x), (Z.compare_spec x y); try lia; reflexivity.
  - cbn [cmp_relb]. destruct (Z.leb_spec y x), (Z.compare_spec x y); try lia; reflexivity.
  - change (eval_op fmt (cmp_name CEqual) (EInt x) (EInt y)) with (equal_eval fmt [EInt x; EInt y]).
    cbn [equal_eval equal_loop is_equal cmp_relb]. destruct (x =? y); reflexivity.
Qed.

(* all operators point in one direction *)
Definition one_way (l : list (cmpop * Z)) : Prop :=
  (forall o z, In (o, z) l -> upward o) \/ (forall o z, In (o, z) l -> downward o).

Lemma one_way_tail p l : one_way (p :: l) -> one_way l.
Proof. intros [H|H]; [left|right]; intros o z I; apply (H o z); right; assumption. Qed.

Lemma links_le l : forall a, (forall o z, In (o, z) l -> upward o) -> links_hold a l ->
  forall o z, In (o, z) l -> a <= z.
Proof.
  induction l as [|[o z] t IH]; intros a H L o' z' I; [destruct I|]. destruct L as [R L].
  assert (a <= z) by (destruct (H o z (or_introl eq_refl)) as [-> | ->]; cbn in R; lia).
  destruct I as [E|I]; [injection E as <- <-; assumption|].
  assert (z <= z') by (apply (IH z (fun o z I => H o z (or_intror I)) L o' z' I)). lia.
Qed.
Lemma links_ge l : forall a, (forall o z, In (o, z) l -> downward o) -> links_hold a l ->
  forall o z, In (o, z) l -> z <= a.
Proof.
  induction l as [|[o z] t IH]; intros a H L o' z' I; [destruct I|]. destruct L as [R L].
  assert (z <= a) by (destruct (H o z (or_introl eq_refl)) as [-> | ->]; cbn in R; lia).
  destruct I as [E|I]; [injection E as <- <-; assumption|].
  assert (z' <= z) by (apply (IH z (fun o z I => H o z (or_intror I)) L o' z' I)). lia.
Qed.

Lemma first_rel_all a o z t : one_way ((o, z) :: t) -> links_hold a ((o, z) :: t) ->
  forall o' z', In (o', z') ((o, z) :: t) -> cmp_rel o a z'.
Proof.
  intros W [R L] o' z' [E|I]; [injection E as <- <-; assumption|].
  destruct W as [W|W].
  - pose proof (links_le t z (fun o z I => W o z (or_intror I)) L o' z' I).
    destruct (W o z (or_introl eq_refl)) as [-> | ->]; cbn in *; lia.
  - pose proof (links_ge t z (fun o z I => W o z (or_intror I)) L o' z' I).
    destruct (W o z (or_introl eq_refl)) as [-> | ->]; cbn in *; lia.
Qed.

Lemma some_false_spec fmt o a l : Z.abs a <= 2 ^ 53 -> small l ->
  (some_false (eval_op fmt) (cmp_name o) (EInt a) (lift l) = false <-> forall o' z, In (o', z) l -> cmp_rel o a z).
Proof.
  intros Ha Hs. unfold some_false, lift. induction l as [|[o1 z1] t IH].
  - split; [intros _ ? ? []|reflexivity].
  - cbn [map existsb]. rewrite orb_false_iff, IH by (intros ? ? I; apply (Hs _ _ (or_intror I))).
    rewrite eval_op_int by (auto; apply (Hs o1 z1 (or_introl eq_refl))).
    pose proof (cmp_relb_spec o a z1) as S. destruct (cmp_relb o a z1).
    + split.
      * intros [_ H] o' z [E|I]; [injection E as <- <-; apply S; reflexivity|apply (H o' z I)].
      * intro H. split; [reflexivity|]. intros o' z I. apply (H o' z (or_intror I)).
    + split; [intros [? _]; discriminate|]. intro H. specialize (H o1 z1 (or_introl eq_refl)).
      apply S in H. discriminate.
Qed.

Lemma ineq_loop_int fmt l : forall a, Z.abs a <= 2 ^ 53 -> small l -> one_way l ->
  (links_hold a l -> ineq_loop (eval_op fmt) (EInt a) (lift l) [] = Some []) /\
  (~ links_hold a l -> ineq_loop (eval_op fmt) (EInt a) (lift l) [] = None).
Proof.
  induction l as [|[o z] t IH]; intros a Ha Hs W.
  - split; [reflexivity|]. intro H. destruct (H I).
  - assert (Hz : Z.abs z <= 2 ^ 53) by (apply (Hs o z (or_introl eq_refl))).
    assert (Hs' : small t) by (intros ? ? I; apply (Hs _ _ (or_intror I))).
    destruct (IH z Hz Hs' (one_way_tail _ _ W)) as [I1 I2].
    pose proof (some_false_spec fmt o a ((o, z) :: t) Ha Hs) as S.
    change (lift ((o, z) :: t)) with ((cmp_name o, EInt z) :: lift t) in *.
    cbn [ineq_loop last].
    destruct (some_false (eval_op fmt) (cmp_name o) (EInt a) ((cmp_name o, EInt z) :: lift t)) eqn:F.
    + split; [|reflexivity]. intro L. exfalso.
      assert (true = false) by (apply S, first_rel_all; assumption). discriminate.
    + assert (R : cmp_rel o a z) by (apply (proj1 S eq_refl o z); left; reflexivity).
      rewrite eval_op_int by assumption. rewrite (proj2 (cmp_relb_spec o a z) R).
      split; intro L.
      * apply I1, L.
      * apply I2. intro L'. apply L. split; assumption.
Qed.

Lemma links_hold_dec a l : links_hold a l \/ ~ links_hold a l.
Proof.
  revert a. induction l as [|[o z] t IH]; intro a; [left; exact I|]. cbn.
  destruct (cmp_relb o a z) eqn:E; pose proof (cmp_relb_spec o a z) as S; rewrite E in S.
  - destruct (IH z) as [L|L]; [left|right; tauto]. split; [apply S; reflexivity|exact L].
  - right. intros [R _]. apply S in R. discriminate.
Qed.

Lemma comp_sign_up o : upward o -> comp_sign (cmp_name o) = Some (-1).
Proof. intros [-> | ->]; reflexivity. Qed.
Lemma comp_sign_down o : downward o -> comp_sign (cmp_name o) = Some 1.
Proof. intros [-> | ->]; reflexivity. Qed.

Lemma find_split_none s l : (forall o z, In (o, z) l -> comp_sign (cmp_name o) = Some s) -> s <> 0 -> forall k,
  find_split s (map fst (lift l)) k = Some None.
Proof.
  intros H Hs. induction l as [|[o z] t IH]; intro k; [reflexivity|].
  cbn [lift map fst find_split]. rewrite (H o z (or_introl eq_refl)).
  destruct (Z.eqb_spec s (- s)); [lia|]. apply IH. intros o' z' I; apply (H o' z' (or_intror I)).
Qed.

Lemma inequality_one_way fmt a l : l <> [] -> Z.abs a <= 2 ^ 53 -> small l -> one_way l ->
  (links_hold a l -> inequality_eval (eval_op fmt) (EInt a) (lift l) = ITrue) /\
  (~ links_hold a l -> inequality_eval (eval_op fmt) (EInt a) (lift l) = IFalse).
Proof.
  intros Hne Ha Hs W. destruct l as [|[o z] t]; [contradiction|].
  destruct (ineq_loop_int fmt ((o, z) :: t) a Ha Hs W) as [I1 I2].
  assert (E : inequality_eval (eval_op fmt) (EInt a) (lift ((o, z) :: t)) =
    match ineq_loop (eval_op fmt) (EInt a) (lift ((o, z) :: t)) [] with
                | None => IFalse
                | Some [] => ITrue
                | Some [l; o; r] => ISingle o l r
                | Some res => IChain res
                end).
  { unfold inequality_eval. cbn [lift map]. fold (lift t).
    destruct W as [W|W].
    - rewrite (comp_sign_up o (W o z (or_introl eq_refl))). change (-1 =? 0) with false. cbv iota.
      rewrite (find_split_none (-1)); [reflexivity| |lia].
      intros o' z' I. apply comp_sign_up, (W o' z' (or_intror I)).
    - rewrite (comp_sign_down o (W o z (or_introl eq_refl))). change (1 =? 0) with false. cbv iota.
      rewrite (find_split_none 1); [reflexivity| |lia].
      intros o' z' I. apply comp_sign_down, (W o' z' (or_intror I)). }
  rewrite E. split; intro L; [rewrite (I1 L)|rewrite (I2 L)]; reflexivity.
Qed.

(* mixed directions: the two halves together say the same as the whole chain *)
Definition last_operand (a : Z) (l : list (cmpop * Z)) : Z := last (map snd l) a.

Lemma links_split l : forall a k, links_hold a l <->
  links_hold a (firstn k l) /\ links_hold (last_operand a (firstn k l)) (skipn k l).
Proof.
  induction l as [|[o z] t IH]; intros a [|k]; cbn [firstn skipn links_hold]; try tauto.

  rewrite (IH z k). unfold last_operand. cbn [map last snd].
    assert (E : last (map snd (firstn k t)) z = match map snd (firstn k t) with [] => z | _ :: _ => last (map snd (firstn k t)) a end).
    { destruct (map snd (firstn k t)) as [|u v]; [reflexivity|]. clear. revert u.
      induction v as [|w v IH]; intro u; [reflexivity|]. apply IH. }
    rewrite <- E. tauto.
Qed.

Lemma last_map {A B} (f : A -> B) l d : last (map f l) (f d) = f (last l d).
Proof. induction l as [|x [|y t] IH]; [reflexivity|reflexivity|]. exact IH. Qed.

Lemma find_split_pos s l : forall k j, find_split s l k = Some (Some j) -> (k <= j < k + length l)%nat.
Proof.
  induction l as [|o t IH]; intros k j H; [discriminate|]. cbn [find_split] in H.
  destruct (comp_sign o); [|discriminate]. destruct (_ =? _).
  - injection H as <-. cbn. lia.
  - apply IH in H. cbn. lia.
Qed.

Lemma inequality_split fmt a l f s : inequality_eval (eval_op fmt) (EInt a) (lift l) = IAnd f s ->
  exists k, (0 < k < length l)%nat /\
    f = EInt a :: unchain (lift (firstn k l)) /\
    s = EInt (last_operand a (firstn k l)) :: unchain (lift (skipn k l)).
Proof.
  unfold inequality_eval. destruct l as [|[o z] t]; [discriminate|].
  cbn [lift map]. fold (lift t). intro H.
  destruct (comp_sign (cmp_name o)) as [sg|]; [|discriminate].
  destruct (if sg =? 0 then Some None else find_split sg (map fst (lift t)) 1) as [[k|]|] eqn:E; [| |discriminate].
  - destruct (sg =? 0); [discriminate|]. apply find_split_pos in E. unfold lift in E. rewrite !map_length in E.
    injection H as <- <-. exists k. split; [cbn; lia|].
    change ((cmp_name o, EInt z) :: lift t) with (lift ((o, z) :: t)).
    unfold lift. rewrite !firstn_map, !skipn_map. split; [reflexivity|]. f_equal.
    rewrite map_map. unfold last_operand. rewrite <- (last_map EInt). rewrite map_map. f_equal.
    apply map_ext. intros [? ?]. reflexivity.
  - exfalso. destruct (ineq_loop _ _ _ _) as [[|u [|v [|w [|q r]]]]|]; discriminate H.
Qed.

(* --- Max / Min --- *)
Fixpoint nest_list (l : list ex) : Z := match l with [] => 0 | x :: t => Z.max (nesting x) (nest_list t) end.
Lemma nesting_expr l : nesting (EExpr l) = 1 + nest_list l. Proof. reflexivity. Qed.
Lemma nest_nonneg e : 0 <= nesting e.
Proof.
  induction e as [| | | | | |l IH] using ex_ind'; try (cbn; lia). rewrite nesting_expr.
  assert (0 <= nest_list l) by (induction IH; cbn; lia). lia.
Qed.

Lemma int_leaves_list t : int_leaves (EExpr (ESym (sysname "List") :: t)) = all_int_leaves t.
Proof. reflexivity. Qed.

Lemma flat_int_leaves e : forall level zs, int_leaves e = Some zs -> nesting e <= level ->
  flat_arg (sys "List") level e = map EInt zs.
Proof.
  induction e as [| |z| | | |l IH] using ex_ind'; intros level zs H Hn; try discriminate H.
  - injection H as <-. reflexivity.
  - destruct l as [|h t]; [discriminate|]. destruct h as [s| | | | | |]; try discriminate H.
    cbn [int_leaves] in H. destruct (String.eqb_spec s (sysname "List")) as [->|]; [|discriminate].
    change ((all_int_leaves t) = Some zs) in H.
    rewrite nesting_expr in Hn. cbn [nest_list nesting] in Hn.
    assert (N0 : 0 <= nest_list t) by (clear; induction t as [|x t IH]; cbn; [lia|pose proof (nest_nonneg x); lia]).
    cbn [flat_arg]. destruct (Z.ltb_spec 0 level); [|lia].
    change (is_sameq (sys "List") (ESym (sysname "List"))) with (is_sameq (sys "List") (sys "List")).
    rewrite P_Hash.sameq_refl. cbn [andb].
    inversion IH as [|? ? _ IHt]; subst. clear IH.
    assert (Hn' : nest_list t <= level - 1) by lia. clear Hn N0.
    revert zs H. induction IHt as [|x t Hx IHt IH]; intros zs H; cbn in H.
    + injection H as <-. reflexivity.
    + destruct (int_leaves x) as [a|] eqn:E1; [|discriminate].
      destruct (all_int_leaves t) as [b|] eqn:E2; [|discriminate]. injection H as <-.
      cbn [nest_list] in Hn'. cbn [flat_map]. rewrite map_app. f_equal; [apply Hx; [reflexivity|lia]|apply IH; [lia|reflexivity]].
Qed.

Lemma flatten_int_leaves args zs : all_int_leaves args = Some zs -> nest_list args <= 999999999 ->
  flatten_args (sys "List") 999999999 args = map EInt zs.
Proof.
  revert zs. induction args as [|x t IH]; intros zs H Hn; cbn in H.
  - injection H as <-. reflexivity.
  - destruct (int_leaves x) as [a|] eqn:E1; [|discriminate].
    destruct (all_int_leaves t) as [b|] eqn:E2; [|discriminate]. injection H as <-.
    cbn [nest_list] in Hn. unfold flatten_args in *. cbn [flat_map]. rewrite map_app.
    f_equal; [apply flat_int_leaves; [assumption|lia]|apply IH; [reflexivity|lia]].
Qed.

Lemma all_int_leaves_perm l l' : Permutation l l' -> forall zs, all_int_leaves l = Some zs ->
  exists zs', all_int_leaves l' = Some zs' /\ Permutation zs zs'.
Proof.
  induction 1 as [|x l l' P IH|x y l|l l' l'' P1 IH1 P2 IH2]; intros zs H.
  - exists zs. auto.
  - cbn in *. destruct (int_leaves x) as [a|]; [|discriminate]. destruct (all_int_leaves l) as [b|]; [|discriminate].
    injection H as <-. destruct (IH b eq_refl) as [b' [-> Pb]]. exists (a ++ b'). split; [reflexivity|].
    apply Permutation_app_head. assumption.
  - cbn in *. destruct (int_leaves x) as [a|], (int_leaves y) as [b|], (all_int_leaves l) as [c|]; try discriminate.
    injection H as <-. exists (a ++ b ++ c). split; [reflexivity|]. rewrite !app_assoc. apply Permutation_app_tail, Permutation_app_comm.
  - destruct (IH1 zs H) as [zs1 [H1 Q1]]. destruct (IH2 zs1 H1) as [zs2 [H2 Q2]].
    exists zs2. split; [assumption|]. etransitivity; eassumption.
Qed.
Lemma nest_list_perm l l' : Permutation l l' -> nest_list l = nest_list l'.
Proof. induction 1; cbn; lia. Qed.

Lemma lead_nums_all l : (forall x, In x l -> numberQ x = true) -> lead_nums l = l /\ drop_nums l = [].
Proof.
  induction l as [|x t IH]; intro H; [split; reflexivity|].
  destruct IH as [A B]; [intros; apply H; right; assumption|].
  cbn. rewrite (H x (or_introl eq_refl)), A, B. split; reflexivity.
Qed.

Lemma last_in {A} (l : list A) : forall d, l <> [] -> In (last l d) l.
Proof. induction l as [|u [|v r] IH]; intros d H; [contradiction|left; reflexivity|right; apply (IH d); discriminate]. Qed.

Lemma all_ordered_last l : forall d, all_ordered l -> forall x, In x l -> x = last l d \/ 0 <= ex_order x (last l d).
Proof.
  induction l as [|x t IH]; intros d H w Hw; [destruct Hw|].
  destruct H as [H1 H2]. destruct Hw as [<-|Hw].
  - destruct t as [|y t]; [left; reflexivity|]. right. apply H1. apply (last_in (y :: t) d). discriminate.
  - destruct t as [|y t]; [destruct Hw|]. apply (IH d H2 w Hw).
Qed.

Lemma int_order x y : 0 <= ex_order (EInt x) (EInt y) <-> x <= y.
Proof. rewrite order_ints. destruct (Z.compare_spec y x); cbn; lia. Qed.

Lemma ints_sorted zs : exists ws, insertion_sort (map EInt zs) = map EInt ws /\ Permutation zs ws /\
  all_ordered (map EInt ws).
Proof.
  assert (Wa : all_wf (map EInt zs)).
  { intros x Hx. apply in_map_iff in Hx. destruct Hx as [z [<- _]]. reflexivity. }
  pose proof (insertion_sort_perm _ Wa) as P. pose proof (insertion_sort_adjacent _ Wa) as A.
  destruct (Permutation_map_inv EInt _ (Permutation_sym P)) as [ws [E Pw]].
  exists ws. split; [exact E|]. split; [apply Pw|].
  rewrite E in A. apply adjacent_all; [|exact A].
  intros x Hx. apply in_map_iff in Hx. destruct Hx as [z [<- _]]. split; reflexivity.
Qed.

Lemma extrema_ints f ws : ws <> [] -> all_ordered (map EInt ws) ->
  exists m, In m ws /\ (forall z, In z ws -> match f with MaxFn => z <= m | MinFn => m <= z end) /\
   (match map EInt ws with
  | [] => match f with
          | MaxFn => EExpr [sys "Times"; EInt (-1); sys "Infinity"]
          | MinFn => sys "Infinity"
          end
  | [x] => x
  | _ =>
      let ns := lead_nums (map EInt ws) in
      match f with
      | MaxFn =>
          match ns with
          | [] => EExpr (ext_head f :: ext_head f :: map EInt ws)
          | _ => EExpr (ext_head f :: last ns (EInt 0) :: drop_nums (map EInt ws))
          end
      | MinFn =>
          match ns with
          | [] => EExpr (ext_head f :: map EInt ws)
          | n :: _ => EExpr (ext_head f :: n :: drop_nums (map EInt ws))
          end
      end
  end = EInt m \/
  match map EInt ws with
  | [] => match f with
          | MaxFn => EExpr [sys "Times"; EInt (-1); sys "Infinity"]
          | MinFn => sys "Infinity"
          end
  | [x] => x
  | _ =>
      let ns := lead_nums (map EInt ws) in
      match f with
      | MaxFn =>
          match ns with
          | [] => EExpr (ext_head f :: ext_head f :: map EInt ws)
          | _ => EExpr (ext_head f :: last ns (EInt 0) :: drop_nums (map EInt ws))
          end
      | MinFn =>
          match ns with
          | [] => EExpr (ext_head f :: map EInt ws)
          | n :: _ => EExpr (ext_head f :: n :: drop_nums (map EInt ws))
          end
      end
  end = EExpr [ext_head f; EInt m]).
Proof.
  intros Hne Ho.
  destruct (lead_nums_all (map EInt ws)) as [L D].
  { intros x Hx. apply in_map_iff in Hx. destruct Hx as [z [<- _]]. reflexivity. }
  cbv zeta. rewrite L, D.
  destruct ws as [|a [|b t]]; [contradiction| |].
  - exists a. split; [left; reflexivity|]. split; [|left; reflexivity].
    intros z [<-|[]]. destruct f; lia.
  - destruct f.
    + exists (last (a :: b :: t) 0). split; [|split].
      * clear. revert a b. induction t as [|c t IH]; intros a b; [right; left; reflexivity|right; apply (IH b c)].
      * intros z Hz. destruct (all_ordered_last (map EInt (a :: b :: t)) (EInt 0) Ho (EInt z)) as [E|E].
        { apply in_map. assumption. }
        -- rewrite (last_map EInt) in E. assert (E2 : z = last (a :: b :: t) 0) by (injection E; auto). rewrite E2. apply Z.le_refl.
        -- rewrite (last_map EInt) in E. exact (proj1 (int_order _ _) E).
      * right. change (EExpr [ext_head MaxFn; last (map EInt (a :: b :: t)) (EInt 0)] = EExpr [ext_head MaxFn; EInt (last (a :: b :: t) 0)]).
        rewrite (last_map EInt). reflexivity.
    + exists a. split; [left; reflexivity|]. split; [|right; reflexivity].
      intros z [<-|Hz]; [lia|]. destruct Ho as [Ho _]. apply (proj1 (int_order _ _)), Ho. apply (in_map EInt). assumption.
Qed.

Lemma extrema_correct f args zs :
  all_int_leaves args = Some zs -> zs <> [] -> nest_list args <= 999999999 ->
  (forall l, is_sameq (EExpr (sys "List" :: insertion_sort args)) (EExpr (sys "List" :: map EInt l)) = true ->
     insertion_sort args = map EInt l) ->
  all_wf args ->
  exists m, In m zs /\ (forall z, In z zs -> match f with MaxFn => z <= m | MinFn => m <= z end) /\
    (extrema_eval f (insertion_sort args) = EInt m \/
     extrema_eval f (insertion_sort args) = EExpr [ext_head f; EInt m]).
Proof.
  intros H Hne Hn Hc Wa.
  pose proof (insertion_sort_perm args Wa) as P.
  destruct (all_int_leaves_perm _ _ P zs H) as [ys [Hy Py]].
  assert (Fl : flatten_args (sys "List") 999999999 (insertion_sort args) = map EInt ys).
  { apply flatten_int_leaves; [assumption|]. rewrite <- (nest_list_perm _ _ P). assumption. }
  unfold extrema_eval. rewrite Fl.
  assert (Go : exists ws, (if is_sameq (EExpr (sys "List" :: insertion_sort args)) (EExpr (sys "List" :: map EInt ys))
      then insertion_sort args else insertion_sort (map EInt ys)) = map EInt ws /\
      Permutation zs ws /\ all_ordered (map EInt ws)).
  { destruct (is_sameq (EExpr (sys "List" :: insertion_sort args)) (EExpr (sys "List" :: map EInt ys))) eqn:S.
    - exists ys. split; [apply (Hc ys S)|]. split; [assumption|].
      rewrite <- (Hc ys S). apply adjacent_all; [|apply insertion_sort_adjacent; assumption].
      rewrite (Hc ys S). intros x Hx. apply in_map_iff in Hx. destruct Hx as [z [<- _]]. split; reflexivity.
    - destruct (ints_sorted ys) as [ws [E [Pw Ho]]]. exists ws. split; [exact E|]. split; [|exact Ho].
      etransitivity; eassumption. }
  destruct Go as [ws [-> [Pw Ho]]].
  destruct (extrema_ints f ws) as [m [Hm [Hb Hr]]]; [|assumption|].
  { intros ->. apply Permutation_sym, Permutation_nil in Pw. contradiction. }
  exists m. split; [apply (Permutation_in _ (Permutation_sym Pw) Hm)|]. split; [|exact Hr].
  intros z Hz. apply Hb, (Permutation_in _ Pw Hz).
Qed.

Lemma int_list_sameq_refl f m : extrema_eval f [EInt m] = EInt m.
Proof.
  unfold extrema_eval. change (flatten_args (sys "List") 999999999 [EInt m]) with [EInt m].
  rewrite P_Hash.sameq_refl. reflexivity.
Qed.

(* Max of two or more non-numbers *)
Lemma max_no_numbers x y t : flatten_args (sys "List") 999999999 (x :: y :: t) = x :: y :: t ->
  numberQ x = false ->
  extrema_eval MaxFn (x :: y :: t) = EExpr (sys "Max" :: sys "Max" :: x :: y :: t).
Proof.
  intros F N. unfold extrema_eval. rewrite F, P_Hash.sameq_refl. cbn [lead_nums]. rewrite N. reflexivity.
Qed.

Lemma all_int_leaves_wf l : (Forall (fun x => forall zs, int_leaves x = Some zs -> wf x = true) l) ->
  forall zs, all_int_leaves l = Some zs -> all_wf l.
Proof.
  induction 1 as [|x t Hx _ IH]; intros zs H w Hw; [destruct Hw|].
  cbn in H. destruct (int_leaves x) as [a|] eqn:E1; [|discriminate].
  destruct (all_int_leaves t) as [b|] eqn:E2; [|discriminate].
  destruct Hw as [<-|Hw]; [apply (Hx a eq_refl)|apply (IH b eq_refl w Hw)].
Qed.
Lemma int_leaves_wf e : forall zs, int_leaves e = Some zs -> wf e = true.
Proof.
  induction e as [| |z| | | |l IH] using ex_ind'; intros zs H; try discriminate H; [reflexivity|].
  destruct l as [|h t]; [discriminate|]. destruct h as [s| | | | | |]; try discriminate H.
  cbn [int_leaves] in H. destruct (String.eqb_spec s (sysname "List")) as [->|]; [|discriminate].
  change (all_int_leaves t = Some zs) in H. inversion IH as [|? ? _ IHt]; subst.
  apply wf_expr_intro; [discriminate|]. intros x [<-|Hx]; [reflexivity|].
  apply (all_int_leaves_wf t IHt zs H x Hx).
Qed.
Lemma nest_list_le l k : 0 <= k -> (forall x, In x l -> nesting x <= k) -> nest_list l <= k.
Proof.
  intros Hk H. induction l as [|x t IH]; cbn; [assumption|].
  apply Z.max_lub; [apply H; left; reflexivity|apply IH; intros; apply H; right; assumption].
Qed.

Lemma flatten_ints ws : flatten_args (sys "List") 999999999 (map EInt ws) = map EInt ws.
Proof. induction ws as [|w t IH]; [reflexivity|]. unfold flatten_args in *. cbn [map flat_map flat_arg app]. f_equal. exact IH. Qed.

Lemma extrema_flat f zs : zs <> [] ->
  exists m, In m zs /\ (forall z, In z zs -> match f with MaxFn => z <= m | MinFn => m <= z end) /\
    (extrema_eval f (insertion_sort (map EInt zs)) = EInt m \/
     extrema_eval f (insertion_sort (map EInt zs)) = EExpr [ext_head f; EInt m] /\ extrema_eval f [EInt m] = EInt m).
Proof.
  intro Hne. destruct (ints_sorted zs) as [ws [E [Pw Ho]]].
  destruct (extrema_ints f ws) as [m [Hm [Hb Hr]]]; [|assumption|].
  { intros ->. apply Permutation_sym, Permutation_nil in Pw. contradiction. }
  exists m. split; [apply (Permutation_in _ (Permutation_sym Pw) Hm)|]. split.
  - intros z Hz. apply Hb, (Permutation_in _ Pw Hz).
  - rewrite E. unfold extrema_eval at 1 2. rewrite flatten_ints, P_Hash.sameq_refl.
    destruct Hr as [Hr|Hr]; [left; exact Hr|right; split; [exact Hr|apply int_list_sameq_refl]].
Qed.
