(* Property theorems: Equal, inequalities, Max/Min (C11, C12, C13). *)
From Verif Require Import M_Syntax M_Float M_Hash M_Order M_Sort M_Num M_Compare S_Syntax S_Num S_Arith S_Compare
  P_Hash P_Num P_Sort P_Compare.
From Coq Require Import QArith.
Open Scope Z_scope.

(* ---- C11 ---- *)
(* On expressions without machine reals == gives True exactly for identical
   expressions, for any number of arguments. *)
Theorem C11_equal_true_iff_identical : forall fmt x args,
  no_flt x = true -> (forall y, In y args -> no_flt y = true) ->
  (equal_eval fmt (x :: args) = ATrue <-> forall y, In y args -> y = x).
Proof.
  intros fmt x args Hx H. cbn [equal_eval]. rewrite equal_loop_true. split.
  - intros [_ E] y Hy. symmetry. apply (is_equal_true fmt x y Hx (H y Hy)). apply E, Hy.
  - intro E. split; [reflexivity|]. intros y Hy. rewrite (E y Hy). apply (is_equal_true fmt x x Hx Hx). reflexivity.
Qed.
Print Assumptions C11_equal_true_iff_identical.

(* On numbers in canonical form == is True exactly when the values agree, and
   False only when they differ. *)
Theorem C11_equal_numbers : forall fmt a b p q, canonical_of p a -> canonical_of q b ->
  (equal_eval fmt [a; b] = ATrue <-> (p == q)%Q) /\ (equal_eval fmt [a; b] = AFalse -> ~ (p == q)%Q).
Proof.
  intros fmt a b p q Ca Cb.
  assert (Na : no_flt a = true) by (destruct a; try contradiction; reflexivity).
  assert (Nb : no_flt b = true) by (destruct b; try contradiction; reflexivity).
  assert (T : equal_eval fmt [a; b] = ATrue <-> (p == q)%Q).
  { rewrite C11_equal_true_iff_identical; [|assumption|intros y [<-|[]]; assumption]. split.
    - intro E. specialize (E b (or_introl eq_refl)). subst b.
      destruct (canonical_qval _ _ Ca) as [_ V]. destruct (canonical_qval _ _ Cb) as [_ V'].
      rewrite <- V, <- V'. reflexivity.
    - intros E y [<-|[]]. symmetry. apply (canonical_unique _ _ _ _ Ca Cb E). }
  split; [exact T|]. intros F E. apply T in E. rewrite E in F. discriminate.
Qed.
Print Assumptions C11_equal_numbers.

(* a == b is True exactly when b == a is, for all expressions *)
Theorem C11_equal_true_symmetric : forall fmt a b,
  equal_eval fmt [a; b] = ATrue <-> equal_eval fmt [b; a] = ATrue.
Proof.
  assert (G : forall fmt a b, equal_eval fmt [a; b] = ATrue -> equal_eval fmt [b; a] = ATrue).
  { intros fmt a b H. cbn [equal_eval] in *. apply equal_loop_true in H. destruct H as [_ H].
    apply equal_loop_true. split; [reflexivity|]. intros y [<-|[]].
    apply is_equal_true_sym, H. left; reflexivity. }
  intros; split; apply G.
Qed.
Print Assumptions C11_equal_true_symmetric.

Theorem C11_unequal_is_negation : forall fmt a b,
  (unequal_eval fmt [a; b] = ATrue <-> equal_eval fmt [a; b] = AFalse) /\
  (unequal_eval fmt [a; b] = AFalse <-> equal_eval fmt [a; b] = ATrue) /\
  (unequal_eval fmt [a; b] = AUneval <-> equal_eval fmt [a; b] = AUneval).
Proof.
  intros. cbn. destruct (is_equal fmt a b); repeat split; intros; try discriminate; reflexivity.
Qed.
Print Assumptions C11_unequal_is_negation.

(* The full claim of symmetry is false: 1/2 == 3 is False, 3 == 1/2 is left
   unevaluated. *)
Theorem C11_equal_symmetric_refuted : exists a b, exact_real a = true /\ exact_real b = true /\
  forall fmt, equal_eval fmt [a; b] = AFalse /\ equal_eval fmt [b; a] = AUneval.
Proof. exists (ERat 1 2), (EInt 3). repeat split; reflexivity. Qed.
Print Assumptions C11_equal_symmetric_refuted.

(* False is unsound: 1/2 == x gives False although x may be 1/2. *)
Theorem C11_false_sound_refuted : exists a b v, (ev v a == ev v b)%Q /\
  forall fmt, equal_eval fmt [a; b] = AFalse.
Proof. exists (ERat 1 2), (ESym "Global`x"), (fun _ => 1 # 2). split; reflexivity. Qed.
Print Assumptions C11_false_sound_refuted.

Example C11_ex : forall fmt,
  equal_eval fmt [ERat 1 2; ERat 1 2; ERat 1 2] = ATrue /\
  equal_eval fmt [EExpr [ESym "Global`f"; EInt 1]; EExpr [ESym "Global`f"; EInt 1]] = ATrue.
Proof. intro. split; reflexivity. Qed.

(* ---- C12 ---- *)
Definition rel_of (o : relop) (a b : ex) : Prop :=
  match o with RLess => num_lt a b | RLessEqual => num_le a b | RGreater => num_lt b a | RGreaterEqual => num_le b a end.

Lemma rel_of_q o a b : exact_real a = true -> exact_real b = true -> (rel_of o a b <-> rel_q o a b).
Proof.
  intros Ha Hb.
  assert (E : forall e, exact_real e = true -> qval e = Some (qval0 e)).
  { intros e He. destruct e as [| |z|n d| | |]; try discriminate He; [reflexivity|].
    cbn in He. unfold qval0. cbn. destruct (d =? 0); [discriminate|reflexivity]. }
  destruct o; cbn [rel_of rel_q]; unfold num_lt, num_le; rewrite (E a Ha), (E b Hb);
    (split; [intros [p [q [H1 [H2 H]]]]; injection H1 as <-; injection H2 as <-; exact H|intro H; eauto]).
Qed.
Lemma chain_rel o l : (forall e, In e l -> exact_real e = true) -> (chain (rel_of o) l <-> chain (rel_q o) l).
Proof.
  induction l as [|x [|y t] IH]; intro H; [cbn; tauto|cbn; tauto|].
  cbn [chain] in *. rewrite IH by (intros; apply H; right; assumption).
  rewrite rel_of_q by (apply H; cbn; auto). reflexivity.
Qed.

(* comparisons of exact numbers always decide *)
Theorem C12_decides : forall o l, (forall e, In e l -> exact_real e = true) ->
  comparison_eval o l = ATrue \/ comparison_eval o l = AFalse.
Proof. intros o l H. rewrite comparison_chain by assumption. destruct (fchain o l); auto. Qed.
Print Assumptions C12_decides.

(* Full statement: comparison_eval o l = ATrue <-> chain (rel_of o) l.  It
   holds for machine-representable integers, and in one direction for all
   exact numbers; the other direction is refuted below. *)
Theorem C12_small_integers_partial : forall o l, (forall z, In z l -> Z.abs z <= 2 ^ 53) ->
  (comparison_eval o (map EInt l) = ATrue <-> chain (fun a b => rel_of o (EInt a) (EInt b)) l) /\
  (comparison_eval o (map EInt l) = AFalse <-> ~ chain (fun a b => rel_of o (EInt a) (EInt b)) l).
Proof.
  intros o l H.
  assert (X : forall e, In e (map EInt l) -> exact_real e = true).
  { intros e He. apply in_map_iff in He. destruct He as [z [<- _]]. reflexivity. }
  assert (E : chain (fun a b => rel_of o (EInt a) (EInt b)) l <-> chain (rel_z o) l).
  { clear. induction l as [|x [|y t] IH]; [cbn; tauto|cbn; tauto|]. cbn [chain] in *. rewrite IH.
    rewrite rel_of_q by reflexivity.
    assert (rel_q o (EInt x) (EInt y) <-> rel_z o x y) as ->; [|reflexivity].
    destruct o; cbn [rel_q rel_z]; unfold qval0; cbn [qval]; rewrite <- ?Zlt_Qlt, <- ?Zle_Qle; lia. }
  rewrite E, comparison_chain by exact X. rewrite <- (fchain_small o l H).
  destruct (fchain o (map EInt l)); split; split; intros; try discriminate; try reflexivity.
  - exfalso; auto.
Qed.
Print Assumptions C12_small_integers_partial.

Theorem C12_strict_sound_partial : forall o l, o = RLess \/ o = RGreater ->
  (forall e, In e l -> exact_real e = true) -> comparison_eval o l = ATrue -> chain (rel_of o) l.
Proof.
  intros o l Ho H E. rewrite comparison_chain in E by assumption. apply chain_rel; auto.
  apply fchain_chain_sound; auto. destruct (fchain o l); [reflexivity|discriminate].
Qed.
Print Assumptions C12_strict_sound_partial.

Theorem C12_weak_complete_partial : forall o l, o = RLessEqual \/ o = RGreaterEqual ->
  (forall e, In e l -> exact_real e = true) -> chain (rel_of o) l -> comparison_eval o l = ATrue.
Proof.
  intros o l Ho H E. rewrite comparison_chain by assumption.
  rewrite fchain_chain_complete; auto. apply chain_rel; auto.
Qed.
Print Assumptions C12_weak_complete_partial.

Theorem C12_integers_refuted : exists a b, num_lt (EInt a) (EInt b) /\
  comparison_eval RLess [EInt a; EInt b] = AFalse /\ comparison_eval RLessEqual [EInt b; EInt a] = ATrue.
Proof.
  exists (2 ^ 53), (2 ^ 53 + 1). split.
  - exists (inject_Z (2 ^ 53)), (inject_Z (2 ^ 53 + 1)). repeat split.
  - split; vm_compute; reflexivity.
Qed.
Print Assumptions C12_integers_refuted.

(* Mixed chains a <= b < c: all operators pointing the same way *)
Theorem C12_inequality_one_direction : forall fmt a l,
  l <> [] -> Z.abs a <= 2 ^ 53 -> (forall o z, In (o, z) l -> Z.abs z <= 2 ^ 53) ->
  (forall o z, In (o, z) l -> upward o) \/ (forall o z, In (o, z) l -> downward o) ->
  let r := inequality_eval (eval_op fmt) (EInt a) (map (fun '(o, z) => (cmp_name o, EInt z)) l) in
  (links_hold a l -> r = ITrue) /\ (~ links_hold a l -> r = IFalse).
Proof. intros fmt a l H1 H2 H3 H4. exact (inequality_one_way fmt a l H1 H2 H3 H4). Qed.
Print Assumptions C12_inequality_one_direction.

(* a < b > c becomes the conjunction of two chains which together mean the same *)
Theorem C12_inequality_split : forall fmt a l f s,
  inequality_eval (eval_op fmt) (EInt a) (map (fun '(o, z) => (cmp_name o, EInt z)) l) = IAnd f s ->
  exists b l1 l2, l = l1 ++ l2 /\ l1 <> [] /\ l2 <> [] /\
    f = EInt a :: unchain (map (fun '(o, z) => (cmp_name o, EInt z)) l1) /\
    s = EInt b :: unchain (map (fun '(o, z) => (cmp_name o, EInt z)) l2) /\
    (links_hold a l <-> links_hold a l1 /\ links_hold b l2).
Proof.
  intros fmt a l f s H. destruct (inequality_split fmt a l f s H) as [k [Hk [Ef Es]]].
  exists (last_operand a (firstn k l)), (firstn k l), (skipn k l).
  split; [symmetry; apply firstn_skipn|]. split.
  { intro E. apply (f_equal (@length _)) in E. rewrite firstn_length in E. cbn in E. lia. }
  split.
  { intro E. apply (f_equal (@length _)) in E. rewrite skipn_length in E. cbn in E. lia. }
  split; [exact Ef|]. split; [exact Es|]. apply links_split.
Qed.
Print Assumptions C12_inequality_split.

(* A chain starting with == is wrong: 1 == 1 < 2 gives False *)
Theorem C12_inequality_refuted : exists a l, links_hold a l /\ forall fmt,
  inequality_eval (eval_op fmt) (EInt a) (map (fun '(o, z) => (cmp_name o, EInt z)) l) = IFalse.
Proof.
  exists 1, [(CEqual, 1); (CLess, 2)]. split; [cbn; lia|]. intro fmt. vm_compute. reflexivity.
Qed.
Print Assumptions C12_inequality_refuted.

Example C12_ex1 : comparison_eval RLess [EInt 1; ERat 3 2; EInt 2] = ATrue /\ comparison_eval RGreaterEqual [EInt 2; EInt 3] = AFalse.
Proof. split; vm_compute; reflexivity. Qed.
Example C12_ex2 : exists f s, inequality_eval (eval_op (fun _ => ""%string)) (EInt 1) [(sys "Less", EInt 5); (sys "Greater", EInt 3)] = IAnd f s.
Proof. eexists; eexists; vm_compute; reflexivity. Qed.

(* ---- C13 ---- *)
(* Max and Min are Orderless, so their function sees sorted arguments.  The
   result is either the extremum or Max[extremum], which evaluates to it. *)
Theorem C13_extremum : forall f args zs,
  all_int_leaves args = Some zs -> zs <> [] -> (forall x, In x args -> nesting x <= 999999999) ->
  (forall l, is_sameq (EExpr (sys "List" :: insertion_sort args)) (EExpr (sys "List" :: map EInt l)) = true ->
     insertion_sort args = map EInt l) (* no hash collision *) ->
  exists m, In m zs /\ (forall z, In z zs -> match f with MaxFn => z <= m | MinFn => m <= z end) /\
    (extrema_eval f (insertion_sort args) = EInt m \/
     extrema_eval f (insertion_sort args) = EExpr [ext_head f; EInt m] /\ extrema_eval f [EInt m] = EInt m).
Proof.
  intros f args zs H Hne Hn Hc.
  destruct (extrema_correct f args zs H Hne) as [m [Hm [Hb Hr]]]; auto.
  - apply nest_list_le; [lia|assumption].
  - apply (all_int_leaves_wf args) with zs; [|assumption]. apply Forall_forall. intros x _ ws. apply int_leaves_wf.
  - exists m. split; [assumption|]. split; [assumption|].
    destruct Hr as [Hr|Hr]; [left; assumption|right; split; [assumption|apply int_list_sameq_refl]].
Qed.
Print Assumptions C13_extremum.

(* for plain integer arguments no hypothesis about hashes is needed *)
Theorem C13_extremum_flat : forall f zs, zs <> [] ->
  exists m, In m zs /\ (forall z, In z zs -> match f with MaxFn => z <= m | MinFn => m <= z end) /\
    (extrema_eval f (insertion_sort (map EInt zs)) = EInt m \/
     extrema_eval f (insertion_sort (map EInt zs)) = EExpr [ext_head f; EInt m] /\ extrema_eval f [EInt m] = EInt m).
Proof. exact extrema_flat. Qed.
Print Assumptions C13_extremum_flat.

(* With at least two arguments, none a number, Max puts its own name among its
   arguments: the expression grows for ever and evaluation never ends. *)
Theorem C13_symbolic_max_refuted : forall x y t,
  numberQ x = false -> flatten_args (sys "List") 999999999 (x :: y :: t) = x :: y :: t ->
  extrema_eval MaxFn (x :: y :: t) = EExpr (sys "Max" :: sys "Max" :: x :: y :: t).
Proof. intros x y t N F. exact (max_no_numbers x y t F N). Qed.
Print Assumptions C13_symbolic_max_refuted.

Example C13_ex : extrema_eval MaxFn (insertion_sort [EExpr [sys "List"; EInt 4; EInt 9]; EInt (-3); EInt 5]) = EExpr [sys "Max"; EInt 9].
Proof. vm_compute. reflexivity. Qed.
Example C13_ex2 : numberQ (ESym "Global`a") = false /\ flatten_args (sys "List") 999999999 [ESym "Global`a"; ESym "Global`b"] = [ESym "Global`a"; ESym "Global`b"].
Proof. split; reflexivity. Qed.
