(* C49 Distribute, C50 Dimensions, Transpose, Dot. *)
From Verif Require Import M_Syntax M_Float M_Hash P_Hash M_Matrix S_Matrix P_Matrix.
Open Scope nat_scope.

(* ------------------------------------------------------------------ C49 *)
(* Distribute[h[args], p] is p[h[c1], h[c2], ...], where c1, c2, ... are the
   choices of one summand of each argument, in lexicographic order. *)
Theorem C49_distribute_choices : forall h args p, head_hash_faithful p args ->
  distribute_eval [EExpr (h :: args); p] =
  MResult (EExpr (p :: map (fun c => EExpr (h :: c)) (choices (map (summands p) args)))).
Proof. intros h args p HF. unfold distribute_eval. rewrite distribute_choices by assumption. reflexivity. Qed.
Print Assumptions C49_distribute_choices.

(* what the choices are *)
Theorem C49_choices_spec : forall (A : Type) (l : list (list A)) c,
  (In c (choices l) <-> Forall2 (fun x s => In x s) c l) /\
  length (choices l) = fold_right (fun s n => length s * n) 1 l.
Proof.
  intros A l. split.
  - revert c. induction l as [|s t IH]; intros c; cbn [choices].
    + split; [intros [<-|[]]; constructor|inversion 1; subst; now left].
    + rewrite in_flat_map. split.
      * intros (x & Hx & Hc). apply in_map_iff in Hc. destruct Hc as (d & <- & Hd).
        constructor; [assumption|]. now apply IH.
      * inversion 1 as [|x s' d t' Hx Hd]; subst. exists x. split; [assumption|]. apply in_map. now apply IH.
  - induction l as [|s t IH]; [reflexivity|]. cbn [choices fold_right]. rewrite <- IH. clear.
    induction s as [|x s IH]; [reflexivity|]. cbn [flat_map]. rewrite app_length, map_length, IH. cbn. lia.
Qed.
Print Assumptions C49_choices_spec.

(* If p is read as a sum and h as a (possibly noncommutative) product, the
   value does not change. *)
Theorem C49_distribute_value : forall (R : semiring) (v : ex -> R) h p args e,
  sum_valuation v p -> product_valuation v h -> head_hash_faithful p args ->
  distribute_eval [EExpr (h :: args); p] = MResult e ->
  v e = v (EExpr (h :: args)).
Proof.
  intros R v h p args e Hs Hp HF E. rewrite C49_distribute_choices in E by assumption. injection E as <-.
  rewrite (Hs _), map_map, (Hp args). rewrite (map_ext _ (fun c => sprod (map v c))) by (intros c; apply Hp).
  rewrite <- prod_of_sums, map_map. f_equal. apply map_ext. intros x.
  destruct x as [| | | | | |[|h' t]]; cbn [summands]; try (cbn; rewrite sadd_comm; apply sadd_0).
  destruct (ex_eqb h' p) eqn:EE.
  - apply ex_eqb_eq in EE. subst h'. symmetry. apply Hs.
  - cbn. rewrite sadd_comm. apply sadd_0.
Qed.
Print Assumptions C49_distribute_value.

(* nothing to distribute over: a one-term sum with the expression itself; and
   an atom is returned as it is *)
Theorem C49_distribute_trivial : forall h args p,
  (forall t, ~ In (EExpr (p :: t)) args) -> head_hash_faithful p args ->
  distribute_eval [EExpr (h :: args); p] = MResult (EExpr [p; EExpr (h :: args)]).
Proof.
  intros h args p N HF. rewrite C49_distribute_choices by assumption. do 2 f_equal.
  assert (X : choices (map (summands p) args) = [args]); [|now rewrite X].
  clear HF. induction args as [|x r IH]; [reflexivity|]. cbn [map choices].
  rewrite IH by (intros t Ht; apply (N t); now right).
  destruct x as [| | | | | |[|h' t]]; try reflexivity. cbn [summands].
  destruct (ex_eqb h' p) eqn:EE; [|reflexivity]. apply ex_eqb_eq in EE. subst. exfalso. apply (N t). now left.
Qed.
Print Assumptions C49_distribute_trivial.

Theorem C49_distribute_atom : forall e p, is_expr e = false -> distribute_eval [e; p] = MResult e.
Proof. intros e p H. destruct e; try discriminate; reflexivity. Qed.
Print Assumptions C49_distribute_atom.

(* (a + b) * c * (d + 2): the hypotheses hold and four products come out *)
Definition zsr : semiring :=
  SR Z 0%Z 1%Z Z.add Z.mul Z.add_0_l Z.add_comm Z.add_assoc Z.mul_1_l Z.mul_1_r Z.mul_0_l Z.mul_0_r Z.mul_assoc
     Z.mul_add_distr_l Z.mul_add_distr_r.
(* integers have their value, reals 0, symbols 3, Plus and Times their meaning *)
Fixpoint zval (e : ex) : zsr :=
  match e with
  | EInt z => z
  | EFlt _ => 0%Z
  | EExpr (ESym s :: l) =>
      if String.eqb s (sysname "Plus") then (fix go (l : list ex) : Z := match l with [] => 0%Z | x :: t => (zval x + go t)%Z end) l
      else if String.eqb s (sysname "Times") then (fix go (l : list ex) : Z := match l with [] => 1%Z | x :: t => (zval x * go t)%Z end) l
      else 5%Z
  | _ => 3%Z
  end.
Lemma zval_plus : sum_valuation zval (sys "Plus").
Proof. intros l. induction l as [|x t IH]; [reflexivity|]. cbn [map]. change (zval x + zval (EExpr (sys "Plus" :: t)) = zval x + ssum (map zval t))%Z. now rewrite IH. Qed.
Lemma zval_times : product_valuation zval (sys "Times").
Proof. intros l. induction l as [|x t IH]; [reflexivity|]. cbn [map]. change (zval x * zval (EExpr (sys "Times" :: t)) = zval x * sprod (map zval t))%Z. now rewrite IH. Qed.
Definition ex_dist_args : list ex :=
  [EExpr [sys "Plus"; ESym "a"; ESym "b"]; ESym "c"; EExpr [sys "Plus"; ESym "d"; EInt 2]].
Example C49_ok_args : head_hash_faithful (sys "Plus") ex_dist_args /\ sum_valuation zval (sys "Plus") /\ product_valuation zval (sys "Times").
Proof.
  split; [|split; [exact zval_plus|exact zval_times]].
  intros h t [H|[H|[H|[]]]] _; try discriminate; injection H as <- <-; reflexivity.
Qed.
Example C49_four :
  distribute_eval [EExpr (sys "Times" :: ex_dist_args); sys "Plus"] =
  MResult (EExpr [sys "Plus";
    EExpr [sys "Times"; ESym "a"; ESym "c"; ESym "d"]; EExpr [sys "Times"; ESym "a"; ESym "c"; EInt 2];
    EExpr [sys "Times"; ESym "b"; ESym "c"; ESym "d"]; EExpr [sys "Times"; ESym "b"; ESym "c"; EInt 2]])
  /\ zval (EExpr (sys "Times" :: ex_dist_args)) = 90%Z.
Proof. vm_compute. split; reflexivity. Qed.

(* ------------------------------------------------------------------ C50 *)
(* Dimensions of a full array are its dimensions *)
Theorem C50_dimensions_full : forall h n ds e, full_array h (n :: ds) e ->
  dimensions_eval [e] = MResult (mkList (map (fun k => EInt (Z.of_nat k)) (n :: ds))).
Proof.
  intros h n ds e H. unfold dimensions_eval. rewrite (dimensions_full _ _ _ H) by discriminate.
  inversion H; reflexivity.
Qed.
Print Assumptions C50_dimensions_full.

(* Up to two levels, ragged or not: Dimensions is the longest list of
   dimensions on which the levels agree. *)
Theorem C50_dimensions_partial : forall h rows,
  (forall r, In r rows -> ~ headed h r \/
     exists row, r = EExpr (h :: row) /\ forall x, In x row -> ~ headed h x) ->
  exists ds, dimensions_eval [EExpr (h :: rows)] = MResult (mkList (map (fun k => EInt (Z.of_nat k)) ds)) /\
    uniform h ds (EExpr (h :: rows)) /\
    forall ds', uniform h ds' (EExpr (h :: rows)) -> length ds' <= length ds.
Proof.
  intros h rows H. exists (dimensions (EExpr (h :: rows))). split; [reflexivity|]. exact (dimensions_two h rows H).
Qed.
Print Assumptions C50_dimensions_partial.

Definition l1 (e : ex) := mkList [e].
(* Deeper ragged arrays get it wrong: Dimensions[{{2}, {{1}}}] is {2, 1, 1},
   though 2 is not a list; Dimensions[{{{1}, {2}}, {1, 2, 3}}] is {2, 3},
   though the first part has two elements. *)
Theorem C50_dimensions_refuted :
  (let e := mkList [l1 (EInt 2); l1 (l1 (EInt 1))] in
   dimensions_eval [e] = MResult (mkList [EInt 2; EInt 1; EInt 1]) /\ ~ uniform sList [2; 1; 1] e) /\
  (let e := mkList [mkList [l1 (EInt 1); l1 (EInt 2)]; mkList [EInt 1; EInt 2; EInt 3]] in
   dimensions_eval [e] = MResult (mkList [EInt 2; EInt 3]) /\ ~ uniform sList [2; 3] e).
Proof.
  cbv zeta. split; split; try (vm_compute; reflexivity); intros U.
  - inversion U as [|A1 B1 C1 D1 E1 U1]. specialize (U1 (l1 (EInt 2)) (or_introl eq_refl)).
    inversion U1 as [|A2 B2 C2 D2 E2 U2]. specialize (U2 (EInt 2) (or_introl eq_refl)). inversion U2.
  - inversion U as [|A1 B1 C1 D1 E1 U1]. specialize (U1 (mkList [l1 (EInt 1); l1 (EInt 2)]) (or_introl eq_refl)). inversion U1. subst l. discriminate.
Qed.
Print Assumptions C50_dimensions_refuted.

(* Transpose of an h*w array (whatever the entries are, if they all have the
   same shape) is the w*h array with rows and columns exchanged. *)
Theorem C50_transpose : forall h w ds m, full_array sList (h :: w :: ds) m ->
  exists t, transpose_eval [m] = MResult t /\ is_matrix w h t /\ forall i j, entry t j i = entry m i j.
Proof.
  intros h w ds m H. rewrite (transpose_ok _ _ _ _ H). eexists. split; [reflexivity|]. split; [apply is_matrix_tab|].
  intros i j. apply transpose_entry. apply (full_matrix _ _ _ _ H).
Qed.
Print Assumptions C50_transpose.

Theorem C50_transpose_twice : forall h w ds m t, full_array sList (h :: w :: ds) m -> 1 <= w ->
  transpose_eval [m] = MResult t -> transpose_eval [t] = MResult m.
Proof.
  intros h w ds m t H Hw E. rewrite (transpose_ok _ _ _ _ H) in E. injection E as <-.
  assert (F := transpose_full _ _ _ _ H Hw). rewrite (transpose_ok _ _ _ _ F). f_equal.
  assert (M := proj1 (full_matrix _ _ _ _ H)). assert (M2 := proj1 (full_matrix _ _ _ _ F)).
  apply (matrix_ext h w); [apply is_matrix_tab|assumption|].
  intros i j. rewrite (transpose_entry _ _ _ j i M2). apply transpose_entry. assumption.
Qed.
Print Assumptions C50_transpose_twice.

(* With no columns the second transposition cannot restore the rows. *)
Theorem C50_transpose_twice_refuted :
  full_array sList [2; 0] (mkList [mkList []; mkList []]) /\
  transpose_eval [mkList [mkList []; mkList []]] = MResult (mkList []) /\
  transpose_eval [mkList []] = MUnchanged.
Proof.
  split; [|split; reflexivity]. apply (fa_node sList [0] (mkList []) [mkList []]). intros y [<-|[<-|[]]]; constructor.
Qed.
Print Assumptions C50_transpose_twice_refuted.

(* On a ragged array Transpose and Dot do not report an error: they end the
   program. *)
Theorem C50_transpose_ragged_refuted :
  let e := mkList [mkList [l1 (EInt 1); l1 (EInt 2)]; mkList [EInt 1; EInt 2; EInt 3]] in
  transpose_eval [e] = MPanic /\
  dot_eval [e; mkList [l1 (EInt 1); l1 (EInt 1); l1 (EInt 1)]] = MPanic.
Proof. vm_compute. split; reflexivity. Qed.
Print Assumptions C50_transpose_ragged_refuted.

(* Dot of an h*k and a k*w matrix: the h*w matrix whose (i, j) entry is the sum
   of the products of row i of a with column j of b, in order. *)
Theorem C50_dot_matrix : forall h k w a b, full_array sList [h; k] a -> full_array sList [k; w] b ->
  exists m, dot_eval [a; b] = MResult m /\ is_matrix h w m /\
    forall i j, i < h -> j < w ->
      exists prods, entry m i j = Some (EExpr (sys "Plus" :: prods)) /\ length prods = k /\
        forall q, q < k -> exists x y, entry a i q = Some x /\ entry b q j = Some y /\
          nth_error prods q = Some (EExpr [sys "Times"; x; y]).
Proof.
  intros h k w a b A B. rewrite (dot_ok _ _ _ _ _ A B). eexists. split; [reflexivity|]. split; [apply is_matrix_tab|].
  intros i j Hi Hj. assert (MA := proj1 (full_matrix _ _ _ _ A)). assert (MB := proj1 (full_matrix _ _ _ _ B)).
  destruct (calc_ok h k w a b i j MA MB Hi Hj) as (p & E & L & P). exists p. split; [|split; assumption].
  rewrite entry_tab, E. destruct (Nat.ltb_spec i h), (Nat.ltb_spec j w); try lia. reflexivity.
Qed.
Print Assumptions C50_dot_matrix.

(* ... so the value of the entry is the sum over k *)
Theorem C50_dot_value : forall (R : semiring) (v : ex -> R) h k w a b m,
  sum_valuation v (sys "Plus") -> product_valuation v (sys "Times") ->
  full_array sList [h; k] a -> full_array sList [k; w] b -> dot_eval [a; b] = MResult m ->
  forall i j, i < h -> j < w ->
    entry_value v m i j = ssum (map (fun q => smul (entry_value v a i q) (entry_value v b q j)) (seq 0 k)).
Proof.
  intros R v h k w a b m Hp Ht A B E i j Hi Hj.
  destruct (C50_dot_matrix h k w a b A B) as (m' & E' & _ & H). rewrite E in E'. injection E' as <-.
  destruct (H i j Hi Hj) as (p & Ep & L & P). unfold entry_value at 1. rewrite Ep, (Hp p). f_equal.
  apply nth_error_ext. intros q. rewrite !nth_error_map.
  destruct (le_lt_dec k q) as [G|G].
  - rewrite !(proj2 (nth_error_None _ _)); [reflexivity|rewrite seq_length; lia|lia].
  - destruct (P q G) as (x & y & Ex & Ey & Eq). rewrite Eq. rewrite (nth_error_nth' (seq 0 k) 0) by (rewrite seq_length; lia).
    rewrite seq_nth by lia. cbn [plus option_map]. unfold entry_value. rewrite Ex, Ey. f_equal.
    rewrite (Ht _). cbn. now rewrite smul_1_r.
Qed.
Print Assumptions C50_dot_value.

(* Matrix multiplication is associative, in value. *)
Theorem C50_dot_assoc : forall (R : semiring) (v : ex -> R) h k l w a b c ab bc m1 m2,
  sum_valuation v (sys "Plus") -> product_valuation v (sys "Times") ->
  full_array sList [h; k] a -> full_array sList [k; l] b -> full_array sList [l; w] c ->
  dot_eval [a; b] = MResult ab -> dot_eval [ab; c] = MResult m1 ->
  dot_eval [b; c] = MResult bc -> dot_eval [a; bc] = MResult m2 ->
  forall i j, i < h -> j < w -> entry_value v m1 i j = entry_value v m2 i j.
Proof.
  intros R v h k l w a b c ab bc m1 m2 Hp Ht A B C E1 E2 E3 E4 i j Hi Hj.
  assert (AB := dot_full _ _ _ _ _ _ A B E1). assert (BC := dot_full _ _ _ _ _ _ B C E3).
  rewrite (C50_dot_value R v h l w ab c m1 Hp Ht AB C E2 i j Hi Hj).
  rewrite (C50_dot_value R v h k w a bc m2 Hp Ht A BC E4 i j Hi Hj).
  rewrite (map_ext_in _ (fun q => ssum (map (fun r => smul (entry_value v a i r) (smul (entry_value v b r q) (entry_value v c q j))) (seq 0 k)))).
  - rewrite ssum_swap. f_equal. apply map_ext_in. intros r Hr. apply in_seq in Hr.
    rewrite (C50_dot_value R v k l w b c bc Hp Ht B C E3 r j) by lia. rewrite smul_ssum_l, map_map. reflexivity.
  - intros q Hq. apply in_seq in Hq. rewrite (C50_dot_value R v h k l a b ab Hp Ht A B E1 i q) by lia.
    rewrite smul_ssum_r, map_map. f_equal. apply map_ext. intros r. symmetry. apply smul_assoc.
Qed.
Print Assumptions C50_dot_assoc.

(* VectorQ and MatrixQ of a full array: one and two levels *)
Theorem C50_vector_matrix : forall n ds e, full_array sList (n :: ds) e ->
  (vectorQ e = true <-> ds = []) /\ (matrixQ e = true <-> length ds = 1).
Proof.
  intros n ds e H. assert (D := dimensions_full _ _ _ H ltac:(discriminate)).
  inversion H as [|E1|ds' x l Hy E1 E2]; subst.
  - split; [split; reflexivity|]. unfold matrixQ. change (args_of (EExpr [sList]) nList) with (Some (@nil ex)). rewrite D. split; discriminate.
  - split.
    + unfold vectorQ. change (args_of (EExpr (sList :: x :: l)) nList) with (Some (x :: l)). rewrite forallb_forall.
      assert (HL : forall y, has_head y nList = true -> headed sList y).
      { intros y K. unfold has_head, head_assertion in K. destruct y as [| | | | | |[|[] ?]]; try discriminate K. eexists. eexists. split; [reflexivity|].
        match type of K with context [String.eqb ?a ?b] => destruct (String.eqb_spec a b) as [K2|K2] end; [|discriminate K]. rewrite K2. apply N.eqb_refl. }
      split.
      * intro F. destruct ds as [|m ds]; [reflexivity|]. exfalso. specialize (F x (or_introl eq_refl)). specialize (Hy x (or_introl eq_refl)).
        inversion Hy; subst; discriminate F.
      * intros -> y Hin. specialize (Hy y Hin). inversion Hy as [z N E3 E4| |]. subst z. destruct (has_head y nList) eqn:K; [|reflexivity]. exfalso. apply N, HL, K.
    + unfold matrixQ. change (args_of (EExpr (sList :: x :: l)) nList) with (Some (x :: l)). rewrite D. cbn [length]. rewrite Nat.eqb_eq. lia.
Qed.
Print Assumptions C50_vector_matrix.

(* matrices whose inner dimensions differ are left alone *)
Theorem C50_dot_mismatch : forall h k k' w a b, full_array sList [h; k] a -> full_array sList [k'; w] b -> k <> k' ->
  dot_eval [a; b] = MUnchanged.
Proof. exact dot_mismatch. Qed.
Print Assumptions C50_dot_mismatch.

(* vectors: the sum of the products, or nothing if the lengths differ *)
Theorem C50_dot_vectors : forall a b,
  (forall x, In x (a ++ b) -> has_head x nList = false) ->
  dot_eval [mkList a; mkList b] =
    if Nat.eqb (length a) (length b)
    then MResult (EExpr (sys "Plus" :: map (fun p => EExpr [sys "Times"; fst p; snd p]) (combine a b)))
    else MUnchanged.
Proof.
  intros a b H. unfold dot_eval.
  assert (V : forall l, (forall x, In x l -> has_head x nList = false) -> vectorQ (mkList l) = true).
  { intros l Hl. unfold vectorQ. change (args_of (mkList l) nList) with (Some l). apply forallb_forall.
    intros x Hx. now rewrite (Hl x Hx). }
  rewrite (V a), (V b) by (intros x Hx; apply H, in_or_app; auto). reflexivity.
Qed.
Print Assumptions C50_dot_vectors.

(* the theorems are about something: a 2*3 and a 3*2 matrix *)
Definition exA := mkList [mkList [EInt 1; EInt 2; ESym "x"]; mkList [EInt 4; EInt 5; EInt 6]].
Definition exB := mkList [mkList [EInt 1; EInt 0]; mkList [EInt 0; ESym "y"]; mkList [EInt 1; EInt 1]].
Lemma int_leaf z : full_array sList [] (EInt z).
Proof. constructor. intros (h & t & E & _). discriminate. Qed.
Lemma sym_leaf s : full_array sList [] (ESym s).
Proof. constructor. intros (h & t & E & _). discriminate. Qed.
Lemma fa_list ds n l : n = length l -> n <> 0 -> (forall y, In y l -> full_array sList ds y) -> full_array sList (n :: ds) (mkList l).
Proof. intros -> N H. destruct l as [|x t]; [now elim N|]. apply fa_node. exact H. Qed.
Example exA_full : full_array sList [2; 3] exA.
Proof.
  apply fa_list; [reflexivity|discriminate|]. intros y [<-|[<-|[]]]; apply fa_list; try reflexivity; try discriminate; intros y [<-|[<-|[<-|[]]]];
    first [apply int_leaf|apply sym_leaf].
Qed.
Example exB_full : full_array sList [3; 2] exB.
Proof.
  apply fa_list; [reflexivity|discriminate|]. intros y [<-|[<-|[<-|[]]]]; apply fa_list; try reflexivity; try discriminate; intros y [<-|[<-|[]]];
    first [apply int_leaf|apply sym_leaf].
Qed.
Example exA_transpose : transpose_eval [exA] =
  MResult (mkList [mkList [EInt 1; EInt 4]; mkList [EInt 2; EInt 5]; mkList [ESym "x"; EInt 6]]).
Proof. vm_compute. reflexivity. Qed.
Example exAB : exists m, dot_eval [exA; exB] = MResult m /\ entry_value zval m 0 0 = 4%Z /\ entry_value zval m 1 1 = 21%Z.
Proof. eexists. split; [vm_compute; reflexivity|]. vm_compute. split; reflexivity. Qed.
Example ex_two_level : forall r, In r [mkList [EInt 1]; mkList [EInt 1; EInt 2]] -> ~ headed sList r \/
     exists row, r = EExpr (sList :: row) /\ forall x, In x row -> ~ headed sList x.
Proof.
  intros r [<-|[<-|[]]]; right; eexists; (split; [reflexivity|]); intros x Hx (h & t & E & _);
    repeat (destruct Hx as [<-|Hx]; [discriminate|]); destruct Hx.
Qed.
