From Verif Require Import M_Syntax M_Float M_Hash P_Hash M_Matrix S_Matrix.
Open Scope nat_scope.

Definition goD (h : ex) (n : nat) : bool -> list nat -> list ex -> list nat :=
  fix go (first : bool) (next : list nat) (l : list ex) : list nat :=
         match l with
         | [] => n :: next
         | x :: t =>
             match x with
             | EExpr (h' :: _) =>
                 if is_sameq h h' then
                   let cur := dimensions x in
                   if first || same_at (cut_next next cur) cur then go false cur t
                   else [n]
                 else [n]
             | _ => [n]
             end
         end.
Lemma dim_unfold h l : dimensions (EExpr (h :: l)) = goD h (length l) true [] l.
Proof. reflexivity. Qed.
Lemma goD_headed h n b nx x t : headed h x ->
  goD h n b nx (x :: t) = if b || same_at (cut_next nx (dimensions x)) (dimensions x) then goD h n false (dimensions x) t else [n].
Proof. intros (h' & l & -> & E). cbn [goD]. rewrite E. reflexivity. Qed.
Lemma goD_leaf h n b nx x t : ~ headed h x -> goD h n b nx (x :: t) = [n].
Proof.
  intros H. cbn [goD]. destruct x as [| | | | | |[|h' l]]; try reflexivity.
  destruct (is_sameq h h') eqn:E; [|reflexivity]. exfalso. apply H. exists h', l. auto.
Qed.
Lemma headed_dec h e : {headed h e} + {~ headed h e}.
Proof.
  destruct e as [| | | | | |[|h' l]]; try (right; intros (a & b & X & _); discriminate).
  destruct (is_sameq h h') eqn:E; [left; exists h', l; auto|right; intros (a & b & X & Y); congruence].
Qed.
Lemma headed_self h l : headed h (EExpr (h :: l)).
Proof. exists h, l. split; [reflexivity|apply sameq_refl]. Qed.
Lemma same_at_refl l : same_at l l = true.
Proof. induction l; cbn; [reflexivity|]. rewrite Nat.eqb_refl. assumption. Qed.
Lemma cut_same l : cut_next l l = l.
Proof. unfold cut_next. now rewrite Nat.ltb_irrefl. Qed.

Lemma goD_all h n ds l : (forall y, In y l -> headed h y /\ dimensions y = ds) -> goD h n false ds l = n :: ds.
Proof.
  induction l as [|x t IH]; intros H; [reflexivity|].
  destruct (H x (or_introl eq_refl)) as [Hh Hd]. rewrite (goD_headed _ _ _ _ _ _ Hh), Hd.
  rewrite cut_same, same_at_refl. cbn [orb]. apply IH. intros y Hy. apply H. now right.
Qed.

Lemma full_headed h n ds e : full_array h (n :: ds) e -> headed h e.
Proof. inversion 1; subst; apply headed_self. Qed.

Lemma dimensions_full h : forall ds e, full_array h ds e -> ds <> [] -> dimensions e = ds.
Proof.
  intros ds e H. induction H as [e Hn| |ds x l HF IH]; intros N; [congruence|reflexivity|].
  rewrite dim_unfold. destruct ds as [|d ds].
  - assert (L := HF x (or_introl eq_refl)). inversion L; subst. now rewrite goD_leaf.
  - assert (A : forall y, In y (x :: l) -> headed h y /\ dimensions y = d :: ds).
    { intros y Hy. split; [apply full_headed with d ds; apply HF, Hy|]. apply IH; [assumption|discriminate]. }
    destruct (A x (or_introl eq_refl)) as [Hh Hd]. rewrite goD_headed by assumption. cbn [orb]. rewrite Hd.
    apply goD_all. intros y Hy. apply A. now right.
Qed.

(* two levels *)
Lemma dims_row h row : (forall x, In x row -> ~ headed h x) -> dimensions (EExpr (h :: row)) = [length row].
Proof.
  intros H. rewrite dim_unfold. destruct row as [|x t]; [reflexivity|].
  rewrite goD_leaf; [reflexivity|apply H; now left].
Qed.
Definition flat_row (h r : ex) : Prop := exists row, r = EExpr (h :: row) /\ forall x, In x row -> ~ headed h x.
Lemma flat_row_headed h r : flat_row h r -> headed h r.
Proof. intros (row & -> & _). apply headed_self. Qed.

Lemma goD_two h n rows : (forall r, In r rows -> ~ headed h r \/ flat_row h r) -> forall m,
  goD h n false [m] rows = if forallb (fun r => match r with EExpr (_ :: row) => if headed_dec h r then Nat.eqb (length row) m else false | _ => false end) rows then [n; m] else [n].
Proof.
  intros H. induction rows as [|r t IH]; intros m; [reflexivity|].
  cbn [forallb]. destruct (H r (or_introl eq_refl)) as [L|F].
  - rewrite goD_leaf by assumption. destruct r as [| | | | | |[|h' row]]; try reflexivity.
    destruct (headed_dec h (EExpr (h' :: row))); [contradiction|reflexivity].
  - rewrite goD_headed by (now apply flat_row_headed). destruct F as (row & -> & Hr).
    rewrite (dims_row h row Hr). unfold cut_next. cbn [length Nat.ltb Nat.leb same_at orb].
    destruct (headed_dec h (EExpr (h :: row))) as [_|N]; [|exfalso; apply N, headed_self].
    rewrite andb_true_r. rewrite (Nat.eqb_sym m). destruct (Nat.eqb_spec (length row) m) as [->|]; cbn [andb]; [|reflexivity].
    apply IH. intros r Hr'. apply H. now right.
Qed.

Lemma uniform_leaf h ds e : ~ headed h e -> uniform h ds e -> ds = [].
Proof. intros N U. inversion U; subst; [reflexivity|]. exfalso. apply N. exists h', l. auto. Qed.

Lemma dimensions_two h rows :
  (forall r, In r rows -> ~ headed h r \/ flat_row h r) ->
  uniform h (dimensions (EExpr (h :: rows))) (EExpr (h :: rows)) /\
  (forall ds, uniform h ds (EExpr (h :: rows)) -> length ds <= length (dimensions (EExpr (h :: rows)))).
Proof.
  intros H. rewrite dim_unfold.
  assert (U1 : uniform h [length rows] (EExpr (h :: rows))).
  { constructor; [apply sameq_refl|reflexivity|]. intros; constructor. }
  assert (Lb : forall ds, uniform h ds (EExpr (h :: rows)) -> length ds <= 2).
  { intros ds U. inversion U as [|ds' h' l E0 E1 E2]; subst; [cbn; lia|].
    destruct rows as [|r t]; [rewrite E1 by reflexivity; cbn; lia|].
    assert (Ur := E2 r (or_introl eq_refl)). destruct (H r (or_introl eq_refl)) as [L|(row & -> & Hr)].
    - rewrite (uniform_leaf _ _ _ L Ur). cbn; lia.
    - inversion Ur as [|ds2 h2 l2 F0 F1 F2]; subst; [cbn; lia|].
      destruct row as [|x s]; [rewrite F1 by reflexivity; cbn; lia|].
      rewrite (uniform_leaf _ _ _ (Hr x (or_introl eq_refl)) (F2 x (or_introl eq_refl))). cbn; lia. }
  destruct rows as [|r t].
  { cbn [goD length]. split; [exact U1|]. intros ds U. inversion U; subst; [cbn; lia|]. rewrite H4 by reflexivity. cbn; lia. }
  destruct (H r (or_introl eq_refl)) as [L|F].
  { rewrite goD_leaf by assumption. split; [exact U1|]. intros ds U. inversion U; subst; [cbn; lia|].
    rewrite (uniform_leaf _ _ _ L (H5 r (or_introl eq_refl))). cbn; lia. }
  rewrite goD_headed by (now apply flat_row_headed). cbn [orb]. destruct F as (row & -> & Hr).
  rewrite (dims_row h row Hr).
  rewrite goD_two by (intros y Hy; apply H; now right).
  match goal with |- context [if ?b then _ else _] => destruct b eqn:B end.
  - split; [|intros ds U; exact (Lb ds U)].
    constructor; [apply sameq_refl|discriminate|]. intros y [<-|Hy].
    + constructor; [apply sameq_refl|reflexivity|]. intros; constructor.
    + rewrite forallb_forall in B. specialize (B y Hy).
      destruct y as [| | | | | |[|h' row']]; try discriminate.
      destruct (headed_dec h (EExpr (h' :: row'))) as [Hh|]; [|discriminate].
      apply Nat.eqb_eq in B. rewrite <- B. destruct Hh as (a & b & X & Y). injection X as <- <-.
      constructor; [exact Y|reflexivity|]. intros; constructor.
  - split; [exact U1|]. intros ds U. cbn [length].
    destruct (le_lt_dec (length ds) 1) as [|G]; [assumption|exfalso].
    destruct ds as [|a [|b ds]]; [cbn in G; lia|cbn in G; lia|].
    inversion U as [|ds' h' l E0 E1 E2]; subst.
    assert (Hb : b = length row).
    { assert (U0 := E2 _ (or_introl eq_refl)). inversion U0; subst. reflexivity. }
    subst b. assert (X : forallb (fun r => match r with EExpr (_ :: row0) => if headed_dec h r then Nat.eqb (length row0) (length row) else false | _ => false end) t = true); [|congruence].
    apply forallb_forall. intros y Hy. assert (Uy := E2 y (or_intror Hy)). inversion Uy as [|ds2 h2 l2 F0 F1 F2]; subst.
    destruct (headed_dec h (EExpr (h2 :: l2))) as [_|N]; [apply Nat.eqb_eq; congruence|].
    exfalso. apply N. exists h2, l2. auto.
Qed.

(* loops *)
Lemma loop_some {A B} (f : A -> option B) (g : A -> B) l :
  (forall x, In x l -> f x = Some (g x)) -> loop (map f l) = Some (map g l).
Proof.
  induction l as [|x t IH]; intros H; [reflexivity|]. cbn [map loop]. rewrite (H x (or_introl eq_refl)).
  rewrite IH by (intros; apply H; now right). reflexivity.
Qed.
Lemma build_some h w f g : (forall i j, 1 <= i <= h -> 1 <= j <= w -> f i j = Some (g i j)) ->
  build h w f = MResult (mkList (map (fun i => mkList (map (g i) (seq 1 w))) (seq 1 h))).
Proof.
  intros H. unfold build. rewrite (loop_some _ (fun i => mkList (map (g i) (seq 1 w)))); [reflexivity|].
  intros i Hi. apply in_seq in Hi. rewrite (loop_some _ (g i)); [reflexivity|].
  intros j Hj. apply in_seq in Hj. apply H; lia.
Qed.
Lemma nth_error_map_seq {B} (g : nat -> B) n i : nth_error (map g (seq 1 n)) i = if i <? n then Some (g (S i)) else None.
Proof.
  destruct (Nat.ltb_spec i n) as [L|L].
  - rewrite nth_error_map. rewrite (nth_error_nth' _ 0) by (rewrite seq_length; lia).
    rewrite seq_nth by lia. reflexivity.
  - apply nth_error_None. rewrite map_length, seq_length. lia.
Qed.
Definition tabm (h w : nat) (g : nat -> nat -> ex) : ex := mkList (map (fun i => mkList (map (g i) (seq 1 w))) (seq 1 h)).
Lemma entry_tab h w g i j : entry (tabm h w g) i j = if (i <? h) && (j <? w) then Some (g (S i) (S j)) else None.
Proof.
  unfold entry, tabm, mkList, sList. rewrite nth_error_map_seq. destruct (i <? h); [|reflexivity].
  rewrite nth_error_map_seq. destruct (j <? w); reflexivity.
Qed.
Lemma is_matrix_tab h w g : is_matrix h w (tabm h w g).
Proof.
  eexists. split; [reflexivity|]. split; [rewrite map_length, seq_length; reflexivity|].
  intros r Hr. apply in_map_iff in Hr. destruct Hr as (i & <- & _). eexists. split; [reflexivity|].
  rewrite map_length, seq_length. reflexivity.
Qed.
Lemma mat_elem_entry m i j : (exists rows, m = mkList rows /\ forall r, In r rows -> exists row, r = mkList row) ->
  mat_elem m (S i) (S j) = entry m i j.
Proof.
  intros (rows & -> & H). unfold mat_elem, entry, mkList, sList. cbn [nth_error].
  destruct (nth_error rows i) as [r|] eqn:E; [|reflexivity].
  destruct (H r (nth_error_In _ _ E)) as (row & ->). reflexivity.
Qed.

Lemma full_matrix h w ds m : full_array sList (h :: w :: ds) m -> is_matrix h w m /\ 1 <= h.
Proof.
  intros H. inversion H as [| |ds' x l HF]; subst. split; [|cbn; lia].
  exists (x :: l). split; [reflexivity|]. split; [reflexivity|].
  intros r Hr. specialize (HF r Hr). inversion HF; subst; [exists []|exists (x0 :: l0)]; split; reflexivity.
Qed.
Lemma full_entry h w ds m i j x : full_array sList (h :: w :: ds) m -> entry m i j = Some x -> full_array sList ds x.
Proof.
  intros H E. inversion H as [| |ds' y l HF]; subst. unfold entry in E.
  destruct (nth_error (y :: l) i) as [r|] eqn:Er; [|discriminate].
  specialize (HF r (nth_error_In _ _ Er)). inversion HF as [| |ds2 z s HF2]; subst.
  - destruct j; discriminate.
  - apply HF2. eapply nth_error_In. exact E.
Qed.
Lemma matrix_entry h w m i j : is_matrix h w m -> (exists x, entry m i j = Some x) <-> (i < h /\ j < w).
Proof.
  intros (rows & -> & <- & H). unfold entry, mkList, sList. split.
  - intros (x & E). destruct (nth_error rows i) as [r|] eqn:Er; [|discriminate].
    destruct (H r (nth_error_In _ _ Er)) as (row & -> & <-). unfold mkList, sList in E. split.
    + apply nth_error_Some. congruence.
    + apply nth_error_Some. congruence.
  - intros [Hi Hj]. destruct (nth_error rows i) as [r|] eqn:Er; [|apply nth_error_None in Er; lia].
    destruct (H r (nth_error_In _ _ Er)) as (row & -> & <-). unfold mkList, sList.
    destruct (nth_error row j) as [x|] eqn:Ej; [eauto|apply nth_error_None in Ej; lia].
Qed.
Lemma entry_none h w m i j : is_matrix h w m -> ~ (i < h /\ j < w) -> entry m i j = None.
Proof.
  intros M N. destruct (entry m i j) as [x|] eqn:E; [|reflexivity]. exfalso. apply N.
  apply (matrix_entry h w m i j M). eauto.
Qed.
Lemma matrix_form h w m : is_matrix h w m -> exists rows, m = mkList rows /\ forall r, In r rows -> exists row, r = mkList row.
Proof. intros (rows & -> & _ & H). exists rows. split; [reflexivity|]. intros r Hr. destruct (H r Hr) as (row & -> & _). eauto. Qed.

(* a matrix is determined by its entries *)
Lemma nth_error_ext {A} (l1 l2 : list A) : (forall i, nth_error l1 i = nth_error l2 i) -> l1 = l2.
Proof.
  revert l2. induction l1 as [|x t IH]; intros [|y s] H; [reflexivity|specialize (H 0); discriminate|specialize (H 0); discriminate|].
  assert (H0 := H 0). injection H0 as ->. f_equal. apply IH. intros i. exact (H (S i)).
Qed.
Lemma matrix_ext h w m1 m2 : is_matrix h w m1 -> is_matrix h w m2 -> (forall i j, entry m1 i j = entry m2 i j) -> m1 = m2.
Proof.
  intros (r1 & -> & L1 & H1) (r2 & -> & L2 & H2) E. f_equal. apply nth_error_ext. intros i.
  destruct (nth_error r1 i) as [a|] eqn:Ea.
  - assert (i < length r1) by (apply nth_error_Some; congruence).
    destruct (nth_error r2 i) as [b|] eqn:Eb; [|apply nth_error_None in Eb; lia]. f_equal.
    destruct (H1 a (nth_error_In _ _ Ea)) as (x & -> & _). destruct (H2 b (nth_error_In _ _ Eb)) as (y & -> & _).
    f_equal. apply nth_error_ext. intros j. specialize (E i j). unfold entry, mkList, sList in E.
    rewrite Ea, Eb in E. exact E.
  - apply nth_error_None in Ea. symmetry. apply nth_error_None. lia.
Qed.

(* a matrix of arrays is an array *)
Lemma full_tab h w ds g : 1 <= h -> (w = 0 -> ds = []) ->
  (forall i j, 1 <= i <= h -> 1 <= j <= w -> full_array sList ds (g i j)) ->
  full_array sList (h :: w :: ds) (tabm h w g).
Proof.
  intros Hh Hw H.
  assert (R : forall i, 1 <= i <= h -> full_array sList (w :: ds) (mkList (map (g i) (seq 1 w)))).
  { intros i Hi. destruct w as [|w']; [rewrite Hw by reflexivity; constructor|].
    assert (L : S w' = length (map (g i) (seq 1 (S w')))) by (rewrite map_length, seq_length; reflexivity).
    rewrite L at 1. cbn [seq map]. unfold mkList. constructor.
    intros y Hy. change (In y (map (g i) (seq 1 (S w')))) in Hy. apply in_map_iff in Hy.
    destruct Hy as (j & <- & Hj). apply in_seq in Hj. apply H; lia. }
  unfold tabm. destruct h as [|h']; [lia|].
  assert (L : S h' = length (map (fun i => mkList (map (g i) (seq 1 w))) (seq 1 (S h')))) by (rewrite map_length, seq_length; reflexivity).
  rewrite L at 1. cbn [seq map]. unfold mkList at 1. constructor.
  intros y Hy. change (In y (map (fun i => mkList (map (g i) (seq 1 w))) (seq 1 (S h')))) in Hy. apply in_map_iff in Hy.
  destruct Hy as (i & <- & Hi). apply in_seq in Hi. apply R; lia.
Qed.

Lemma sprop_elem h w m i j : is_matrix h w m -> 1 <= i <= h -> 1 <= j <= w ->
  mat_elem m i j = Some (match mat_elem m i j with Some x => x | None => sNull end).
Proof.
  intros M Hi Hj. destruct i as [|i], j as [|j]; try lia.
  rewrite (mat_elem_entry m i j (matrix_form _ _ _ M)).
  destruct (proj2 (matrix_entry h w m i j M)) as (x & ->); [lia|reflexivity].
Qed.

Lemma has_head_list l : has_head (mkList l) nList = true.
Proof. reflexivity. Qed.

Lemma transpose_ok h w ds m : full_array sList (h :: w :: ds) m ->
  transpose_eval [m] = MResult (tabm w h (fun i j => match mat_elem m j i with Some x => x | None => sNull end)).
Proof.
  intros H. destruct (full_matrix _ _ _ _ H) as [M Hh]. unfold transpose_eval.
  assert (HH : has_head m nList = true) by (destruct M as (rows & -> & _); apply has_head_list).
  rewrite HH, (dimensions_full _ _ _ H) by discriminate.
  rewrite (build_some _ _ _ (fun i j => match mat_elem m j i with Some x => x | None => sNull end)); [reflexivity|].
  intros i j Hi Hj. apply (sprop_elem h w); assumption.
Qed.
Lemma transpose_entry h w m i j : is_matrix h w m ->
  entry (tabm w h (fun i j => match mat_elem m j i with Some x => x | None => sNull end)) j i = entry m i j.
Proof.
  intros M. rewrite entry_tab. rewrite (mat_elem_entry m i j (matrix_form _ _ _ M)).
  destruct (Nat.ltb_spec j w) as [Hj|Hj], (Nat.ltb_spec i h) as [Hi|Hi]; cbn [andb].
  - destruct (proj2 (matrix_entry h w m i j M)) as (x & ->); [lia|reflexivity].
  - symmetry. apply (entry_none h w); [assumption|lia].
  - symmetry. apply (entry_none h w); [assumption|lia].
  - symmetry. apply (entry_none h w); [assumption|lia].
Qed.
Lemma transpose_full h w ds m : full_array sList (h :: w :: ds) m -> 1 <= w ->
  full_array sList (w :: h :: ds) (tabm w h (fun i j => match mat_elem m j i with Some x => x | None => sNull end)).
Proof.
  intros H Hw. destruct (full_matrix _ _ _ _ H) as [M Hh]. apply full_tab; [assumption|lia|].
  intros i j Hi Hj. destruct i as [|i], j as [|j]; try lia.
  rewrite (mat_elem_entry m j i (matrix_form _ _ _ M)).
  destruct (proj2 (matrix_entry h w m j i M)) as (x & E); [lia|]. rewrite E. apply (full_entry h w ds m j i x H E).
Qed.

(* Dot *)
Lemma calc_ok h k w a b i j : is_matrix h k a -> is_matrix k w b -> i < h -> j < w ->
  exists prods, calc_ij (S i) (S j) k a b = Some (EExpr (sys "Plus" :: prods)) /\ length prods = k /\
    forall q, q < k -> exists x y, entry a i q = Some x /\ entry b q j = Some y /\ nth_error prods q = Some (EExpr [sys "Times"; x; y]).
Proof.
  intros A B Hi Hj. unfold calc_ij.
  rewrite (loop_some _ (fun k0 => EExpr [sys "Times"; match mat_elem a (S i) k0 with Some x => x | None => sNull end;
                                                     match mat_elem b k0 (S j) with Some x => x | None => sNull end])).
  - eexists. split; [reflexivity|]. split; [rewrite map_length, seq_length; reflexivity|].
    intros q Hq. destruct (proj2 (matrix_entry h k a i q A)) as (x & Ex); [lia|].
    destruct (proj2 (matrix_entry k w b q j B)) as (y & Ey); [lia|].
    exists x, y. split; [assumption|]. split; [assumption|].
    rewrite nth_error_map_seq. destruct (Nat.ltb_spec q k); [|lia].
    rewrite (mat_elem_entry a i q (matrix_form _ _ _ A)), (mat_elem_entry b q j (matrix_form _ _ _ B)), Ex, Ey. reflexivity.
  - intros q Hq. apply in_seq in Hq. rewrite (sprop_elem h k a (S i) q A), (sprop_elem k w b q (S j) B); try lia. reflexivity.
Qed.
Lemma matrixQ_full h w m : full_array sList [h; w] m -> matrixQ m = true /\ vectorQ m = false.
Proof.
  intros H. assert (D := dimensions_full _ _ _ H). destruct (full_matrix _ _ _ _ H) as [M Hh].
  destruct M as (rows & -> & L & R). split.
  - unfold matrixQ. change (args_of (mkList rows) nList) with (Some rows). rewrite D by discriminate. reflexivity.
  - unfold vectorQ. change (args_of (mkList rows) nList) with (Some rows).
    destruct rows as [|r t]; [cbn in L; lia|]. destruct (R r (or_introl eq_refl)) as (row & -> & _). reflexivity.
Qed.
Lemma dot_ok h k w a b : full_array sList [h; k] a -> full_array sList [k; w] b ->
  dot_eval [a; b] = MResult (tabm h w (fun i j => match calc_ij i j k a b with Some x => x | None => sNull end)).
Proof.
  intros A B. destruct (matrixQ_full _ _ _ A) as [Ma Va]. destruct (matrixQ_full _ _ _ B) as [Mb Vb].
  unfold dot_eval. rewrite Va, Ma, Mb. cbn [andb]. rewrite (dimensions_full _ _ _ A), (dimensions_full _ _ _ B) by discriminate.
  rewrite Nat.eqb_refl.
  rewrite (build_some _ _ _ (fun i j => match calc_ij i j k a b with Some x => x | None => sNull end)); [reflexivity|].
  intros i j Hi Hj. destruct i as [|i], j as [|j]; try lia.
  destruct (calc_ok h k w a b i j) as (p & -> & _); try lia; try reflexivity; eapply full_matrix; eassumption.
Qed.
Lemma dot_mismatch h k k' w a b : full_array sList [h; k] a -> full_array sList [k'; w] b -> k <> k' ->
  dot_eval [a; b] = MUnchanged.
Proof.
  intros A B N. destruct (matrixQ_full _ _ _ A) as [Ma Va]. destruct (matrixQ_full _ _ _ B) as [Mb Vb].
  unfold dot_eval. rewrite Va, Ma, Mb. cbn [andb]. rewrite (dimensions_full _ _ _ A), (dimensions_full _ _ _ B) by discriminate.
  destruct (Nat.eqb_spec k k'); [contradiction|reflexivity].
Qed.
Lemma plus_leaf l : full_array sList [] (EExpr (sys "Plus" :: l)).
Proof.
  constructor. intros (h' & t & X & Y). injection X as <- <-. vm_compute in Y. discriminate.
Qed.
Lemma dot_full h k w a b m : full_array sList [h; k] a -> full_array sList [k; w] b ->
  dot_eval [a; b] = MResult m -> full_array sList [h; w] m.
Proof.
  intros A B. rewrite (dot_ok _ _ _ _ _ A B). intros E. injection E as <-.
  destruct (full_matrix _ _ _ _ A) as [MA Hh]. destruct (full_matrix _ _ _ _ B) as [MB _].
  apply full_tab; [assumption|reflexivity|].
  intros i j Hi Hj. destruct i as [|i], j as [|j]; try lia.
  destruct (calc_ok h k w a b i j) as (p & -> & _); try lia; try assumption. apply plus_leaf.
Qed.

(* semiring sums *)
Section Sums.
Context {R : semiring}.
Lemma ssum_app (l1 l2 : list R) : ssum (l1 ++ l2) = sadd (ssum l1) (ssum l2).
Proof. induction l1 as [|x t IH]; cbn [app ssum fold_right]; [now rewrite sadd_0|]. change (sadd x (ssum (t ++ l2)) = sadd (sadd x (ssum t)) (ssum l2)). rewrite IH. apply sadd_assoc. Qed.
Lemma smul_ssum_l (x : R) l : smul x (ssum l) = ssum (map (smul x) l).
Proof.
  induction l as [|y t IH]; [apply smul_0_r|]. cbn [map]. change (smul x (sadd y (ssum t)) = sadd (smul x y) (ssum (map (smul x) t))).
  rewrite smul_add_l, IH. reflexivity.
Qed.
Lemma smul_ssum_r (x : R) l : smul (ssum l) x = ssum (map (fun y => smul y x) l).
Proof.
  induction l as [|y t IH]; [apply smul_0_l|]. cbn [map]. change (smul (sadd y (ssum t)) x = sadd (smul y x) (ssum (map (fun y => smul y x) t))).
  rewrite smul_add_r, IH. reflexivity.
Qed.
Lemma sprod_app (l1 l2 : list R) : sprod (l1 ++ l2) = smul (sprod l1) (sprod l2).
Proof. induction l1 as [|x t IH]; cbn [app sprod fold_right]; [now rewrite smul_1_l|]. change (smul x (sprod (t ++ l2)) = smul (smul x (sprod t)) (sprod l2)). rewrite IH. apply smul_assoc. Qed.
Lemma ssum_add {A} (f g : A -> R) l : ssum (map (fun x => sadd (f x) (g x)) l) = sadd (ssum (map f l)) (ssum (map g l)).
Proof.
  induction l as [|x t IH]; [symmetry; apply sadd_0|]. cbn [map].
  change (sadd (sadd (f x) (g x)) (ssum (map (fun x => sadd (f x) (g x)) t)) = sadd (sadd (f x) (ssum (map f t))) (sadd (g x) (ssum (map g t)))).
  rewrite IH. rewrite <- !sadd_assoc. f_equal. rewrite !sadd_assoc. f_equal. apply sadd_comm.
Qed.
Lemma ssum_zero {A} (l : list A) : ssum (map (fun _ => szero) l) = (szero : R).
Proof. induction l as [|x t IH]; [reflexivity|]. cbn [map ssum fold_right]. rewrite sadd_0. exact IH. Qed.
Lemma ssum_swap {A B} (f : A -> B -> R) l m :
  ssum (map (fun x => ssum (map (f x) m)) l) = ssum (map (fun y => ssum (map (fun x => f x y) l)) m).
Proof.
  induction l as [|x t IH]; cbn [map]; [cbn; symmetry; apply ssum_zero|].
  change (sadd (ssum (map (f x) m)) (ssum (map (fun x => ssum (map (f x) m)) t)) = ssum (map (fun y => sadd (f x y) (ssum (map (fun x => f x y) t))) m)).
  rewrite IH, ssum_add. reflexivity.
Qed.
Lemma ssum_flat {A} (f : A -> list R) l : ssum (flat_map f l) = ssum (map (fun x => ssum (f x)) l).
Proof. induction l as [|x t IH]; [reflexivity|]. cbn [flat_map map]. rewrite ssum_app, IH. reflexivity. Qed.

(* the product of the sums is the sum over all choices of the products *)
Lemma prod_of_sums {A} (v : A -> R) (l : list (list A)) :
  sprod (map (fun s => ssum (map v s)) l) = ssum (map (fun c => sprod (map v c)) (choices l)).
Proof.
  induction l as [|s t IH].
  - cbn. rewrite sadd_comm, sadd_0. reflexivity.
  - cbn [map choices]. change (smul (ssum (map v s)) (sprod (map (fun s => ssum (map v s)) t)) = ssum (map (fun c => sprod (map v c)) (flat_map (fun x => map (cons x) (choices t)) s))).
    rewrite IH, smul_ssum_r, map_map. rewrite flat_map_concat_map, concat_map, map_map, <- flat_map_concat_map, ssum_flat.
    f_equal. apply map_ext. intros x. rewrite smul_ssum_l, !map_map. reflexivity.
Qed.
End Sums.

Lemma distribute_choices p built rest : head_hash_faithful p rest ->
  distribute p built rest = map (fun c => EExpr (built ++ c)) (choices (map (summands p) rest)).
Proof.
  revert built. induction rest as [|x r IH]; intros built HF; [cbn; now rewrite app_nil_r|].
  assert (HF' : head_hash_faithful p r) by (intros h t Hi He; exact (HF h t (or_intror Hi) He)).
  assert (One : distribute p (built ++ [x]) r =
                map (fun c => EExpr (built ++ c)) (flat_map (fun y => map (cons y) (choices (map (summands p) r))) [x])).
  { rewrite IH by assumption. cbn [flat_map]. rewrite app_nil_r, map_map. apply map_ext. intros c. now rewrite <- app_assoc. }
  cbn [distribute map choices]. destruct x as [| | | | | |[|h' t]]; try exact One.
  cbn [summands]. destruct (N.eqb_spec (hash h') (hash p)) as [E|E].
  - assert (h' = p) by (apply (HF h' t); [now left|assumption]). subst h'.
    destruct (ex_eqb p p) eqn:EE; [|exfalso; assert (X := proj2 (ex_eqb_eq p p) eq_refl); congruence].
    rewrite !flat_map_concat_map, concat_map, map_map. f_equal. apply map_ext. intros d.
    rewrite IH by assumption. rewrite map_map. apply map_ext. intros c. now rewrite <- app_assoc.
  - destruct (ex_eqb h' p) eqn:EE; [|exact One]. exfalso. apply E. f_equal. now apply ex_eqb_eq.
Qed.
