(* Property theorems: the list functions of the library (C103-C106). *)
From Verif Require Import M_Syntax M_Float M_Hash M_Num M_Arith M_NumTheory M_Compare M_Match M_List M_Functional M_LibList
  S_Syntax S_Num S_List S_LibList P_Hash P_Num P_List P_Alloc P_MatchFuel P_MatchComplete T_Num T_List T_Functional.
From Coq Require Import Sorted QArith.
Open Scope nat_scope.

Local Definition a := ESym "Global`a".
Local Definition b := ESym "Global`b".
Local Definition c := ESym "Global`c".
Local Definition f := ESym "Global`f".

(* ------------------------------------------------------------------ C103 *)
Local Lemma len_value h l : length_value (EExpr (h :: l)) = Z.of_nat (length l).
Proof. unfold length_value, length_eval. cbn [length]. lia. Qed.
Local Lemma len_pos h x l : (1 <=? length_value (EExpr (h :: x :: l)))%Z = true.
Proof. rewrite len_value. cbn [length]. apply Z.leb_le. lia. Qed.
Local Lemma small_int64 (h : ex) (l : list ex) k : k <= length l -> in_int64 (Z.of_nat (length l)) -> in_int64 (Z.of_nat k).
Proof. unfold in_int64. lia. Qed.
Local Lemma forall2_self (A : Type) (R : A -> A -> Prop) l : (forall x, R x x) -> Forall2 R l l.
Proof. intro H. induction l; constructor; auto. Qed.

(* First[h[x, ...]] is x; First of something without arguments stays *)
Theorem C103_first : forall h x l, first_m (EExpr (h :: x :: l)) = Some x.
Proof.
  intros h x l. unfold first_m. rewrite len_pos. unfold part_value.
  change (EInt 1) with (EInt (Z.of_nat 1)). rewrite (C41_integer_index h (x :: l) 1 x).
  - reflexivity.
  - cbn. lia.
  - unfold in_int64. cbn. lia.
  - reflexivity.
Qed.
Print Assumptions C103_first.
(* Last[h[..., x]] is x *)
Theorem C103_last : forall h l x, in_int64 (Z.of_nat (S (length l))) -> last_m (EExpr (h :: l ++ [x])) = Some x.
Proof.
  intros h l x I. unfold last_m. rewrite len_value, app_length. cbn [length].
  destruct (Z.leb_spec 1 (Z.of_nat (length l + 1))); [|lia]. unfold part_value.
  rewrite (C41_integer_index h (l ++ [x]) (length l + 1) x).
  - reflexivity.
  - rewrite app_length. cbn. lia.
  - replace (length l + 1) with (S (length l)) by lia. exact I.
  - replace (length l + 1) with (S (length l)) by lia. cbn [nth_error].
    rewrite nth_error_app2 by lia. rewrite Nat.sub_diag. reflexivity.
Qed.
Print Assumptions C103_last.
(* Rest[h[x, l...]] is h[l...] *)
Theorem C103_rest : forall h x l, rest_m (EExpr (h :: x :: l)) = Some (EExpr (h :: l)).
Proof.
  intros h x l. unfold rest_m. rewrite len_pos. unfold part_value.
  assert (P : part_eval [EExpr (h :: x :: l); span (EInt 2) (sys "All")] = Some (EExpr (h :: l))).
  { apply C41_part.
    - constructor; [|constructor]. cbn. unfold in_int64. lia.
    - apply (po_span_all [] h [x] l l). apply forall2_self. intro. constructor. }
  rewrite P. reflexivity.
Qed.
Print Assumptions C103_rest.
(* an expression without arguments, or an atom, has no first, last or rest *)
Theorem C103_nothing : forall e, (exists h, e = EExpr [h]) \/ (forall l, e <> EExpr l) ->
  first_m e = None /\ last_m e = None /\ rest_m e = None.
Proof.
  intros e H. unfold first_m, last_m, rest_m. destruct H as [[h ->]|H].
  - repeat split.
  - destruct e as [s|s|z|n d|g|a1 a2|l]; [repeat split ..|destruct (H l eq_refl)].
Qed.
Print Assumptions C103_nothing.
(* Prepend[Rest[e], First[e]] is e *)
Theorem C103_first_rest : forall e x r, first_m e = Some x -> rest_m e = Some r -> prepend_eval [r; x] = Some e.
Proof.
  intros e x r F R. destruct e as [s|s|z|n d|g|a1 a2|[|h [|y l]]]; try discriminate F.
  rewrite C103_first in F. injection F as <-. rewrite C103_rest in R. injection R as <-. reflexivity.
Qed.
Print Assumptions C103_first_rest.

(* Take[e, m]: the first m elements.  Full statement: for all 0 <= m <= n, and the
   last -m elements for -n <= m < 0. *)
Theorem C103_take_partial : forall h l1 l2, l1 <> [] -> in_int64 (Z.of_nat (length (l1 ++ l2))) ->
  take_m (EExpr (h :: l1 ++ l2)) (Z.of_nat (length l1)) = EExpr (h :: l1).
Proof.
  intros h l1 l2 N I. unfold take_m. rewrite app_length in I.
  destruct (Z.ltb_spec 0 (Z.of_nat (length l1))) as [_|L]; [|destruct l1; [contradiction|cbn in L; lia]].
  unfold part_value.
  assert (P : part_eval [EExpr (h :: l1 ++ l2); span (EInt 1) (EInt (Z.of_nat (length l1)))] = Some (EExpr (h :: l1))).
  { apply C41_part.
    - constructor; [|constructor]. unfold span, index_ok, in_int64 in *. lia.
    - apply (po_span [] h [] l1 l2 l1). apply forall2_self. intro. constructor. }
  rewrite P. reflexivity.
Qed.
Print Assumptions C103_take_partial.
(* Take[e, {m, n}]: the elements number m to n *)
Theorem C103_take_range : forall h l1 l2 l3, in_int64 (Z.of_nat (length (l1 ++ l2 ++ l3)) + 1) ->
  take_from_to (EExpr (h :: l1 ++ l2 ++ l3)) (Z.of_nat (length l1) + 1) (Z.of_nat (length l1) + Z.of_nat (length l2))
  = EExpr (h :: l2).
Proof.
  intros h l1 l2 l3 I. unfold take_from_to, part_value. rewrite !app_length in I.
  assert (P : part_eval [EExpr (h :: l1 ++ l2 ++ l3); span (EInt (Z.of_nat (length l1) + 1)) (EInt (Z.of_nat (length l1) + Z.of_nat (length l2)))]
              = Some (EExpr (h :: l2))).
  { apply C41_part.
    - constructor; [|constructor]. unfold span, index_ok, in_int64 in *. lia.
    - replace (Z.of_nat (length l1) + 1)%Z with (Z.of_nat (length l1 + 1)) by lia.
      replace (Z.of_nat (length l1) + Z.of_nat (length l2))%Z with (Z.of_nat (length l1 + length l2)) by lia.
      apply (po_span [] h l1 l2 l3 l2). apply forall2_self. intro. constructor. }
  rewrite P. reflexivity.
Qed.
Print Assumptions C103_take_range.
(* too many elements: the Part stays in the result *)
Theorem C103_take_too_many : forall h l m, in_int64 m -> (Z.of_nat (length l) < m)%Z ->
  take_m (EExpr (h :: l)) m = EExpr [sys "Part"; EExpr (h :: l); span (EInt 1) (EInt m)].
Proof.
  intros h l m I L. unfold take_m. destruct (Z.ltb_spec 0 m); [|lia]. unfold part_value.
  destruct (part_eval [EExpr (h :: l); span (EInt 1) (EInt m)]) as [x|] eqn:E; [|reflexivity]. exfalso.
  apply C41_part in E; [|constructor; [unfold span, index_ok, in_int64 in *; lia|constructor]].
  remember [span (EInt 1) (EInt m)] as ix eqn:Ei. remember (EExpr (h :: l)) as e eqn:Ee.
  destruct E as [e|k r parts p x Hn Hp|r h' args out Hf|r h' b0 mid aft out Hf|r h' b0 mid out Hf]; try discriminate Ei.
  injection Ei as E1 E2 E3. injection Ee as Eh El. rewrite <- El, !app_length in L. lia.
Qed.
Print Assumptions C103_take_too_many.

(* Take[e, 0], Take[e, -m] and Take[e, {1, 3, 2}] are not taken at all *)
Theorem C103_take_zero_refuted : exists e, take_m e 0 = EExpr [sys "Part"; e; span (EInt 0) (EInt (-1))].
Proof. exists (mkList [a; b]). reflexivity. Qed.
Print Assumptions C103_take_zero_refuted.
Theorem C103_take_last_refuted : exists x y z,
  take_m (mkList [x; y; z]) (-2) = EExpr [sys "Part"; mkList [x; y; z]; span (EInt (-2)) (EInt (-1))].
Proof. exists a, b, c. reflexivity. Qed.
Print Assumptions C103_take_last_refuted.
Theorem C103_take_step_refuted : exists x y z, exists ix,
  take_step (mkList [x; y; z]) 1 3 2 = EExpr [sys "Part"; mkList [x; y; z]; ix].
Proof. exists a, b, c. eexists. reflexivity. Qed.
Print Assumptions C103_take_step_refuted.
Example C103_ex :
  first_m (EExpr [f; a; b]) = Some a /\ last_m (mkList [a; b; c]) = Some c /\ rest_m (mkList [a; b; c]) = Some (mkList [b; c]) /\
  rest_m (EExpr [f; a]) = Some (EExpr [f]) /\ take_m (mkList [a; b; c]) 2 = mkList [a; b] /\
  take_from_to (mkList [a; b; c; f]) 2 3 = mkList [b; c] /\ first_m (mkList []) = None /\ in_int64 (Z.of_nat 3).
Proof. repeat split; cbn; lia. Qed.

(* ------------------------------------------------------------------ C104 *)
(* Total of exact numbers is their sum, in lowest terms *)
Theorem C104_total : forall l, (forall e, In e l -> exact_real e = true) -> canonical_of (qsum l) (total_m l).
Proof.
  intros l H. unfold total_m. destruct l as [|x l]; [cbn; reflexivity|].
  destruct (C02_exact_sum (x :: l)) as (r & E & C); [discriminate|exact H|].
  unfold plus_eval. rewrite E. exact C.
Qed.
Print Assumptions C104_total.

Local Lemma inverse_length n : (0 < n)%Z -> exists e, eval_rational_call (power_int n (-1)) = e /\ exact_real e = true /\ canonical_of (/ inject_Z n)%Q e.
Proof.
  intro P. unfold power_int. change ((-1) =? 1)%Z with false. change ((-1) =? 0)%Z with false. cbn [Z.ltb Z.compare andb].
  change (Z.abs (-1)) with 1%Z. rewrite Z.pow_1_r.
  destruct (Z.eqb_spec n 1) as [->|N1].
  - exists (EInt 1). split; [reflexivity|]. split; [reflexivity|]. cbn. reflexivity.
  - destruct (Z.eqb_spec n (-1)) as [->|N2]; [lia|].
    exists (eval_rational 1 n). split; [reflexivity|].
    assert (C : canonical_of (/ inject_Z n)%Q (eval_rational 1 n)).
    { pose proof (C01_rational_canonical 1 n ltac:(lia)) as C. revert C. apply canonical_proper.
      destruct n as [|p|p]; [lia| |lia]. reflexivity. }
    split; [|exact C]. clear P N1 N2. unfold canonical_of in C. destruct (eval_rational 1 n) as [s|s|z|p q|g|a1 a2|l]; try contradiction; try reflexivity.
    cbn [exact_real]. destruct C as [Q _]. destruct (Z.eqb_spec q 0); [lia|reflexivity].
Qed.
Local Lemma canonical_exact q e : canonical_of q e -> exact_real e = true /\ (qval0 e == q)%Q.
Proof.
  unfold canonical_of, qval0. destruct e as [s|s|z|n d|g|a1 a2|l]; try contradiction; intro C.
  - split; [reflexivity|]. symmetry. exact C.
  - destruct C as (D & _ & E). cbn [exact_real qval]. destruct (Z.eqb_spec d 0); [lia|]. split; [reflexivity|].
    rewrite E. reflexivity.
Qed.
(* Mean of exact numbers is their sum divided by their number *)
Theorem C104_mean : forall l, l <> [] -> (forall e, In e l -> exact_real e = true) ->
  canonical_of (qsum l / inject_Z (Z.of_nat (length l))) (mean_m l).
Proof.
  intros l N H. pose proof (C104_total l H) as T. unfold mean_m.
  destruct (inverse_length (Z.of_nat (length l))) as (i & Ei & Xi & Ci); [destruct l; [contradiction|cbn; lia]|].
  rewrite Ei.
  destruct (canonical_exact _ _ T) as [Xt Vt]. destruct (canonical_exact _ _ Ci) as [_ Vi].
  destruct (C02_exact_product [total_m l; i]) as (r & E & C).
  { discriminate. }
  { intros e [<-|[<-|[]]]; assumption. }
  unfold times_eval. rewrite E.
  match goal with |- canonical_of _ (eval_number ?m) => assert (Em : m = r) by (destruct r as [ | |[|p|p]| | | | ]; reflexivity); rewrite Em end.
  revert C. apply canonical_proper.
  unfold qprod. cbn [fold_right]. rewrite Vt, Vi. unfold Qdiv. ring.
Qed.
Print Assumptions C104_mean.
Theorem C104_total_order : forall l l', Permutation.Permutation l l' -> (forall e, In e l -> exact_real e = true) ->
  total_m l = total_m l'.
Proof.
  intros l l' P H. destruct l as [|x l]; [apply Permutation.Permutation_nil in P; subst; reflexivity|].
  assert (N' : l' <> []) by (intros ->; apply Permutation.Permutation_sym, Permutation.Permutation_nil in P; discriminate).
  assert (H' : forall e, In e l' -> exact_real e = true)
    by (intros e He; apply H, (Permutation.Permutation_in _ (Permutation.Permutation_sym P) He)).
  destruct (C02_exact_sum (x :: l)) as (r & E & _); [discriminate|exact H|].
  destruct (C02_exact_sum l') as (r' & E' & _); [exact N'|exact H'|].
  pose proof (C02_order_independent FoldAdd (x :: l) l' r r' ltac:(discriminate) H P E E') as Q.
  unfold total_m, plus_eval. destruct l' as [|y l']; [contradiction|]. rewrite E, E'. exact Q.
Qed.
Print Assumptions C104_total_order.

(* Count[e, p]: the number of elements of e that match p *)
Local Lemma count_walk env pat h l : forall n,
  walk (count_cb env pat) (LS false false 1 1) [] (EExpr (h :: l)) n
  = (EExpr (h :: l), (n + Z.of_nat (length (filter (fun x => matchq_eval env x pat) l)))%Z).
Proof.
  intro n. cbn [walk].
  match goal with |- (let '(_, _) := ?X in _) = _ =>
    enough (G : X = (l, (n + Z.of_nat (length (filter (fun x => matchq_eval env x pat) l)))%Z)) by (rewrite G; reflexivity) end.
  cbn [app length ls_max ls_min]. change (Z.of_nat 1) with 1%Z. change (1 <? 1)%Z with false. change (1 <=? 1)%Z with true. cbv iota.
  match goal with |- ?g 1%Z l n = _ => set (go := g) end.
  enough (G : forall l i n, go i l n = (l, (n + Z.of_nat (length (filter (fun x => matchq_eval env x pat) l)))%Z)) by apply G.
  clear l n. induction l as [|x l IH]; intros i n; [cbn [filter length]; rewrite Z.add_0_r; reflexivity|].
  assert (U : go i (x :: l) n = let '(x2, s2) := count_cb env pat x [i] n in let '(t', s3) := go (i + 1)%Z l s2 in (x2 :: t', s3)) by (destruct x; reflexivity).
  rewrite U. unfold count_cb. rewrite IH.
  cbn [filter]. destruct (matchq_eval env x pat); cbn [length]; f_equal; lia.
Qed.
Theorem C104_count : forall env h l pat, exists yes no,
  count_m env (EExpr (h :: l)) pat = Some (EInt (Z.of_nat (length yes))) /\
  Permutation.Permutation l (yes ++ no) /\
  (forall x, In x yes -> matchq_eval env x pat = true) /\ (forall x, In x no -> matchq_eval env x pat = false).
Proof.
  intros env h l pat. exists (filter (fun x => matchq_eval env x pat) l), (filter (fun x => negb (matchq_eval env x pat)) l).
  split; [|split; [|split]].
  - unfold count_m, count_eval. change (parse_level_spec (mkList [EInt 1])) with (Some (LS false false 1 1)).
    unfold level_apply. cbn [ls_min ls_max ls_mind ls_maxd]. change ((1 =? 0) && (1 =? 0))%Z with false. cbn [negb andb].
    rewrite (count_walk env pat h l 0). reflexivity.
  - clear h. induction l as [|x l IH]; [constructor|]. cbn [filter]. destruct (matchq_eval env x pat); cbn [negb app].
    + constructor. exact IH.
    + apply Permutation.Permutation_cons_app. exact IH.
  - intros x Hx. apply filter_In in Hx. apply Hx.
  - intros x Hx. apply filter_In in Hx. destruct Hx as [_ Hx]. apply negb_true_iff in Hx. exact Hx.
Qed.
Print Assumptions C104_count.

(* Tally: every different element with the number of its occurrences.  Full
   statement: for all lists.  Proved for lists of symbols, strings and integers
   whose hashes are different. *)
Definition simple (e : ex) : Prop := match e with ESym _ | EStr _ | EInt _ => True | _ => False end.
Local Lemma simple_match env x y : simple x -> simple y -> matchq_eval env x y = N.eqb (hash x) (hash y).
Proof.
  intros Hx Hy. unfold matchq_eval, is_match_q. rewrite match_iter_eq, mi_step_normal by (intros s args ->; destruct Hy).
  replace (N.eqb (hash x) (hash y)) with (is_sameq x y) by (destruct x; try contradiction; destruct y; try contradiction; reflexivity).
  unfold match_normal. destruct y; try contradiction; destruct x; try contradiction; cbn [verbatim_op is_blank_type_only assume_head];
    match goal with |- context [is_sameq ?p ?q] => set (h := is_sameq p q); clearbody h end; destruct h; reflexivity.
Qed.
Local Lemma filter_occurs x l : (forall y, In y l -> hash y = hash x -> y = x) ->
  occurs_times x l (length (filter (fun y => N.eqb (hash y) (hash x)) l)).
Proof.
  induction l as [|y l IH]; intro F; [constructor|]. cbn [filter]. destruct (N.eqb_spec (hash y) (hash x)) as [E|E].
  - rewrite (F y (or_introl eq_refl) E). constructor. apply IH. intros z Hz. apply F. right. exact Hz.
  - constructor; [intros ->; apply E; reflexivity|]. apply IH. intros z Hz. apply F. right. exact Hz.
Qed.
Theorem C104_tally_partial : forall env l, (forall x, In x l -> simple x) -> hash_faithful l ->
  exists ds ns, tally_list env l = Some (mkList (map (fun q => mkList [fst q; EInt (Z.of_nat (snd q))]) (combine ds ns))) /\
    length ds = length ns /\ NoDup ds /\ (forall x, In x ds <-> In x l) /\ Forall2 (fun x n => occurs_times x l n) ds ns.
Proof.
  intros env l S F. destruct (C42_delete_duplicates_set (sys "List") l F) as (ds & E & ND & IN).
  set (cnt := fun x => length (filter (fun y => N.eqb (hash y) (hash x)) l)).
  exists ds, (map cnt ds). split; [|split; [|split; [exact ND|split; [exact IN|]]]].
  - unfold tally_list. change (mkList l) with (EExpr (sys "List" :: l)). rewrite E.
    unfold mkList at 2. do 3 f_equal.
    assert (G : forall d, (forall x, In x d -> In x l) ->
      map (fun x => mkList [x; match count_m env (EExpr (sys "List" :: l)) x with Some n => n | None => sNull end]) d
      = map (fun q => mkList [fst q; EInt (Z.of_nat (snd q))]) (combine d (map cnt d))).
    { induction d as [|x d IH]; intro I; [reflexivity|]. cbn [map combine fst snd]. f_equal.
      - do 3 f_equal. unfold count_m, count_eval. change (parse_level_spec (mkList [EInt 1])) with (Some (LS false false 1 1)).
        unfold level_apply. cbn [ls_min ls_max ls_mind ls_maxd]. change ((1 =? 0) && (1 =? 0))%Z with false. cbn [negb andb].
        rewrite (count_walk env x (sys "List") l 0).
        change (check_level (LS false false 1 1) 0 && check_depth (LS false false 1 1) 0) with false. cbv iota. cbn [snd].
        rewrite Z.add_0_l. unfold cnt. do 3 f_equal. apply filter_ext_in. intros y Hy.
        apply simple_match; [apply S; exact Hy|apply S; apply I; left; reflexivity].
      - apply IH. intros y Hy. apply I. right. exact Hy. }
    apply G. intros x Hx. apply IN. exact Hx.
  - rewrite map_length. reflexivity.
  - assert (G : forall d, (forall x, In x d -> In x l) -> Forall2 (fun x n => occurs_times x l n) d (map cnt d)).
    { induction d as [|x d IH]; intro I; constructor.
      - apply filter_occurs. intros y Hy Eh. apply F; [exact Hy|apply I; left; reflexivity|exact Eh].
      - apply IH. intros y Hy. apply I. right. exact Hy. }
    apply G. intros x Hx. apply IN. exact Hx.
Qed.
Print Assumptions C104_tally_partial.
(* the elements are used as patterns: Tally[{_, 1}] says that _ occurs twice *)
Theorem C104_tally_refuted : exists env l,
  tally_list env l = Some (mkList [mkList [EExpr [sys "Blank"]; EInt 2]; mkList [EInt 1; EInt 1]]) /\ length l = 2.
Proof.
  exists (MEnv (fun _ => false) (fun _ => false) (fun _ => false) (fun _ => None) (fun _ => false)), [EExpr [sys "Blank"]; EInt 1].
  split; [vm_compute; reflexivity|reflexivity].
Qed.
Print Assumptions C104_tally_refuted.
Example C104_ex : let env := MEnv (fun _ => false) (fun _ => false) (fun _ => false) (fun _ => None) (fun _ => false) in
  total_m [EInt 1; ERat 1 2; ERat 3 2] = EInt 3 /\ mean_m [EInt 1; EInt 2; EInt 4] = ERat 7 3 /\ mean_m [EInt 5] = EInt 5 /\
  count_m env (mkList [a; EInt 1; EInt 2]) (EExpr [sys "Blank"; sys "Integer"]) = Some (EInt 2) /\
  tally_list env [a; b; a; EInt 1] = Some (mkList [mkList [a; EInt 2]; mkList [b; EInt 1]; mkList [EInt 1; EInt 1]]).
Proof. repeat split; vm_compute; reflexivity. Qed.

(* ------------------------------------------------------------------ C105 *)
Local Lemma fold_list_last g l : forall x, exists v r, x :: fold_list_loop g x l = r ++ [v] /\ length r = length l /\ folded g x l v.
Proof.
  induction l as [|y l IH] using rev_ind; intro x.
  - exists x, []. repeat split. constructor.
  - destruct (IH x) as (v & r & E & L & F). exists (EExpr [g; v; y]), (x :: fold_list_loop g x l).
    assert (G : forall m x, fold_list_loop g x (m ++ [y]) = fold_list_loop g x m ++ [EExpr [g; last (x :: fold_list_loop g x m) sNull; y]]).
    { clear. induction m as [|z m IH]; intro x; [reflexivity|]. cbn [app fold_list_loop]. rewrite IH. cbn [app]. do 2 f_equal. }
    split; [|split].
    + cbn [app]. rewrite G. rewrite E. rewrite last_last. reflexivity.
    + cbn [length]. rewrite app_length. cbn [length].
      assert (K : forall m x, length (fold_list_loop g x m) = length m) by (clear; induction m; intro; cbn; auto).
      rewrite K. lia.
    + constructor. exact F.
Qed.
(* Fold[f, x, h[a1, ..., an]] is f[... f[f[x, a1], a2] ..., an] *)
Theorem C105_fold : forall g x h l, in_int64 (Z.of_nat (S (length l))) ->
  exists v, fold_m g x (EExpr (h :: l)) = v /\ folded g x l v.
Proof.
  intros g x h l I. destruct (fold_list_last g l x) as (v & r & E & L & F). exists v. split; [|exact F].
  unfold fold_m, fold_list_eval. rewrite E. unfold last_value. rewrite C103_last; [reflexivity|]. rewrite L. exact I.
Qed.
Print Assumptions C105_fold.
(* Fold[f, h[x, a1, ..., an]] starts with the first element *)
Theorem C105_fold_first : forall g h x l, in_int64 (Z.of_nat (S (length l))) ->
  exists v, fold2_m g (EExpr (h :: x :: l)) = v /\ folded g x l v.
Proof.
  intros g h x l I. unfold fold2_m, first_value, rest_value. rewrite C103_first, C103_rest. apply C105_fold. exact I.
Qed.
Print Assumptions C105_fold_first.
(* Fold[f, {}] is f[First[{}], {}] *)
Theorem C105_fold_empty_refuted : exists g,
  fold2_m g (mkList []) = EExpr [g; EExpr [sys "First"; mkList []]; mkList []].
Proof. exists f. reflexivity. Qed.
Print Assumptions C105_fold_empty_refuted.
(* Fold of an atom gives back the atom *)
Theorem C105_fold_atom_refuted : exists g x y, fold_m g x y = y.
Proof. exists f, a, b. reflexivity. Qed.
Print Assumptions C105_fold_atom_refuted.

Local Lemma nest_last g n : forall x, exists v r, x :: nest_loop g x n = r ++ [v] /\ length r = n /\ nested g x (Z.of_nat n) v.
Proof.
  assert (G : forall n x, nest_loop g x (S n) = nest_loop g x n ++ [EExpr [g; last (x :: nest_loop g x n) sNull]]).
  { induction n0 as [|n0 IH]; intro x; [reflexivity|]. change (nest_loop g x (S (S n0))) with (EExpr [g; x] :: nest_loop g (EExpr [g; x]) (S n0)).
    rewrite IH. cbn [nest_loop app]. do 2 f_equal. }
  induction n as [|n IH]; intro x.
  - exists x, []. repeat split. constructor.
  - destruct (IH x) as (v & r & E & L & N). exists (EExpr [g; v]), (x :: nest_loop g x n). split; [|split].
    + rewrite G, E, last_last. cbn [app]. rewrite <- E. reflexivity.
    + rewrite E, app_length. cbn [length]. lia.
    + replace (Z.of_nat (S n)) with (Z.of_nat n + 1)%Z by lia. constructor. exact N.
Qed.
(* Nest[f, x, n].  Full statement: for every n >= 0. *)
Theorem C105_nest_partial : forall g x n, (0 <= n < 2 ^ 63 - 1)%Z -> exists v, nest_m g x (EInt n) = v /\ nested g x n v.
Proof.
  intros g x n I. destruct (nest_last g (Z.to_nat n) x) as (v & r & E & L & N). exists v.
  rewrite Z2Nat.id in N by lia. split; [|exact N].
  unfold nest_m, nest_list_eval. rewrite wrap64_small by (unfold in_int64; lia).
  destruct (Z.ltb_spec n 0); [lia|]. rewrite E. unfold last_value, mkList.
  rewrite C103_last; [reflexivity|]. rewrite L. unfold in_int64. lia.
Qed.
Print Assumptions C105_nest_partial.
(* Nest[f, x, -1] is -1, and Nest[f, x, 2^64] is x *)
Theorem C105_nest_negative_refuted : exists g x n, (n < 0)%Z /\ nest_m g x (EInt n) = EInt n.
Proof. exists f, a, (-1)%Z. split; [lia|]. vm_compute. reflexivity. Qed.
Print Assumptions C105_nest_negative_refuted.
Theorem C105_nest_huge_refuted : exists g x n, (0 < n)%Z /\ nest_m g x (EInt n) = x.
Proof. exists f, a, (2 ^ 64)%Z. split; [lia|]. vm_compute. reflexivity. Qed.
Print Assumptions C105_nest_huge_refuted.
Example C105_ex :
  fold_m f a (mkList [b; c]) = EExpr [f; EExpr [f; a; b]; c] /\ fold2_m f (mkList [a; b]) = EExpr [f; a; b] /\
  nest_m f a (EInt 2) = EExpr [f; EExpr [f; a]] /\ in_int64 (Z.of_nat 3).
Proof. repeat split; try (vm_compute; reflexivity). cbn. lia. Qed.

(* ------------------------------------------------------------------ C106 *)
(* the tuples, as lists *)
Fixpoint tuples_list (l : list ex) (n : nat) : list (list ex) :=
  match n with
  | O => [[]]
  | S k => flat_map (fun x => map (cons x) (tuples_list l k)) l
  end.
Local Lemma tuples_value l n : tuples_m l n = Some (mkList (map mkList (tuples_list l n))).
Proof.
  induction n as [|n IH]; [reflexivity|]. cbn [tuples_m]. rewrite IH. unfold mkList at 1.
  set (row := fun x : ex => _).
  assert (R : forall x, flat_arg (sys "List") 1 (row x) = map mkList (map (cons x) (tuples_list l n))).
  { intro x. unfold row. cbn [flat_arg]. change (is_sameq (sys "List") sList) with (is_sameq (sys "List") (sys "List")). rewrite sameq_refl. change (0 <? 1)%Z with true. cbv beta iota delta [andb].
    change (1 - 1)%Z with 0%Z. rewrite !map_map. generalize (tuples_list l n). intro ts.
    induction ts as [|t ts IHt]; [reflexivity|]. cbn [map flat_map]. rewrite IHt. unfold mkList at 1. cbn [prepend_eval flat_arg].
    change (0 <? 0)%Z with false. reflexivity. }
  clearbody row. unfold flatten_eval, mkList at 1. change (wrap64 1) with 1%Z. unfold mkList at 1. f_equal. f_equal. f_equal.
  unfold flatten_args. cbn [tuples_list]. clear IH. revert R. generalize (tuples_list l n). intros ts R. induction l as [|x m IH]; [reflexivity|].
  cbn [map flat_map]. rewrite R, map_app. f_equal. exact IH.
Qed.
(* the positions of the tuples *)
Fixpoint positions (m n : nat) : list (list nat) :=
  match n with
  | O => [[]]
  | S k => flat_map (fun i => map (cons i) (positions m k)) (seq 0 m)
  end.
Local Lemma positions_in m n p : In p (positions m n) <-> length p = n /\ Forall (fun i => i < m) p.
Proof.
  revert p. induction n as [|n IH]; intro p; cbn [positions].
  - split.
    + intros [<-|[]]. split; [reflexivity|constructor].
    + intros [L _]. destruct p; [left; reflexivity|discriminate L].
  - rewrite in_flat_map. split.
    + intros (i & Hi & Hp). apply in_map_iff in Hp. destruct Hp as (q & <- & Hq). apply IH in Hq. destruct Hq as [L F].
      apply in_seq in Hi. split; [cbn; lia|]. constructor; [lia|exact F].
    + intros [L F]. destruct p as [|i q]; [discriminate L|]. injection L as L. apply Forall_cons_iff in F. destruct F as [Fi Fq].
      exists i. split; [apply in_seq; lia|]. apply in_map. apply IH. split; assumption.
Qed.
Local Lemma sorted_app A (R : A -> A -> Prop) l1 l2 : StronglySorted R l1 -> StronglySorted R l2 ->
  (forall x y, In x l1 -> In y l2 -> R x y) -> StronglySorted R (l1 ++ l2).
Proof.
  induction 1 as [|x l S IH F]; intros S2 H; [exact S2|]. cbn [app]. constructor.
  - apply IH; [exact S2|]. intros u v Hu. apply H. right. exact Hu.
  - apply Forall_forall. intros y Hy. apply in_app_iff in Hy. destruct Hy as [Hy|Hy].
    + apply (proj1 (Forall_forall _ _) F y Hy).
    + apply H; [left; reflexivity|exact Hy].
Qed.
Local Lemma positions_sorted m n : StronglySorted lex (positions m n).
Proof.
  induction n as [|n IH]; cbn [positions]; [repeat constructor|].
  assert (One : forall i, StronglySorted lex (map (cons i) (positions m n))).
  { intro i. induction IH as [|p ps S IHs F]; [constructor|]. cbn [map]. constructor; [exact IHs|].
    apply Forall_forall. intros q Hq. apply in_map_iff in Hq. destruct Hq as (r & <- & Hr). apply lex_later.
    apply (proj1 (Forall_forall _ _) F r Hr). }
  generalize 0. induction m as [|k IHm] using nat_ind.
  - intro s. clear. generalize (positions 0 n). intro l. constructor.
  - intro s. clear IHm. revert One. generalize (positions (S k) n). intros ps One. clear IH n.
    generalize (S k) as j. clear k. intro j. revert s. induction j as [|j IHj]; intro s; [constructor|]. cbn [seq flat_map].
    apply sorted_app; [apply One|apply IHj|].
    intros x y Hx Hy. apply in_map_iff in Hx. destruct Hx as (p & <- & _). apply in_flat_map in Hy.
    destruct Hy as (i & Hi & Hy). apply in_map_iff in Hy. destruct Hy as (q & <- & _). apply in_seq in Hi. constructor. lia.
Qed.
Local Lemma forall2_app A B (R : A -> B -> Prop) l1 l2 m1 m2 : Forall2 R l1 m1 -> Forall2 R l2 m2 -> Forall2 R (l1 ++ l2) (m1 ++ m2).
Proof. induction 1; [auto|]. intro H2. cbn [app]. constructor; auto. Qed.
Local Lemma positions_tuples l n : Forall2 (Forall2 (fun i x => nth_error l i = Some x)) (positions (length l) n) (tuples_list l n).
Proof.
  induction n as [|n IH]; [repeat constructor|]. cbn [positions tuples_list].
  assert (G : forall post pre, l = pre ++ post ->
    Forall2 (Forall2 (fun i x => nth_error l i = Some x)) (flat_map (fun i => map (cons i) (positions (length l) n)) (seq (length pre) (length post)))
      (flat_map (fun x => map (cons x) (tuples_list l n)) post)).
  { induction post as [|x post IHp]; intros pre E; [constructor|]. cbn [length seq flat_map]. apply forall2_app.
    - assert (Hx : nth_error l (length pre) = Some x) by (rewrite E, nth_error_app2, Nat.sub_diag by lia; reflexivity).
      clear IHp. revert IH. generalize (positions (length l) n), (tuples_list l n). intros ps ts F. clear E.
      induction F as [|p t ps ts Hp F IHF]; [constructor|]. cbn [map]. constructor; [constructor; assumption|exact IHF].
    - specialize (IHp (pre ++ [x])). rewrite app_length in IHp. cbn [length] in IHp. rewrite Nat.add_1_r in IHp.
      apply IHp. rewrite <- app_assoc. exact E. }
  apply (G l []). reflexivity.
Qed.
(* Tuples[{...}, n] lists every n-tuple, in lexicographic order of the positions *)
Theorem C106_tuples : forall l n, exists ts, tuples_m l n = Some (mkList (map mkList ts)) /\ all_tuples l n ts.
Proof.
  intros l n. exists (tuples_list l n). split; [apply tuples_value|]. exists (positions (length l) n).
  split; [apply positions_sorted|]. split; [intro p; apply positions_in|apply positions_tuples].
Qed.
Print Assumptions C106_tuples.
(* so every choice of n elements occurs, and nothing else *)
Theorem C106_tuples_members : forall l n, exists ts, tuples_m l n = Some (mkList (map mkList ts)) /\
  length ts = length l ^ n /\ (forall t, In t ts <-> length t = n /\ Forall (fun x => In x l) t) /\ (NoDup l -> NoDup ts).
Proof.
  intros l n. exists (tuples_list l n). split; [apply tuples_value|].
  induction n as [|n (L & I & D)]; cbn [tuples_list].
  - split; [reflexivity|]. split.
    + intro t. split.
      * intros [<-|[]]. split; [reflexivity|constructor].
      * intros [E _]. destruct t; [left; reflexivity|discriminate E].
    + intros _. constructor; [intros []|constructor].
  - split; [|split].
    + cbn [Nat.pow]. rewrite <- L. generalize (tuples_list l n). intro ts. clear. induction l as [|x l IH]; [reflexivity|].
      cbn [flat_map length]. rewrite app_length, map_length, IH. lia.
    + intro t. rewrite in_flat_map. split.
      * intros (x & Hx & Ht). apply in_map_iff in Ht. destruct Ht as (u & <- & Hu). apply I in Hu. destruct Hu as [Lu Fu].
        split; [cbn; lia|]. constructor; assumption.
      * intros [Lt Ft]. destruct t as [|x u]; [discriminate Lt|]. injection Lt as Lt. apply Forall_cons_iff in Ft. destruct Ft as [Fx Fu].
        exists x. split; [exact Fx|]. apply in_map. apply I. split; assumption.
    + intro ND. specialize (D ND). revert D. generalize (tuples_list l n). intros ts D. clear L I.
      assert (G : forall m, NoDup m -> NoDup (flat_map (fun x => map (cons x) ts) m)).
      { induction 1 as [|x m Hx Hm IH]; [constructor|]. cbn [flat_map]. apply NoDup_app_intro.
        - clear IH. induction D as [|t ts Ht D IH]; [constructor|]. cbn [map]. constructor; [|exact IH].
          intro K. apply in_map_iff in K. destruct K as (u & E & Hu). injection E as ->. contradiction.
        - exact IH.
        - intros t Ht K. apply in_map_iff in Ht. destruct Ht as (u & <- & _). apply in_flat_map in K.
          destruct K as (y & Hy & K). apply in_map_iff in K. destruct K as (v & E & _). injection E as -> _. contradiction. }
      apply G. exact ND.
Qed.
Print Assumptions C106_tuples_members.
Example C106_ex : tuples_m [a; EInt 1] 2 = Some (mkList [mkList [a; a]; mkList [a; EInt 1]; mkList [EInt 1; a]; mkList [EInt 1; EInt 1]]) /\
  tuples_m [mkList [a]; b] 1 = Some (mkList [mkList [mkList [a]]; mkList [b]]).
Proof. split; vm_compute; reflexivity. Qed.
