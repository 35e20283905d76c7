(* Property theorems: iterators (C39, C40). *)
From Verif Require Import M_Syntax M_Float M_Hash M_Order M_Sort M_Num M_Arith M_Compare M_Match M_Defs S_Defs P_Defs T_Defs
  M_Eval S_Eval S_Iter P_Hash P_MatchFuel P_OrderNum P_Eval P_Eval2 P_Eval3 P_Eval4 P_Iter T_Eval T_Eval3 T_Eval4.
Open Scope nat_scope.

Definition iter_attrs : list string := ["HoldAll"; "Protected"]%string.
Definition fold_attrs : list string := ["HoldAll"; "ReadProtected"; "Protected"]%string.
Definition is_system (es : estate) (h : string) (names : list string) : Prop := system_fn es (sysname h) names.

Lemma iter_not x : x <> "HoldAll"%string -> x <> "Protected"%string -> ~ In x iter_attrs.
Proof. intros A B [K|[K|[]]]; congruence. Qed.
Lemma fold_not x : x <> "HoldAll"%string -> x <> "Protected"%string -> x <> "ReadProtected"%string -> ~ In x fold_attrs.
Proof. intros A B C [K|[K|[K|[]]]]; congruence. Qed.

(* ---- C39 ---- *)
(* Table[body, {x1, ...}, {x2, ...}, ...]: one round for every tuple of values,
   the last iterator varying fastest; the list of the results, in order, is what
   is evaluated next.  Whatever rules are stored for Table, Plus and Times. *)
Theorem C39_table : forall c es body specs xs vss es1 rs es2 es3 v es4, cfg_mono c ->
  is_system es "Table" iter_attrs -> specs <> [] -> Forall ordinary_arg (body :: specs) ->
  iterators c es specs xs vss es1 -> table_rounds c xs body es1 (product vss) rs es2 ->
  restores c es2 xs (map (get_sym_def (es_defs es1)) xs) es3 ->
  hash_ok (fn "Table" (body :: specs)) -> no_clash (fn "Table" (body :: specs)) (mkList rs) ->
  evals_to c es3 (mkList rs) v es4 -> evals_to c es (fn "Table" (body :: specs)) v es4.
Proof.
  intros c es body specs xs vss es1 rs es2 es3 v es4 Hc S NE O HI HR RS Hz NC EV.
  apply (evals_next c es (sys "Table" :: body :: specs) (mkList rs) es3 v es4 Hc Hz NC); [|exact EV].
  apply (held_pass c es (sysname "Table") iter_attrs (body :: specs) (table_fn c)); auto; try (apply iter_not; discriminate).
  - left; reflexivity.
  - apply NC.
  - apply (frame_ok c [] _ mkList (ESym (sysname "Table")) es body specs xs vss es1 rs es2 es3 Hc NE HI); [|exact RS].
    assert (G : forall l es ts rs es', table_rounds c xs body es ts rs es' ->
      rounds c (fun ev acc es => obind (ev es body) (fun '(r, es1) => Ret (acc ++ [r], false, es1))) xs es ts l (l ++ rs) es').
    { intros l e ts rs' e' H. revert l. induction H as [e|e t ts e1 r e2 rs' e3 A E R _ IH]; intro l.
      - rewrite app_nil_r. constructor.
      - apply (LR_cons _ _ _ e t ts e1 l (l ++ [r]) e2); auto.
        + destruct (evals_large c _ _ _ _ Hc E) as [n Hn]. exists n. intros m Hm. rewrite (Hn m Hm). reflexivity.
        + replace (l ++ r :: rs') with ((l ++ [r]) ++ rs') by (rewrite <- app_assoc; reflexivity). apply IH. }
    apply (G []). exact HR.
Qed.
Print Assumptions C39_table.

(* Sum and Product combine the results from left to right, starting from 0 / 1 *)
Lemma fold_frame c op nm i es body specs xs vss es1 res es2 es3 v es4 : cfg_mono c ->
  is_system es nm fold_attrs -> assoc (table c) (sysname nm) = Some (fold_fn c (sysname op) i) ->
  specs <> [] -> Forall ordinary_arg (body :: specs) ->
  iterators c es specs xs vss es1 -> fold_rounds c op xs body es1 (product vss) i res es2 ->
  restores c es2 xs (map (get_sym_def (es_defs es1)) xs) es3 ->
  hash_ok (fn nm (body :: specs)) -> no_clash (fn nm (body :: specs)) res ->
  evals_to c es3 res v es4 -> evals_to c es (fn nm (body :: specs)) v es4.
Proof.
  intros Hc S TB NE O HI HR RS Hz NC EV.
  apply (evals_next c es (sys nm :: body :: specs) res es3 v es4 Hc Hz NC); [|exact EV].
  apply (held_pass c es (sysname nm) fold_attrs (body :: specs) (fold_fn c (sysname op) i)); auto; try (apply fold_not; discriminate).
  - left; reflexivity.
  - apply NC.
  - apply (frame_ok c i _ (fun x => x) (ESym (sysname nm)) es body specs xs vss es1 res es2 es3 Hc NE HI); [|exact RS].
    clear - HR Hc. induction HR as [e acc|e t ts e1 r e2 acc acc1 e3 res e4 A E E2 R _ IH]; [constructor|].
    apply (LR_cons _ _ _ e t ts e1 acc acc1 e3); auto.
    destruct (evals_large c _ _ _ _ Hc E) as [n Hn]. destruct (evals_large c _ _ _ _ Hc E2) as [n2 Hn2].
    exists (n + n2). intros m Hm. rewrite (Hn m) by lia. cbn [obind]. unfold fn, sys in Hn2. rewrite (Hn2 m) by lia. reflexivity.
Qed.
Theorem C39_sum : forall c es body specs xs vss es1 res es2 es3 v es4, cfg_mono c ->
  is_system es "Sum" fold_attrs -> specs <> [] -> Forall ordinary_arg (body :: specs) ->
  iterators c es specs xs vss es1 -> fold_rounds c "Plus" xs body es1 (product vss) (EInt 0) res es2 ->
  restores c es2 xs (map (get_sym_def (es_defs es1)) xs) es3 ->
  hash_ok (fn "Sum" (body :: specs)) -> no_clash (fn "Sum" (body :: specs)) res ->
  evals_to c es3 res v es4 -> evals_to c es (fn "Sum" (body :: specs)) v es4.
Proof. intros c es body specs xs vss es1 res es2 es3 v es4 Hc S. apply (fold_frame c "Plus" "Sum" (EInt 0)); auto. Qed.
Print Assumptions C39_sum.
Theorem C39_product : forall c es body specs xs vss es1 res es2 es3 v es4, cfg_mono c ->
  is_system es "Product" fold_attrs -> specs <> [] -> Forall ordinary_arg (body :: specs) ->
  iterators c es specs xs vss es1 -> fold_rounds c "Times" xs body es1 (product vss) (EInt 1) res es2 ->
  restores c es2 xs (map (get_sym_def (es_defs es1)) xs) es3 ->
  hash_ok (fn "Product" (body :: specs)) -> no_clash (fn "Product" (body :: specs)) res ->
  evals_to c es3 res v es4 -> evals_to c es (fn "Product" (body :: specs)) v es4.
Proof. intros c es body specs xs vss es1 res es2 es3 v es4 Hc S. apply (fold_frame c "Times" "Product" (EInt 1)); auto. Qed.
Print Assumptions C39_product.

(* Do: the same rounds; the result is Null *)
Lemma not_return e : ~ headed e (sysname "Return") -> return_value e = None.
Proof. intro H. unfold return_value. rewrite (args_of_not e _ H). reflexivity. Qed.
Theorem C39_do : forall c es body specs xs vss es1 es2 es3, cfg_mono c ->
  is_system es "Do" iter_attrs -> specs <> [] -> Forall ordinary_arg (body :: specs) ->
  iterators c es specs xs vss es1 -> do_rounds c xs body es1 (product vss) es2 ->
  restores c es2 xs (map (get_sym_def (es_defs es1)) xs) es3 ->
  hash_ok (fn "Do" (body :: specs)) -> hash sNull <> hash (fn "Do" (body :: specs)) -> no_value es3 (sysname "Null") ->
  evals_to c es (fn "Do" (body :: specs)) sNull es3.
Proof.
  intros c es body specs xs vss es1 es2 es3 Hc S NE O HI HR RS Hz NC NV.
  apply (evals_next_value c es (sys "Do" :: body :: specs) sNull es3 Hc Hz eq_refl); [|apply value_sym, NV].
  apply (held_pass c es (sysname "Do") iter_attrs (body :: specs) (do_fn c)); auto; try (apply iter_not; discriminate).
  - left; reflexivity.
  - apply (frame_ok c sNull _ (fun x => x) (ESym (sysname "Do")) es body specs xs vss es1 sNull es2 es3 Hc NE HI); [|exact RS].
    clear - HR Hc. induction HR as [e|e t ts e1 r e2 e3 A E R NR _ IH]; [constructor|].
    apply (LR_cons _ _ _ e t ts e1 sNull sNull e2); auto.
    destruct (evals_large c _ _ _ _ Hc E) as [n Hn]. exists n. intros m Hm. rewrite (Hn m Hm). cbn [obind].
    rewrite (proj2 (proj2 (proj1 R))). rewrite (not_return r NR). reflexivity.
Qed.
Print Assumptions C39_do.

(* Range[b], Range[a, b], Range[a, b, s] with s > 0 *)
Definition range_attrs : list string := ["Listable"; "Protected"]%string.
Lemma range_loop_ok c es vs : arith_ready es -> forall k it x p acc, at_pos it x vs p -> length vs - p < k ->
  forall m, 6 <= m -> range_loop k (run c m None) es it acc = Ret (acc ++ skipn p vs, es).
Proof.
  intros AR. induction k as [|k IH]; intros it x p acc AP L m Hm; [lia|]. cbn [range_loop].
  rewrite (at_cont _ _ _ _ AP). destruct (Nat.ltb_spec p (length vs)) as [LT|GE].
  - destruct (at_next c (m - 6) es it x vs p AR AP LT) as (it' & E & AP').
    replace (6 + (m - 6)) with m in E by lia. rewrite E. cbn [obind].
    rewrite (IH it' x (S p) _ AP') by lia. rewrite (at_curr _ _ _ _ AP LT).
    rewrite (skipn_nth vs p sNull LT). rewrite <- app_assoc. reflexivity.
  - rewrite skipn_all2 by lia. rewrite app_nil_r. reflexivity.
Qed.
Theorem C39_range : forall c es args ps es1 vs v es2, cfg_mono c -> usable es "Range" range_attrs ->
  evals_args c (holds range_attrs) 1 es args ps es1 -> is_system es1 "Range" range_attrs ->
  Forall (fun e => exists z, e = EInt z) ps -> iter_values ps vs -> arith_ready es1 ->
  hash_ok (fn "Range" args) -> no_clash (fn "Range" args) (mkList vs) -> hash (mkList vs) <> hash (fn "Range" ps) ->
  evals_to c es1 (mkList vs) v es2 -> evals_to c es (fn "Range" args) v es2.
Proof.
  intros c es args ps es1 vs v es2 Hc (S & NV & T) EA S1 PI IV AR Hz NC HN EV.
  apply (evals_next c es (sys "Range" :: args) (mkList vs) es1 v es2 Hc Hz NC); [|exact EV].
  destruct (evals_args_large c _ _ _ _ _ _ Hc (head_arg c es (sysname "Range") range_attrs args ps es1 NV T EA)) as [n1 K].
  assert (EL : evals_list c es1 ps ps es1).
  { clear - PI. induction PI as [|e l [z ->] _ IH]; [constructor|]. apply (EL_cons _ _ _ _ es1); [apply value_int|exact IH]. }
  destruct (spec_ok c es1 (sysname "$DUMMY") ps ps es1 vs Hc EL IV AR) as (n2 & it & AP & H2).
  exists (n1 + n2 + length vs + 7). intros m Hm.
  change (sys "Range") with (ESym (sysname "Range")). unfold pass. cbv zeta. rewrite (system_attrs _ _ _ S).
  rewrite numeric_off by (intros [J|[J|[]]]; discriminate J).
  rewrite (proj2 (eval_parts_ok (run c m None) range_attrs _ 0 es (ESym (sysname "Range") :: ps) es1) (K m ltac:(lia))). cbn [obind].
  rewrite splice_ordinary.
  2: { constructor; [apply ordinary_sym|]. rewrite Forall_forall in *. intros e I. destruct (PI e I) as [z ->]. apply ord_int. }
  cbn [obind]. unfold flat_sort.
  replace (has_attr (strings_to_attributes range_attrs) aFlat) with false by reflexivity.
  replace (has_attr (strings_to_attributes range_attrs) aOrderless) with false by reflexivity.
  replace (has_attr (strings_to_attributes range_attrs) aListable) with true by reflexivity.
  cbn [andb hd tl].
  assert (LL : list_lengths ps = []).
  { unfold list_lengths. clear - PI. induction PI as [|e l [z ->] _ IH]; [reflexivity|exact IH]. }
  unfold thread_expr. rewrite LL.
  rewrite (head_changed c m (run c m None) es1 (sysname "Range") range_attrs range_fn (ESym (sysname "Range") :: ps) _ (mkList vs) es1 S1);
    [reflexivity|reflexivity| |].
  - unfold range_fn. cbn [tl]. rewrite H2 by lia. cbn [obind].
    rewrite (range_loop_ok c es1 vs AR m it _ 0 [] AP) by lia. reflexivity.
  - apply sameq_expr. exact HN.
Qed.
Print Assumptions C39_range.

(* ---- a state for the examples ---- *)
Definition es_it : estate := ES (State
  (st_defs (es_defs es0) ++
  [ (sysname "Table", Def [DVal (fn "HoldPattern" [fn "Table" [fn "Pattern" [gl "a"; fn "Blank" []]; fn "Pattern" [gl "b"; fn "Blank" [sys "Integer"]]]])
       (fn "Table" [gl "a"; mkList [gl "ui"; EInt 1; gl "b"]]) 0] (strings_to_attributes iter_attrs) None true);
    entry "Do" iter_attrs true; entry "Sum" fold_attrs true; entry "Product" fold_attrs true; entry "Range" range_attrs true;
    entry "List" ["Locked"; "Protected"]%string false;
    ("Global`u"%string, Def [DVal (held (gl "u")) (EInt 7) 0] no_attrs None false);
    ("Global`w"%string, Def [DVal (held (uf "w" [EInt 1])) (EInt 2) 0] (strings_to_attributes ["Flat"]%string) None false) ]) false) None None.
Lemma arith_it : arith_ready es_it.
Proof. repeat split; try reflexivity; eexists; repeat split; try reflexivity. Qed.
Ltac quiet_tac := split; [hok|split; hok].

(* Range[2, 7, 2] is {2, 4, 6}: the hypotheses of C39_range hold *)
Example C39_range_ex : evals_to c0 es_it (fn "Range" [EInt 2; EInt 7; EInt 2]) (mkList [EInt 2; EInt 4; EInt 6]) es_it.
Proof.
  apply (C39_range c0 es_it _ [EInt 2; EInt 7; EInt 2] es_it [EInt 2; EInt 4; EInt 6] _ es_it c0_mono).
  - repeat split; try reflexivity. eexists; repeat split; reflexivity.
  - repeat (eapply EA_eval; [intros [K|[K|[[_ K]|[_ K]]]]; destruct K as [K|[K|[]]]; discriminate K|apply value_int|reflexivity|]). apply EA_nil.
  - eexists; repeat split; reflexivity.
  - repeat constructor; eexists; reflexivity.
  - apply IV_step; [reflexivity| |].
    + split; [reflexivity|]. intro j. cbn [length]. lia.
    + split; [quiet_tac|]. split; [quiet_tac|]. split; [hok|]. intros [|[|[|j]]] L; cbn [length] in L; try lia; quiet_tac.
  - apply arith_it.
  - hok.
  - split; hok.
  - hok.
  - exists 30. vm_compute. reflexivity.
Qed.
(* Table[{u, v}, {u, 2}, {v, {a, b}}]: last iterator fastest; u has the value 7
   before and after *)
Example C39_table_ex : exists es', evals_to c0 es_it
  (fn "Table" [mkList [gl "u"; gl "v"]; mkList [gl "u"; EInt 2]; mkList [gl "v"; mkList [gl "a"; gl "b"]]])
  (mkList [mkList [EInt 1; gl "a"]; mkList [EInt 1; gl "b"]; mkList [EInt 2; gl "a"]; mkList [EInt 2; gl "b"]]) es' /\
  get_sym_def (es_defs es') "Global`u" = Some (EInt 7).
Proof. eexists. split; [exists 60; vm_compute; reflexivity|vm_compute; reflexivity]. Qed.

(* Table[u, {u, 2}], through the hypotheses of C39_table *)
Example C39_table_hyps : exists es3, evals_to c0 es_it (fn "Table" [gl "u"; mkList [gl "u"; EInt 2]]) (mkList [EInt 1; EInt 2]) es3.
Proof.
  set (d1 := match define (c_fl c0) (es_defs es_it) (ESym "Global`u") (EInt 1) with Some d => d | None => es_defs es_it end).
  set (e1 := with_defs es_it d1).
  set (d2 := match define (c_fl c0) (es_defs e1) (ESym "Global`u") (EInt 2) with Some d => d | None => d1 end).
  set (e2 := with_defs e1 d2).
  set (d3 := match define (c_fl c0) (es_defs e2) (ESym "Global`u") (EInt 7) with Some d => d | None => d1 end).
  set (e3 := with_defs e2 d3).
  assert (AR : arith_ready e1 /\ arith_ready e2).
  { split; (split; (split; [eexists; split; [vm_compute; reflexivity|split; reflexivity]|split; vm_compute; reflexivity])). }
  exists e3. apply (C39_table c0 es_it (gl "u") [mkList [gl "u"; EInt 2]] ["Global`u"%string] [[EInt 1; EInt 2]] es_it [EInt 1; EInt 2] e2 e3 _ _ c0_mono).
  - eexists; split; [vm_compute; reflexivity|split; reflexivity].
  - discriminate.
  - repeat constructor; not_headed.
  - apply (IT_cons c0 es_it "Global`u"%string [EInt 2] [EInt 2] es_it [EInt 1; EInt 2]).
    + apply (EL_cons _ _ _ _ es_it); [apply value_int|constructor].
    + apply IV_max; [split; [reflexivity|intro j; cbn [length]; lia]|].
      split; [quiet_tac|]. split; [quiet_tac|]. split; [hok|]. intros [|[|j]] L; cbn [length] in L; try lia; quiet_tac.
    + apply arith_it.
    + constructor.
  - cbn [product flat_map map app].
    apply (TR_cons _ _ _ es_it [EInt 1] _ e1 (EInt 1) e1); [apply (AS_cons _ _ _ _ d1); [vm_compute; reflexivity|constructor]|exists 5; vm_compute; reflexivity|exact (proj1 AR)|].
    apply (TR_cons _ _ _ e1 [EInt 2] _ e2 (EInt 2) e2); [apply (AS_cons _ _ _ _ d2); [vm_compute; reflexivity|constructor]|exists 5; vm_compute; reflexivity|exact (proj2 AR)|].
    constructor.
  - apply (RS_value _ _ _ (EInt 7) d3); [vm_compute; reflexivity|constructor].
  - hok.
  - split; hok.
  - exists 30. vm_compute. reflexivity.
Qed.

(* A negative step should count downwards: Range[3, 1, -1] is {3, 2, 1}.  Here it
   is {}, and so is Table[u, {u, 3, 1, -1}]. *)
Theorem C39_negative_step_refuted :
  evals_to c0 es_it (fn "Range" [EInt 3; EInt 1; EInt (-1)]) (mkList []) es_it /\
  exists es', evals_to c0 es_it (fn "Table" [gl "u"; mkList [gl "u"; EInt 3; EInt 1; EInt (-1)]]) (mkList []) es'.
Proof. split; [|eexists]; exists 40; vm_compute; reflexivity. Qed.
Print Assumptions C39_negative_step_refuted.

(* With step 0 the evaluation never ends *)
Theorem C39_zero_step_refuted : diverges c0 es_it (fn "Do" [EInt 0; mkList [gl "u"; EInt 1; EInt 3; EInt 0]]).
Proof.
  apply (system_diverges c0 es_it (sysname "Do") iter_attrs _ [EInt 0; mkList [gl "u"; EInt 1; EInt 3; EInt 0]] (do_fn c0) es_it c0_mono);
    try (apply iter_not; discriminate).
  - hok.
  - eexists; split; [vm_compute; reflexivity|split; reflexivity].
  - exists iter_attrs; eexists; split; [vm_compute; reflexivity|split; reflexivity].
  - apply held_rest. intros j _. left. unfold iter_attrs; cbn; tauto.
  - repeat constructor; not_headed.
  - reflexivity.
  - intro m. destruct (le_lt_dec 10 m) as [Hm|Hm].
    + unfold do_fn, iter_frame.
      set (it := IRange (ESym "Global`u") "Global`u" (EInt 1) (EInt 3) (EInt 0) (EInt 1)).
      assert (E1 : forall m, 10 <= m -> specs_from_lists (run c0 m None) es_it [mkList [gl "u"; EInt 1; EInt 3; EInt 0]] = Ret (Some [it], es_it)).
      { intros k Hk. destruct (specs_from_lists_mono (run c0 10 None) (run c0 k None) [mkList [gl "u"; EInt 1; EInt 3; EInt 0]]
          (fun es e => run_mono c0 10 k c0_mono Hk None es e) es_it) as [K|K].
        - vm_compute in K. discriminate K.
        - rewrite <- K. vm_compute. reflexivity. }
      rewrite (E1 m Hm). cbn [obind].
      replace (take_snapshot c0 m (run c0 m None) es_it [it]) with (Ret ([Some (EInt 7)], es_it) : outcome (list (option ex) * estate)) by reflexivity.
      cbn [obind]. replace (forallb iter_cont [it]) with true by (vm_compute; reflexivity).
      set (e1 := with_defs es_it (match define (c_fl c0) (es_defs es_it) (ESym "Global`u") (EInt 1) with Some d => d | None => es_defs es_it end)).
      match goal with |- obind (iter_loop c0 m ?ev ?each es_it [it] true sNull) _ = _ =>
        assert (L : forall k es, es = es_it \/ es = e1 -> iter_loop c0 k ev each es [it] true sNull = More) end.
      { induction k as [|k IH]; intros es Hes; [reflexivity|]. cbn [iter_loop].
        assert (D : define_current c0 es [it] = Ret e1) by (destruct Hes as [->| ->]; vm_compute; reflexivity).
        rewrite D. cbn [obind]. destruct m as [|m']; [lia|].
        assert (B : run c0 (S m') None e1 (EInt 0) = Ret (EInt 0, e1)) by reflexivity. rewrite B. cbn [obind].
        assert (T : es_thrown e1 = None) by reflexivity. rewrite T.
        assert (R : return_value (EInt 0) = None) by reflexivity. rewrite R. cbn [obind].
        assert (N : multi_next (run c0 (S m') None) e1 [it] = Ret ([it], true, e1)).
        { destruct (multi_next_mono (run c0 10 None) (run c0 (S m') None) [it] (fun es e => run_mono c0 10 (S m') c0_mono Hm None es e) e1) as [K|K].
          - vm_compute in K. discriminate K.
          - rewrite <- K. vm_compute. reflexivity. }
        rewrite N. cbn [obind]. apply IH. right; reflexivity. }
      rewrite L by (left; reflexivity). reflexivity.
    + do 10 (destruct m as [|m]; [vm_compute; reflexivity|]). lia.
Qed.
Print Assumptions C39_zero_step_refuted.
