(* Iterators: proofs. *)
From Verif Require Import M_Syntax M_Float M_Hash M_Order M_Sort M_Num M_Arith M_Compare M_Match M_Defs M_Eval S_Eval S_Iter
  P_Hash P_MatchFuel P_OrderNum P_Eval P_Eval2 P_Eval3 P_Eval4 T_Eval T_Eval3.
Open Scope nat_scope.

(* ---- arithmetic of machine-free integers inside the evaluator ---- *)
Lemma ord_int z : ordinary_arg (EInt z).
Proof. repeat split; intros [l E]; discriminate E. Qed.

Lemma sort2 h x y : sort_parts [h; EInt x; EInt y] = [h; EInt x; EInt y] \/ sort_parts [h; EInt x; EInt y] = [h; EInt y; EInt x].
Proof.
  unfold sort_parts, sort_expr, insertion_sort. cbn [fold_left sift rev app parts_of].
  destruct (less (EInt y) (EInt x)); cbn; auto.
Qed.

Lemma num_attr_vals :
  has_attr (strings_to_attributes num_attrs) aNumericFunction = true /\
  has_attr (strings_to_attributes num_attrs) aFlat = true /\
  has_attr (strings_to_attributes num_attrs) aOrderless = true /\
  has_attr (strings_to_attributes num_attrs) aListable = true /\
  has_attr (strings_to_attributes num_attrs) aHoldAllComplete = false /\
  has_attr (strings_to_attributes num_attrs) aSequenceHold = false /\
  (forall i, part_held (strings_to_attributes num_attrs) i = false).
Proof.
  repeat split; try reflexivity. intro i. unfold part_held.
  replace (has_attr (strings_to_attributes num_attrs) aHoldFirst) with false by reflexivity.
  replace (has_attr (strings_to_attributes num_attrs) aHoldRest) with false by reflexivity.
  replace (has_attr (strings_to_attributes num_attrs) aHoldAll) with false by reflexivity.
  replace (has_attr (strings_to_attributes num_attrs) aHoldAllComplete) with false by reflexivity.
  rewrite !andb_false_r. reflexivity.
Qed.

Lemma cond_none e : is_expr e = false -> cond_expr e = None.
Proof. destruct e; try reflexivity. discriminate. Qed.

(* the builtin has the last word if its result is not the expression itself,
   whatever rules there are *)
Lemma head_changed c k ev es h names f l l2 r es1 :
  system_fn es h names -> assoc (table c) h = Some f ->
  f k ev es l = Ret (r, l, es1) -> is_sameq r (EExpr l) = false ->
  apply_head c k ev es h l2 l = Ret (r, false, es1).
Proof.
  intros [d [L [B _]]] T F N. unfold apply_head. rewrite L, B. unfold builtin_of. rewrite T, F. cbn [obind].
  rewrite N. reflexivity.
Qed.
Lemma sameq_int_expr z l : hash (EInt z) <> hash (EExpr l) -> is_sameq (EInt z) (EExpr l) = false.
Proof. intro H. unfold is_sameq. apply N.eqb_neq, H. Qed.
Lemma sameq_expr r l : hash r <> hash (EExpr l) -> is_sameq r (EExpr l) = false.
Proof. intro H. unfold is_sameq. destruct r; apply N.eqb_neq, H. Qed.

Lemma num_pass c k es op f args x y z : usable es op num_attrs ->
  assoc (table c) (sysname op) = Some (value_fn f) ->
  propagate_conditionals (sys op :: args) = None ->
  eval_parts (run c (S k) None) (strings_to_attributes num_attrs) 1 es args = Ret (inr [EInt x; EInt y], es) ->
  f [EInt x; EInt y] = EInt z -> f [EInt y; EInt x] = EInt z ->
  hash (EInt z) <> hash (fn op [EInt x; EInt y]) -> hash (EInt z) <> hash (fn op [EInt y; EInt x]) ->
  pass c (S k) (run c (S k) None) es (sys op :: args) = Ret (inr (EInt z, false), es).
Proof.
  intros (S & NV & T) B PC EP F1 F2 H1 H2. unfold fn in H1, H2. change (sys op) with (ESym (sysname op)) in *. unfold pass. cbv zeta.
  rewrite (system_attrs _ _ _ S).
  destruct num_attr_vals as (A1 & A2 & A3 & A4 & A5 & A6 & A7).
  rewrite A1. rewrite PC.
  cbn [eval_parts]. rewrite (A7 0).
  replace (run c (Datatypes.S k) None es (ESym (sysname op))) with (Ret (ESym (sysname op), es) : outcome (ex * estate))
    by (cbn [run]; unfold no_value in NV; rewrite NV; reflexivity).
  cbn [obind]. rewrite T. rewrite EP. cbn [obind].
  rewrite splice_ordinary by (repeat constructor; first [apply ordinary_sym|apply ord_int]). cbn [obind].
  unfold flat_sort. rewrite A2, A3.
  assert (M : merge_seq (sysname op) [ESym (sysname op); EInt x; EInt y] = [ESym (sysname op); EInt x; EInt y]).
  { apply merge_seq_none. repeat constructor; intros [l E]; discriminate E. }
  assert (E : existsb (fun p => has_head p (sysname op)) [ESym (sysname op); EInt x; EInt y] = false) by reflexivity.
  rewrite M, E. cbn [andb]. rewrite A4.
  destruct (sort2 (ESym (sysname op)) x y) as [K|K]; rewrite K; cbn [hd tl];
    cbn [thread_expr list_lengths flat_map args_of app].
  - rewrite (head_changed c _ _ es (sysname op) num_attrs (value_fn f) [ESym (sysname op); EInt x; EInt y] _ (EInt z) es S B);
      [reflexivity| |apply sameq_int_expr, H1]. unfold value_fn, returning; cbn [tl]; rewrite F1; reflexivity.
  - rewrite (head_changed c _ _ es (sysname op) num_attrs (value_fn f) [ESym (sysname op); EInt y; EInt x] _ (EInt z) es S B);
      [reflexivity| |apply sameq_int_expr, H2]. unfold value_fn, returning; cbn [tl]; rewrite F2; reflexivity.
Qed.

Lemma run_to_int c k es parts z b : hash_ok (EExpr parts) ->
  pass c (S (S k)) (run c (S (S k)) None) es parts = Ret (inr (EInt z, b), es) ->
  run c (4 + k) None es (EExpr parts) = Ret (EInt z, es).
Proof.
  intros H P. change (run c (4 + k) None es (EExpr parts)) with (run c (S (S (S k))) (Some (0%N, false)) es (EExpr parts)).
  rewrite run_expr by exact H. rewrite P. cbn [obind].
  destruct (N.eq_dec (hash (EInt z)) (hash (EExpr parts))) as [E|E]; [apply run_stop, E|].
  cbn [run].
  rewrite (proj2 (N.eqb_neq _ _) E). reflexivity.
Qed.

Lemma plus_ints x y : plus_eval [EInt x; EInt y] = EInt (x + y).
Proof. cbn. reflexivity. Qed.
Lemma times_ints x y : times_eval [EInt x; EInt y] = EInt (x * y).
Proof. cbn. destruct (x * y)%Z; reflexivity. Qed.
Lemma table_plus c : assoc (table c) (sysname "Plus") = Some (value_fn plus_eval). Proof. reflexivity. Qed.
Lemma table_times c : assoc (table c) (sysname "Times") = Some (value_fn times_eval). Proof. reflexivity. Qed.

Lemma eval_two c k es x y : es_thrown es = None ->
  eval_parts (run c (S k) None) (strings_to_attributes num_attrs) 1 es [EInt x; EInt y] = Ret (inr [EInt x; EInt y], es).
Proof.
  intro T. destruct num_attr_vals as (_ & _ & _ & _ & _ & _ & A7).
  cbn [eval_parts]. rewrite !A7. cbn [run obind]. rewrite T. cbn [obind]. reflexivity.
Qed.

Lemma run_plus c k es x y : usable es "Plus" num_attrs -> quiet "Plus" x y (x + y) ->
  run c (4 + k) None es (fn "Plus" [EInt x; EInt y]) = Ret (EInt (x + y), es).
Proof.
  intros R (H & H1 & H2). apply (run_to_int c k es _ _ false); [exact H|].
  apply (num_pass c (S k) es "Plus" plus_eval [EInt x; EInt y] x y _ R (table_plus c)).
  - reflexivity.
  - apply eval_two. apply R.
  - apply plus_ints.
  - rewrite plus_ints. f_equal. lia.
  - exact H1.
  - exact H2.
Qed.
Lemma run_times c k es x y : usable es "Times" num_attrs -> quiet "Times" x y (x * y) ->
  run c (4 + k) None es (fn "Times" [EInt x; EInt y]) = Ret (EInt (x * y), es).
Proof.
  intros R (H & H1 & H2). apply (run_to_int c k es _ _ false); [exact H|].
  apply (num_pass c (S k) es "Times" times_eval [EInt x; EInt y] x y _ R (table_times c)).
  - reflexivity.
  - apply eval_two. apply R.
  - apply times_ints.
  - rewrite times_ints. f_equal. lia.
  - exact H1.
  - exact H2.
Qed.
Lemma run_reset c k es a s : arith_ready es -> quiet "Times" 0 s 0 -> quiet "Plus" a 0 a ->
  hash_ok (fn "Plus" [EInt a; fn "Times" [EInt 0; EInt s]]) ->
  run c (6 + k) None es (fn "Plus" [EInt a; fn "Times" [EInt 0; EInt s]]) = Ret (EInt a, es).
Proof.
  intros [RP RT] H1 (H2 & H3 & H4) H5. apply (run_to_int c (2 + k) es _ _ false); [exact H5|].
  apply (num_pass c (3 + k) es "Plus" plus_eval [EInt a; fn "Times" [EInt 0; EInt s]] a 0 _ RP (table_plus c)).
  - reflexivity.
  - destruct num_attr_vals as (_ & _ & _ & _ & _ & _ & A7).
    cbn [eval_parts]. rewrite !A7.
    assert (Q : run c (S (3 + k)) None es (fn "Times" [EInt 0; EInt s]) = Ret (EInt 0, es)).
    { change (S (3 + k)) with (4 + k). rewrite (run_times c k es 0 s RT H1). reflexivity. }
    assert (T : es_thrown es = None) by apply RP.
    assert (Q1 : run c (S (3 + k)) None es (EInt a) = Ret (EInt a, es)) by reflexivity.
    rewrite Q1. cbn [obind]. rewrite T, Q. cbn [obind]. rewrite T. cbn [obind]. reflexivity.
  - rewrite plus_ints. f_equal. lia.
  - rewrite plus_ints. f_equal.
  - exact H3.
  - exact H4.
Qed.

(* ---- a single iterator ---- *)
(* iterator [it] over variable x stands at position p of the values vs *)
Inductive at_pos : iter -> string -> list ex -> nat -> Prop :=
| AT_range x a b s vs p : (0 < s)%Z -> covers a b s vs -> sums_ok a s (length vs) -> p <= length vs ->
    at_pos (IRange (ESym x) x (EInt a) (EInt b) (EInt s) (EInt (a + Z.of_nat p * s))) x vs p
| AT_list x l p : p <= length l -> at_pos (IList (ESym x) x l p) x l p.

Lemma at_var it x vs p : at_pos it x vs p -> iter_var it = ESym x /\ iter_name it = x.
Proof. destruct 1; split; reflexivity. Qed.

Lemma at_cont it x vs p : at_pos it x vs p -> iter_cont it = (p <? length vs).
Proof.
  destruct 1 as [x a b s vs p Hs C SO Hp|x l p Hp]; [|reflexivity].
  cbn [iter_cont]. rewrite order_ints. destruct C as [_ C]. specialize (C p).
  destruct (Nat.ltb_spec p (length vs)) as [L|L].
  - apply C in L. unfold cmp2z. destruct (Z.compare_spec b (a + Z.of_nat p * s)); try reflexivity. lia.
  - unfold cmp2z. destruct (Z.compare_spec b (a + Z.of_nat p * s)); try reflexivity; exfalso; [|];
      assert (p < length vs) by (apply C; lia); lia.
Qed.

Lemma at_curr it x vs p : at_pos it x vs p -> p < length vs -> iter_curr it = nth p vs sNull.
Proof.
  destruct 1 as [x a b s vs p Hs C SO Hp|x l p Hp]; intro L; [|reflexivity].
  cbn [iter_curr]. destruct C as [C _].
  assert (E : nth_error vs p = Some (EInt (a + Z.of_nat p * s))).
  { rewrite C, nth_error_map, (nth_error_nth' _ 0) by (rewrite seq_length; exact L). rewrite seq_nth by exact L. reflexivity. }
  symmetry. apply nth_error_nth. exact E.
Qed.

Lemma at_next c k es it x vs p : arith_ready es -> at_pos it x vs p -> p < length vs ->
  exists it', iter_next (run c (6 + k) None) es it = Ret (it', es) /\ at_pos it' x vs (S p).
Proof.
  intros R H L. destruct H as [x a b s vs p Hs C SO Hp|x l p Hp].
  - cbn [iter_next]. change (EExpr [sys "Plus"; EInt (a + Z.of_nat p * s); EInt s]) with (fn "Plus" [EInt (a + Z.of_nat p * s); EInt s]).
    change (6 + k) with (4 + (2 + k)). destruct SO as (SO1 & SO2 & SO3 & SO4).
    pose proof (SO4 p L) as Q. replace (a + Z.of_nat (S p) * s)%Z with (a + Z.of_nat p * s + s)%Z in Q by lia.
    rewrite (run_plus c (2 + k) es _ _ (proj1 R) Q). cbn [obind].
    eexists. split; [reflexivity|].
    replace (a + Z.of_nat p * s + s)%Z with (a + Z.of_nat (S p) * s)%Z by lia.
    apply AT_range; [exact Hs|exact C|exact (conj SO1 (conj SO2 (conj SO3 SO4)))|exact L].
  - eexists. split; [reflexivity|]. constructor. exact L.
Qed.

Lemma at_reset c k es it x vs p : arith_ready es -> at_pos it x vs p ->
  exists it', iter_reset (run c (6 + k) None) es it = Ret (it', es) /\ at_pos it' x vs 0.
Proof.
  intros R H. destruct H as [x a b s vs p Hs C SO Hp|x l p Hp].
  - cbn [iter_reset]. change (EExpr [sys "Plus"; EInt a; EExpr [sys "Times"; EInt 0; EInt s]]) with (fn "Plus" [EInt a; fn "Times" [EInt 0; EInt s]]).
    destruct SO as (SO1 & SO2 & SO3 & SO4).
    rewrite (run_reset c k es a s R SO1 SO2 SO3). eexists. split; [reflexivity|].
    replace (EInt a) with (EInt (a + Z.of_nat 0 * s)) at 2 by (f_equal; lia). apply AT_range; [exact Hs|exact C|exact (conj SO1 (conj SO2 (conj SO3 SO4)))|lia].
  - eexists. split; [reflexivity|]. constructor. lia.
Qed.

(* ---- several iterators ---- *)
Inductive at_all : list iter -> list string -> list (list ex) -> list nat -> Prop :=
| AA_nil : at_all [] [] [] []
| AA_cons it x vs p its xs vss ps : at_pos it x vs p -> p < length vs -> at_all its xs vss ps ->
    at_all (it :: its) (x :: xs) (vs :: vss) (p :: ps).

Fixpoint tuple (vss : list (list ex)) (ps : list nat) : list ex :=
  match vss, ps with vs :: t, p :: q => nth p vs sNull :: tuple t q | _, _ => [] end.
(* the tuples from position ps on *)
Fixpoint remaining (vss : list (list ex)) (ps : list nat) : list (list ex) :=
  match vss, ps with
  | vs :: t, p :: q => map (cons (nth p vs sNull)) (remaining t q) ++ flat_map (fun v => map (cons v) (product t)) (skipn (S p) vs)
  | _, _ => [[]]
  end.

Lemma skipn_nth {A} (l : list A) p d : p < length l -> skipn p l = nth p l d :: skipn (S p) l.
Proof.
  revert p. induction l as [|a t IH]; intros [|p] H; cbn in H; try lia; [reflexivity|].
  cbn [skipn nth]. rewrite IH by lia. reflexivity.
Qed.

Lemma remaining_zero vss : Forall (fun vs => vs <> []) vss -> remaining vss (map (fun _ => 0) vss) = product vss.
Proof.
  induction 1 as [|vs t N _ IH]; [reflexivity|]. cbn [map remaining product]. rewrite IH.
  destruct vs as [|v vs]; [contradiction|]. cbn [nth skipn flat_map]. reflexivity.
Qed.

Lemma at_all_nonempty its xs vss ps : at_all its xs vss ps -> Forall (fun vs => vs <> []) vss.
Proof. induction 1 as [|it x vs p its xs vss ps H L _ IH]; constructor; auto. destruct vs; [cbn in L; lia|discriminate]. Qed.

Lemma multi_next_ok c k es its xs vss ps : arith_ready es -> at_all its xs vss ps ->
  exists its' ps' go, multi_next (run c (6 + k) None) es its = Ret (its', go, es) /\ at_all its' xs vss ps' /\
    (go = true -> remaining vss ps = tuple vss ps :: remaining vss ps') /\
    (go = false -> remaining vss ps = [tuple vss ps] /\ ps' = map (fun _ => 0) vss).
Proof.
  intros R. induction 1 as [|it x vs p its xs vss ps H L HA IH].
  - exists [], [], false. split; [reflexivity|]. split; [constructor|]. split; [discriminate|]. split; reflexivity.
  - destruct IH as (its' & ps' & go & E & A' & G1 & G2). cbn [multi_next]. rewrite E. cbn [obind].
    destruct go.
    + exists (it :: its'), (p :: ps'), true. split; [reflexivity|]. split; [constructor; assumption|]. split; [|discriminate].
      intros _. cbn [remaining tuple]. rewrite G1 by reflexivity. reflexivity.
    + destruct (G2 eq_refl) as [G3 ->]. destruct (at_next c k es it x vs p R H L) as (it1 & E1 & P1).
      rewrite E1. cbn [obind]. rewrite (at_cont _ _ _ _ P1).
      assert (NE : Forall (fun vs => vs <> []) vss) by (apply (at_all_nonempty its xs vss ps); assumption).
      destruct (Nat.ltb_spec (S p) (length vs)) as [L1|L1].
      * exists (it1 :: its'), (S p :: map (fun _ => 0) vss), true. split; [reflexivity|]. split; [constructor; assumption|].
        split; [|discriminate]. intros _. cbn [remaining tuple]. rewrite G3, remaining_zero by exact NE.
        cbn [map app]. f_equal. rewrite (skipn_nth vs (S p) sNull L1). reflexivity.
      * destruct (at_reset c k es it1 x vs (S p) R P1) as (it2 & E2 & P2). rewrite E2. cbn [obind].
        exists (it2 :: its'), (0 :: map (fun _ => 0) vss), false. split; [reflexivity|].
        split; [constructor; [assumption|lia|assumption]|]. split; [discriminate|]. intros _. split; [|reflexivity].
        cbn [remaining tuple]. rewrite G3. rewrite skipn_all2 by lia. reflexivity.
Qed.

Lemma multi_next_ok_tuple vss ps : exists r, remaining vss ps = tuple vss ps :: r.
Proof.
  revert ps. induction vss as [|vs t IH]; intros [|p q]; cbn [remaining tuple]; try (eexists; reflexivity).
  destruct (IH q) as [r ->]. eexists. reflexivity.
Qed.

Lemma define_current_ok c its xs vss ps : at_all its xs vss ps -> forall es es1,
  assigns c es xs (tuple vss ps) es1 -> define_current c es its = Ret es1.
Proof.
  induction 1 as [|it x vs p its xs vss ps H L HA IH]; intros es es1 A; cbn [tuple] in A; inversion A; subst.
  - reflexivity.
  - cbn [define_current]. destruct (at_var _ _ _ _ H) as [-> _]. rewrite (at_curr _ _ _ _ H L).
    unfold es_define. 
    match goal with K : define _ _ _ _ = Some _ |- _ => rewrite K end. cbn [obind]. apply IH. assumption.
Qed.

(* ---- the loop ---- *)
Inductive rounds {A} (c : cfg) (eachf : evaluator -> A -> estate -> outcome (A * bool * estate)) (xs : list string)
  : estate -> list (list ex) -> A -> A -> estate -> Prop :=
| LR_nil es acc : rounds c eachf xs es [] acc acc es
| LR_cons es t ts es1 acc acc1 es2 res es3 :
    assigns c es xs t es1 ->
    (exists n, forall m, n <= m -> eachf (run c m None) acc es1 = Ret (acc1, false, es2)) -> arith_ready es2 ->
    rounds c eachf xs es2 ts acc1 res es3 -> rounds c eachf xs es (t :: ts) acc res es3.
(* the loop is left early *)
Inductive rounds_stop {A} (c : cfg) (eachf : evaluator -> A -> estate -> outcome (A * bool * estate)) (xs : list string)
  : estate -> list (list ex) -> A -> A -> estate -> Prop :=
| LS_here es t ts es1 acc acc1 es2 :
    assigns c es xs t es1 ->
    (exists n, forall m, n <= m -> eachf (run c m None) acc es1 = Ret (acc1, true, es2)) ->
    rounds_stop c eachf xs es (t :: ts) acc acc1 es2
| LS_later es t ts es1 acc acc1 es2 res es3 :
    assigns c es xs t es1 ->
    (exists n, forall m, n <= m -> eachf (run c m None) acc es1 = Ret (acc1, false, es2)) -> arith_ready es2 ->
    rounds_stop c eachf xs es2 ts acc1 res es3 -> rounds_stop c eachf xs es (t :: ts) acc res es3.

Lemma iter_loop_ok {A} c (eachf : evaluator -> A -> estate -> outcome (A * bool * estate)) xs es ts acc res es' :
  cfg_mono c -> rounds c eachf xs es ts acc res es' ->
  forall its vss ps go, at_all its xs vss ps \/ go = false -> ts = (if go then remaining vss ps else []) ->
  exists n, forall m, n <= m -> iter_loop c m (run c m None) (eachf (run c m None)) es its go acc = Ret (res, false, es').
Proof.
  intros Hc HR.
  enough (K : forall its vss ps go, at_all its xs vss ps \/ go = false -> ts = (if go then remaining vss ps else []) ->
     exists n, forall m j, n <= m -> n <= j -> iter_loop c j (run c m None) (eachf (run c m None)) es its go acc = Ret (res, false, es')).
  { intros its vss ps go H1 H2. destruct (K its vss ps go H1 H2) as [n Hn]. exists n. intros m Hm. apply Hn; assumption. }
  induction HR as [es acc|es t ts es1 acc acc1 es2 res es3 HA [n1 HE] AR HR IH]; intros its vss ps go AL E.
  - destruct go.
    + exfalso. clear - E AL. destruct AL as [AL|AL]; [|discriminate]. destruct AL as [|it x vs p its xs vss ps H L HA]; [discriminate E|].
      cbn [remaining] in E. destruct (remaining vss ps) as [|t0 r] eqn:Q; [|discriminate E].
      revert Q. clear. revert ps. induction vss as [|w vss IH]; intros [|p ps]; cbn [remaining]; try discriminate.
      specialize (IH ps). destruct (remaining vss ps); [contradiction IH; reflexivity|discriminate].
    + exists 1. intros m j Hm Hj. destruct j as [|j]; [lia|]. reflexivity.
  - destruct go; [|discriminate E]. destruct AL as [AL|AL]; [|discriminate].
    destruct (multi_next_ok c 0 es2 its xs vss ps AR AL) as (its' & ps' & go' & E0 & AL' & G1 & G2).
    assert (MN : forall m, 6 <= m -> multi_next (run c m None) es2 its = Ret (its', go', es2)).
    { intros m Hm. pose proof (multi_next_mono (run c 6 None) (run c m None) its) as K.
      destruct (K (fun es e => run_mono c 6 m Hc Hm None es e) es2) as [K1|K1].
      - change (6 + 0) with 6 in E0. rewrite K1 in E0; discriminate E0.
      - rewrite <- K1. exact E0. }
    assert (TS : t = tuple vss ps /\ ts = (if go' then remaining vss ps' else [])).
    { destruct go'; [rewrite (G1 eq_refl) in E|rewrite (proj1 (G2 eq_refl)) in E]; injection E as -> ->; auto. }
    destruct TS as [-> TS].
    destruct (IH its' vss ps' go' (or_introl AL') TS) as [n2 H2].
    exists (S (n1 + n2 + 6)). intros m [|j] Hm Hj; [lia|]. cbn [iter_loop].
    rewrite (define_current_ok c its xs vss ps AL es es1 HA). cbn [obind].
    rewrite HE by lia. cbn [obind]. rewrite MN by lia. cbn [obind]. apply H2; lia.
Qed.

Lemma iter_loop_stop {A} c (eachf : evaluator -> A -> estate -> outcome (A * bool * estate)) xs es ts acc res es' :
  cfg_mono c -> rounds_stop c eachf xs es ts acc res es' ->
  forall its vss ps go, at_all its xs vss ps \/ go = false -> ts = (if go then remaining vss ps else []) ->
  exists n, forall m, n <= m -> iter_loop c m (run c m None) (eachf (run c m None)) es its go acc = Ret (res, true, es').
Proof.
  intros Hc HR.
  enough (K : forall its vss ps go, at_all its xs vss ps \/ go = false -> ts = (if go then remaining vss ps else []) ->
     exists n, forall m j, n <= m -> n <= j -> iter_loop c j (run c m None) (eachf (run c m None)) es its go acc = Ret (res, true, es')).
  { intros its vss ps go H1 H2. destruct (K its vss ps go H1 H2) as [n Hn]. exists n. intros m Hm. apply Hn; assumption. }
  induction HR as [es t ts es1 acc acc1 es2 HA [n1 HE]|es t ts es1 acc acc1 es2 res es3 HA [n1 HE] AR HR IH]; intros its vss ps go AL E.
  - destruct go; [|discriminate E]. destruct AL as [AL|AL]; [|discriminate].
    assert (TS : t = tuple vss ps).
    { destruct (multi_next_ok_tuple vss ps) as [r Hr]. rewrite Hr in E. injection E as -> ->. reflexivity. }
    subst t. exists (S n1). intros m [|j] Hm Hj; [lia|]. cbn [iter_loop].
    rewrite (define_current_ok c its xs vss ps AL es es1 HA). cbn [obind].
    rewrite HE by lia. reflexivity.
  - destruct go; [|discriminate E]. destruct AL as [AL|AL]; [|discriminate].
    destruct (multi_next_ok c 0 es2 its xs vss ps AR AL) as (its' & ps' & go' & E0 & AL' & G1 & G2).
    assert (MN : forall m, 6 <= m -> multi_next (run c m None) es2 its = Ret (its', go', es2)).
    { intros m Hm. pose proof (multi_next_mono (run c 6 None) (run c m None) its) as K.
      destruct (K (fun es e => run_mono c 6 m Hc Hm None es e) es2) as [K1|K1].
      - change (6 + 0) with 6 in E0. rewrite K1 in E0; discriminate E0.
      - rewrite <- K1. exact E0. }
    assert (TS : t = tuple vss ps /\ ts = (if go' then remaining vss ps' else [])).
    { destruct go'; [rewrite (G1 eq_refl) in E|rewrite (proj1 (G2 eq_refl)) in E]; injection E as -> ->; auto. }
    destruct TS as [-> TS].
    destruct (IH its' vss ps' go' (or_introl AL') TS) as [n2 H2].
    exists (S (n1 + n2 + 6)). intros m [|j] Hm Hj; [lia|]. cbn [iter_loop].
    rewrite (define_current_ok c its xs vss ps AL es es1 HA). cbn [obind].
    rewrite HE by lia. cbn [obind]. rewrite MN by lia. cbn [obind]. apply H2; lia.
Qed.

(* ---- from the specification of the iterators to the loop ---- *)
Inductive starts : list iter -> list string -> list (list ex) -> Prop :=
| ST_nil : starts [] [] []
| ST_cons it x vs its xs vss : at_pos it x vs 0 -> starts its xs vss -> starts (it :: its) (x :: xs) (vs :: vss).

Lemma spec_ok c es x ps ps' es1 vs : cfg_mono c -> evals_list c es ps ps' es1 -> iter_values ps' vs -> arith_ready es1 ->
  exists n it, at_pos it x vs 0 /\ forall m, n <= m -> spec_from_list (run c m None) es (mkList (ESym x :: ps)) = Ret (Some it, es1).
Proof.
  intros Hc EL IV AR. destruct (evals_list_large c _ _ _ _ Hc EL) as [n Hn].
  assert (RG : forall a b s, (0 < s)%Z -> covers a b s vs -> sums_ok a s (length vs) ->
     exists it, at_pos it x vs 0 /\ forall m, 6 <= m ->
       iter_reset (run c m None) es1 (IRange (ESym x) x (EInt a) (EInt b) (EInt s) (EInt a)) = Ret (it, es1)).
  { intros a b s Hs C SO. exists (IRange (ESym x) x (EInt a) (EInt b) (EInt s) (EInt a)). split.
    - replace (IRange (ESym x) x (EInt a) (EInt b) (EInt s) (EInt a)) with (IRange (ESym x) x (EInt a) (EInt b) (EInt s) (EInt (a + Z.of_nat 0 * s))) by (do 2 f_equal; lia).
      apply AT_range; auto. lia.
    - intros m Hm. replace m with (6 + (m - 6)) by lia. cbn [iter_reset].
      change (EExpr [sys "Plus"; EInt a; EExpr [sys "Times"; EInt 0; EInt s]]) with (fn "Plus" [EInt a; fn "Times" [EInt 0; EInt s]]).
      destruct SO as (SO1 & SO2 & SO3 & SO4). rewrite (run_reset c (m - 6) es1 a s AR SO1 SO2 SO3). reflexivity. }
  assert (HD : forall m, n <= m -> eval_candidate (run c m None) es (mkList (ESym x :: ps)) = Ret (mkList (ESym x :: ps'), es1)).
  { intros m Hm. unfold eval_candidate.
    replace (args_of (mkList (ESym x :: ps)) nList) with (Some (ESym x :: ps)) by reflexivity. rewrite (Hn m Hm). reflexivity. }
  assert (AO : args_of (mkList (ESym x :: ps')) nList = Some (ESym x :: ps')) by reflexivity.
  destruct IV as [b vs C SO|a b vs C SO|a b s vs Hs C SO|l].
  - destruct (RG 1%Z b 1%Z eq_refl C SO) as [it [P1 P2]]. exists (6 + n), it. split; [exact P1|]. intros m Hm.
    unfold spec_from_list. rewrite HD by lia. cbn [obind]. rewrite AO. cbn [iter_symbol iter_param]. rewrite P2 by lia. reflexivity.
  - destruct (RG a b 1%Z eq_refl C SO) as [it [P1 P2]]. exists (6 + n), it. split; [exact P1|]. intros m Hm.
    unfold spec_from_list. rewrite HD by lia. cbn [obind]. rewrite AO. cbn [iter_symbol iter_param andb]. rewrite P2 by lia. reflexivity.
  - destruct (RG a b s Hs C SO) as [it [P1 P2]]. exists (6 + n), it. split; [exact P1|]. intros m Hm.
    unfold spec_from_list. rewrite HD by lia. cbn [obind]. rewrite AO. cbn [iter_symbol iter_param andb]. rewrite P2 by lia. reflexivity.
  - exists n, (IList (ESym x) x l 0). split; [constructor; lia|]. intros m Hm.
    unfold spec_from_list. rewrite HD by lia. cbn [obind]. rewrite AO. reflexivity.
Qed.

Lemma specs_ok c es specs xs vss es1 : cfg_mono c -> iterators c es specs xs vss es1 ->
  exists n its, starts its xs vss /\ forall m, n <= m -> specs_from_lists (run c m None) es specs = Ret (Some its, es1).
Proof.
  intro Hc. induction 1 as [es|es x ps ps' es1 vs specs xs vss es2 EL IV AR _ IH].
  - exists 0, []. split; [constructor|]. reflexivity.
  - destruct IH as (n1 & its & S1 & H1). destruct (spec_ok c es x ps ps' es1 vs Hc EL IV AR) as (n2 & it & S2 & H2).
    exists (n1 + n2), (it :: its). split; [constructor; assumption|]. intros m Hm. cbn [specs_from_lists].
    rewrite H2 by lia. cbn [obind]. rewrite H1 by lia. reflexivity.
Qed.

Lemma snapshot_ok c k ev es its xs vss : starts its xs vss ->
  take_snapshot c k ev es its = Ret (map (get_sym_def (es_defs es)) xs, es).
Proof.
  induction 1 as [|it x vs its xs vss H _ IH]; [reflexivity|]. cbn [take_snapshot].
  destruct (at_var _ _ _ _ H) as [-> ->]. cbn [obind]. rewrite IH. reflexivity.
Qed.

Lemma restore_ok c es its xs vss os es1 : starts its xs vss -> restores c es xs os es1 ->
  restore_snapshot c es its os = Ret es1.
Proof.
  intros H R. revert its vss H. induction R as [es|es x v d xs os es2 D _ IH|es x xs os es2 _ IH]; intros its vss H; inversion H; subst.
  - reflexivity.
  - match goal with K : at_pos _ _ _ _ |- _ => destruct (at_var _ _ _ _ K) as [Ev En] end.
    cbn [restore_snapshot]. rewrite Ev. unfold es_define. rewrite D. cbn [obind]. eapply IH. eassumption.
  - match goal with K : at_pos _ _ _ _ |- _ => destruct (at_var _ _ _ _ K) as [Ev En] end.
    cbn [restore_snapshot]. rewrite En. cbn [obind]. eapply IH. eassumption.
Qed.

Lemma starts_go its xs vss : starts its xs vss ->
  exists ps, (at_all its xs vss ps \/ forallb iter_cont its = false) /\
    product vss = (if forallb iter_cont its then remaining vss ps else []).
Proof.
  intro H. exists (map (fun _ => 0) vss).
  assert (K : forallb iter_cont its = true -> at_all its xs vss (map (fun _ => 0) vss)).
  { induction H as [|it x vs its xs vss H _ IH]; intro F; [constructor|]. cbn [forallb] in F. apply andb_prop in F as [F1 F2].
    cbn [map]. constructor; auto. rewrite (at_cont _ _ _ _ H) in F1. apply Nat.ltb_lt in F1. exact F1. }
  destruct (forallb iter_cont its) eqn:F.
  - split; [left; auto|]. symmetry. apply remaining_zero. apply (at_all_nonempty its xs vss (map (fun _ => 0) vss)). auto.
  - split; [auto|]. clear K. induction H as [|it x vs its xs vss H _ IH]; [discriminate F|]. cbn [forallb] in F. cbn [product].
    rewrite (at_cont _ _ _ _ H) in F. destruct vs as [|v vs]; [reflexivity|].
    change (0 <? length (v :: vs)) with true in F. cbn [andb] in F. rewrite (IH F). clear.
    induction (v :: vs) as [|w ws IW]; [reflexivity|]. cbn [flat_map map app]. exact IW.
Qed.

Lemma frame_ok {A} c (init : A) each fin h es body specs xs vss es1 res es2 es3 : cfg_mono c -> specs <> [] ->
  iterators c es specs xs vss es1 ->
  rounds c (fun ev => each ev body) xs es1 (product vss) init res es2 ->
  restores c es2 xs (map (get_sym_def (es_defs es1)) xs) es3 ->
  exists n, forall m, n <= m ->
    iter_frame c init each fin m (run c m None) es (h :: body :: specs) = Ret (fin res, h :: body :: specs, es3).
Proof.
  intros Hc NE HI HR RS. destruct (specs_ok c _ _ _ _ _ Hc HI) as (n1 & its & ST & H1).
  destruct (starts_go its xs vss ST) as (ps & G1 & G2).
  destruct (iter_loop_ok c _ xs es1 _ _ _ _ Hc HR its vss ps _ G1 G2) as [n2 H2].
  exists (n1 + n2). intros m Hm. destruct specs as [|sp specs]; [contradiction|]. unfold iter_frame.
  rewrite H1 by lia. cbn [obind]. rewrite (snapshot_ok c m _ es1 its xs vss ST). cbn [obind].
  rewrite H2 by lia. cbn [obind]. rewrite (restore_ok c es2 its xs vss _ es3 ST RS). reflexivity.
Qed.
(* left early: nothing is restored *)
Lemma frame_stop {A} c (init : A) each fin h es body specs xs vss es1 res es2 : cfg_mono c -> specs <> [] ->
  iterators c es specs xs vss es1 ->
  rounds_stop c (fun ev => each ev body) xs es1 (product vss) init res es2 ->
  exists n, forall m, n <= m ->
    iter_frame c init each fin m (run c m None) es (h :: body :: specs) = Ret (fin res, h :: body :: specs, es2).
Proof.
  intros Hc NE HI HR. destruct (specs_ok c _ _ _ _ _ Hc HI) as (n1 & its & ST & H1).
  destruct (starts_go its xs vss ST) as (ps & G1 & G2).
  destruct (iter_loop_stop c _ xs es1 _ _ _ _ Hc HR its vss ps _ G1 G2) as [n2 H2].
  exists (n1 + n2). intros m Hm. destruct specs as [|sp specs]; [contradiction|]. unfold iter_frame.
  rewrite H1 by lia. cbn [obind]. rewrite (snapshot_ok c m _ es1 its xs vss ST). cbn [obind].
  rewrite H2 by lia. reflexivity.
Qed.

(* one pass over a call of a HoldAll function whose builtin changes it *)
Lemma held_pass c es h names args f r es1 : cfg_mono c -> system_fn es h names -> In "HoldAll"%string names ->
  ~ In "NumericFunction"%string names -> ~ In "Flat"%string names -> ~ In "Orderless"%string names -> ~ In "Listable"%string names ->
  Forall ordinary_arg args -> assoc (table c) h = Some f -> hash r <> hash (EExpr (ESym h :: args)) ->
  (exists n, forall m, n <= m -> f m (run c m None) es (ESym h :: args) = Ret (r, ESym h :: args, es1)) ->
  exists n, forall m, n <= m -> pass c m (run c m None) es (ESym h :: args) = Ret (inr (r, false), es1).
Proof.
  intros Hc S HA N1 N2 N3 N4 O T NS [n H]. exists n. intros m Hm.
  rewrite (pass_symbol c m (run c m None) es h names args (ESym h :: args) es); auto.
  - rewrite (head_changed c m (run c m None) es h names f (ESym h :: args) _ r es1 S T (H m Hm) (sameq_expr _ _ NS)). reflexivity.
  - apply (system_attrs _ _ _ S).
  - apply arg_pass_hold. intro i. apply holds_all; auto.
  - constructor; [apply ordinary_sym|exact O].
  - discriminate.
Qed.
