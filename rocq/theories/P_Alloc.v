From Verif Require Import M_Syntax M_Alloc S_Alloc.
From Coq Require Import Permutation.

(* ---- runs of a step function with outputs ---- *)
Section Runs.
  Context {St Out : Type} (step : St -> option (bool * St)) (out : St -> Out).
  Inductive runs : St -> list Out -> St -> Prop :=
  | r_refl s : runs s [] s
  | r_skip s s' l s'' : step s = Some (false, s') -> runs s' l s'' -> runs s l s''
  | r_out s s' l s'' : step s = Some (true, s') -> runs s' l s'' -> runs s (out s' :: l) s''.
  Lemma runs_trans s l s' l' s'' : runs s l s' -> runs s' l' s'' -> runs s (l ++ l') s''.
  Proof.
    induction 1; intro H2; cbn [app]; [exact H2| |].
    - eapply r_skip; eauto.
    - eapply r_out; eauto.
  Qed.
End Runs.

(* ---- updates ---- *)
Lemma upd_length {A} (l : list A) i v : length (upd l i v) = length l.
Proof. revert i. induction l as [|x l IH]; intros [|i]; cbn; auto. Qed.
Lemma upd_nth_same {A} (l : list A) i v d : i < length l -> nth i (upd l i v) d = v.
Proof. revert i. induction l as [|x l IH]; intros [|i] H; cbn in *; try lia; auto. apply IH; lia. Qed.
Lemma upd_nth_other {A} (l : list A) i j v d : i <> j -> nth j (upd l i v) d = nth j l d.
Proof. revert i j. induction l as [|x l IH]; intros [|i] [|j] H; cbn; auto; try lia. Qed.
Lemma firstn_upd {A} (l : list A) i v : i < length l -> firstn (S i) (upd l i v) = firstn i l ++ [v].
Proof.
  revert i. induction l as [|x l IH]; intros [|i] H; cbn in *; try lia; auto.
  f_equal. apply IH. lia.
Qed.
Lemma firstn_upd_le {A} (l : list A) i v k : k <= i -> firstn k (upd l i v) = firstn k l.
Proof.
  revert i k. induction l as [|x l IH]; intros [|i] [|k] H; cbn; auto; try lia.
  f_equal. apply IH. lia.
Qed.
Lemma upd_upd {A} (l : list A) i v w : upd (upd l i v) i w = upd l i w.
Proof. revert i. induction l as [|x l IH]; intros [|i]; cbn; auto. f_equal. apply IH. Qed.
Lemma upd_id {A} (l : list A) i d : i < length l -> upd l i (nth i l d) = l.
Proof. revert i. induction l as [|x l IH]; intros [|i] H; cbn in *; auto; try lia. f_equal. apply IH. lia. Qed.

Lemma skipn_nth {A} (l : list A) k x : nth_error l k = Some x -> skipn k l = x :: skipn (S k) l.
Proof. revert k. induction l as [|y l IH]; intros [|k] H; cbn in *; try discriminate; [injection H as ->; reflexivity|apply IH, H]. Qed.

Lemma map_ext_in' {A B} (f g : A -> B) l : (forall x, In x l -> f x = g x) -> map f l = map g l.
Proof. apply map_ext_in. Qed.

Lemma skipn_nil_len {A} k (l : list A) : skipn k l = [] -> length l <= k.
Proof. intro H. apply (f_equal (@length A)) in H. rewrite skipn_length in H. cbn in H. lia. Qed.

Lemma map_app1 {A} (p : list A) q X : map (fun t => (p ++ [q]) ++ t) X = map (fun x => p ++ q :: x) X.
Proof. apply map_ext. intro. rewrite <- app_assoc. reflexivity. Qed.

(* ---- allocIter ---- *)
Definition abase (al : list nat) (d i : nat) : list nat := match d with O => al | S k => upd al k i end.

Lemma allocs_len forms r a : In a (allocs forms r) -> length a = length forms.
Proof.
  revert r a. induction forms as [|f rest IH]; intros r a H; cbn [allocs] in H.
  - destruct H as [<-|[]]. reflexivity.
  - destruct rest as [|g rest].
    + destruct (_ && _); [destruct H as [<-|[]]; reflexivity|destruct H].
    + apply in_flat_map in H. destruct H as [i [_ H]]. apply in_map_iff in H. destruct H as [a' [<- H]].
      cbn [length]. f_equal. apply (IH _ _ H).
Qed.

Lemma arun forms : forall k d r i al stk, length forms = k + d -> length al = length forms ->
  exists al', runs (astep forms) as_alloc (AState al (AFrame d r i :: stk))
     (map (fun t => firstn d (abase al d i) ++ t) (allocs (skipn d forms) r)) (AState al' stk)
   /\ length al' = length al /\ firstn d al' = firstn d (abase al d i).
Proof.
  induction k as [|k IH]; intros d r i al stk Hk Hal.
  - assert (E : skipn d forms = []) by (apply skipn_all2; lia). rewrite E. cbn [allocs map].
    exists (abase al d i). split.
    + rewrite app_nil_r. assert (Efull : firstn d (abase al d i) = abase al d i).
      { apply firstn_all2. unfold abase. destruct d; [lia|rewrite upd_length; lia]. }
      rewrite Efull. eapply (r_out (astep forms) as_alloc _ (AState (abase al d i) stk)); [|apply r_refl].
      unfold astep. cbn [as_stack af_form af_i as_alloc].
      destruct (nth_error forms d) eqn:En; [apply nth_error_Some_lt in En || (assert (d < length forms) by (apply nth_error_Some; congruence)); lia|].
      destruct d; reflexivity.
    + split; [unfold abase; destruct d; [reflexivity|apply upd_length]|reflexivity].
  - destruct (nth_error forms d) as [f|] eqn:En; [|apply nth_error_None in En; lia].
    rewrite (skipn_nth _ _ _ En). cbn [allocs].
    assert (Hb : length (abase al d i) = length forms) by (unfold abase; destruct d; [assumption|rewrite upd_length; assumption]).
    set (b := abase al d i) in *.
    assert (St : astep forms (AState al (AFrame d r i :: stk)) =
      if length forms <=? d + 1 then Some (false, AState b (if (pf_start f <=? r) && le_end r (pf_end f) then AFrame (d + 1) 0 r :: stk else stk))
      else Some (false, AState b ((if pf_optional f then rev (map (fun i => AFrame (d + 1) (r - i) i) (arange f r)) else map (fun i => AFrame (d + 1) (r - i) i) (arange f r)) ++ stk))).
    { unfold astep. cbn [as_stack af_form af_i af_rem as_alloc]. rewrite En. subst b. unfold abase. destruct d; reflexivity. }
    destruct (Nat.leb_spec (length forms) (d + 1)) as [L|L].
    + assert (E : skipn (S d) forms = []) by (apply skipn_all2; lia). rewrite E.
      destruct ((pf_start f <=? r) && le_end r (pf_end f)) eqn:C.
      * destruct (IH (d + 1) 0 r b stk) as [al' [R [Ll F]]]; [lia|lia|].
        exists al'. split; [|split].
        -- eapply r_skip; [exact St|]. replace (d + 1) with (S d) in R by lia. rewrite E in R.
           cbn [allocs map] in *. cbn [abase] in R. rewrite firstn_upd in R by lia.
           rewrite app_nil_r in R. rewrite Nat.add_1_r. exact R.
        -- lia.
        -- apply (f_equal (firstn d)) in F. rewrite !firstn_firstn in F. replace (Nat.min d (d + 1)) with d in F by lia.
           rewrite F. rewrite Nat.add_1_r. cbn [abase]. apply firstn_upd_le. lia.
      * exists b. cbn [map]. split; [|split].
        -- eapply r_skip; [exact St|]. apply r_refl.
        -- lia.
        -- reflexivity.
    + destruct (skipn (S d) forms) as [|g rest] eqn:Er; [apply skipn_nil_len in Er; lia|].
      set (ps := if pf_optional f then rev (arange f r) else arange f r).
      assert (Eps : (if pf_optional f then rev (map (fun i => AFrame (d + 1) (r - i) i) (arange f r)) else map (fun i => AFrame (d + 1) (r - i) i) (arange f r))
             = map (fun i => AFrame (d + 1) (r - i) i) ps).
      { unfold ps. destruct (pf_optional f); [rewrite map_rev|]; reflexivity. }
      rewrite Eps in St. clear Eps.
      assert (G : forall qs c, length c = length forms -> firstn d c = firstn d b ->
         exists al', runs (astep forms) as_alloc (AState c (map (fun i => AFrame (d + 1) (r - i) i) qs ++ stk))
           (map (fun t => firstn d b ++ t) (flat_map (fun i => map (cons i) (allocs (g :: rest) (r - i))) qs)) (AState al' stk)
           /\ length al' = length c /\ firstn d al' = firstn d b).
      { induction qs as [|q qs IHq]; intros c Hc Fc; cbn [map app flat_map].
        - exists c. split; [apply r_refl|auto].
        - destruct (IH (d + 1) (r - q) q c (map (fun i => AFrame (d + 1) (r - i) i) qs ++ stk)) as [c1 [R [L1 F1]]]; [lia|lia|].
          assert (F1' : firstn d c1 = firstn d b).
          { apply (f_equal (firstn d)) in F1. rewrite !firstn_firstn in F1. replace (Nat.min d (d + 1)) with d in F1 by lia.
            rewrite F1, Nat.add_1_r. cbn [abase]. rewrite firstn_upd_le by lia. exact Fc. }
          destruct (IHq c1 ltac:(lia) F1') as [al' [R2 [L2 F2]]].
          exists al'. split; [|split; [lia|exact F2]].
          rewrite map_app. eapply runs_trans; [|exact R2].
          rewrite map_map. rewrite Nat.add_1_r in R. cbn [abase] in R. rewrite firstn_upd in R by lia.
          rewrite Fc in R. rewrite Er in R. rewrite Nat.add_1_r.
          rewrite map_app1 in R. exact R. }
      destruct (G ps b Hb eq_refl) as [al' [R [L1 F1]]]. exists al'. split; [|split; [lia|exact F1]].
      eapply r_skip; [exact St|]. exact R.
Qed.

Lemma arun_all forms l : exists al, runs (astep forms) as_alloc (ainit l forms) (allocs forms l) (AState al []).
Proof.
  destruct (arun forms (length forms) 0 l 0 (repeat 0 (length forms)) []) as [al [R _]]; [lia|apply repeat_length|].
  exists al. cbn [skipn firstn abase app] in R. rewrite map_id in R. exact R.
Qed.

Lemma acollect_runs forms s l s' : runs (astep forms) as_alloc s l s' -> as_stack s' = [] ->
  exists f0, forall fuel, f0 <= fuel -> acollect fuel forms s = Some l.
Proof.
  induction 1 as [s|s s1 l s2 E R IH|s s1 l s2 E R IH]; intro Hs.
  - exists 1. intros [|k] H; [lia|]. cbn [acollect]. unfold astep. rewrite Hs. reflexivity.
  - destruct (IH Hs) as [f0 F]. exists (S f0). intros [|k] H; [lia|]. cbn [acollect]. rewrite E, F by lia. reflexivity.
  - destruct (IH Hs) as [f0 F]. exists (S f0). intros [|k] H; [lia|]. cbn [acollect]. rewrite E, F by lia. reflexivity.
Qed.

Lemma alloc_collect forms l : exists f0, forall fuel, f0 <= fuel -> acollect fuel forms (ainit l forms) = Some (allocs forms l).
Proof. destruct (arun_all forms l) as [al R]. eapply acollect_runs; [exact R|reflexivity]. Qed.

(* what the recursive enumeration contains *)
Lemma arange_in f r i : In i (arange f r) <-> pf_start f <= i /\ i <= r /\ match pf_end f with None => True | Some m => i <= m end.
Proof. unfold arange. rewrite in_seq. unfold min_end. destruct (pf_end f); lia. Qed.

Lemma lsum_cons x l : lsum (x :: l) = x + lsum l. Proof. reflexivity. Qed.

Lemma allocs_in forms : forms <> [] -> forall r a, In a (allocs forms r) <-> valid_sizes forms r a.
Proof.
  induction forms as [|f rest IH]; intros N r a; [congruence|]. clear N. cbn [allocs].
  destruct rest as [|g rest].
  - split.
    + intro H. destruct ((pf_start f <=? r) && le_end r (pf_end f)) eqn:C; [|destruct H].
      destruct H as [<-|[]]. apply andb_true_iff in C. destruct C as [C1 C2]. apply Nat.leb_le in C1.
      split; [|cbn; lia]. constructor; [|constructor]. split; [exact C1|]. destruct (pf_end f); [apply Nat.leb_le in C2; exact C2|exact I].
    + intros [H S]. inversion H as [|? k ? t [C1 C2] H2]; subst. inversion H2; subst. cbn in *. rewrite Nat.add_0_r.
      replace ((pf_start f <=? k) && le_end k (pf_end f)) with true; [left; reflexivity|].
      symmetry. apply andb_true_iff. split; [apply Nat.leb_le; exact C1|]. unfold le_end. destruct (pf_end f); [apply Nat.leb_le; exact C2|reflexivity].
  - assert (IH' := IH ltac:(discriminate)). clear IH.
    assert (P : forall i, In i (if pf_optional f then rev (arange f r) else arange f r) <-> In i (arange f r)).
    { intro i. destruct (pf_optional f); [symmetry; apply in_rev|reflexivity]. }
    rewrite in_flat_map. split.
    + intros [i [Hi H]]. apply P, arange_in in Hi. apply in_map_iff in H. destruct H as [t [<- Ht]].
      apply IH' in Ht. destruct Ht as [H1 H2]. split; [constructor; [tauto|exact H1]|rewrite lsum_cons; lia].
    + intros [H S]. inversion H as [|? k ? t [C1 C2] H2]; subst. exists k. split.
      * apply P, arange_in. split; [exact C1|]. split; [rewrite lsum_cons; lia|exact C2].
      * apply in_map. apply IH'. split; [exact H2|rewrite lsum_cons; lia].
Qed.

Lemma nodup_flat_map_cons {A} (ps : list A) (F : A -> list (list A)) : NoDup ps -> (forall i, In i ps -> NoDup (F i)) ->
  NoDup (flat_map (fun i => map (cons i) (F i)) ps).
Proof.
  induction ps as [|p ps IH]; intros N H; [constructor|]. inversion N as [|? ? N1 N2]; subst. cbn [flat_map].
  assert (A1 : NoDup (map (cons p) (F p))).
  { apply FinFun.Injective_map_NoDup; [intros x y E; injection E; auto|]. apply H. left. reflexivity. }
  specialize (IH N2 (fun i Hi => H i (or_intror Hi))).
  assert (D : forall x, In x (map (cons p) (F p)) -> ~ In x (flat_map (fun i => map (cons i) (F i)) ps)).
  { intros x H1 H2. apply in_map_iff in H1. destruct H1 as [t [<- _]]. apply in_flat_map in H2.
    destruct H2 as [q [Hq H2]]. apply in_map_iff in H2. destruct H2 as [t' [E _]]. injection E as -> _. contradiction. }
  revert A1 D. generalize (map (cons p) (F p)). intros L A1 D. induction L as [|y L IHL]; [exact IH|].
  inversion A1 as [|? ? B1 B2]; subst. cbn [app]. constructor.
  - intro Hy. apply in_app_or in Hy. destruct Hy as [Hy|Hy]; [contradiction|apply (D y (or_introl eq_refl) Hy)].
  - apply IHL; [exact B2|intros; apply D; right; assumption].
Qed.

Lemma allocs_nodup forms : forall r, NoDup (allocs forms r).
Proof.
  induction forms as [|f rest IH]; intro r; cbn [allocs]; [constructor; [intros []|constructor]|].
  destruct rest as [|g rest].
  - destruct (_ && _); [constructor; [intros []|constructor]|constructor].
  - apply nodup_flat_map_cons; [|intros; apply IH].
    assert (NoDup (arange f r)) by apply seq_NoDup.
    destruct (pf_optional f); [apply NoDup_rev; assumption|assumption].
Qed.

(* ---- nextOrderless ---- *)
Definition obase (data : list nat) (d last : nat) : list nat := match d with O => data | S k => upd data k last end.
Definition otaken (t : list bool) (d last : nat) : list bool := match d with O => t | S _ => upd t last true end.

Section Orun.
  Variables (fm : nat -> nat -> bool) (A : astate) (idx assn : list nat).
  Definition ost (data : list nat) (t : list bool) (stk : list oframe) : ostate := OState A data idx assn t stk true.
  Definition odata (s : ostate) : list nat := os_data s.

  Lemma orun : forall k d last crossed data t stk, length idx = k + d -> length data = length idx ->
    (d = 0 \/ (last < length t /\ nth last t false = false)) ->
    exists data', runs (ostep fm) odata (ost data t (OTake last d crossed :: stk))
      (map (fun u => firstn d (obase data d last) ++ u)
           (odfs fm (skipn d idx) (if crossed then 0 else last + 1) (otaken t d last)))
      (ost data' t stk)
    /\ length data' = length data /\ firstn d data' = firstn d (obase data d last).
  Proof.
    induction k as [|k IH]; intros d last crossed data t stk Hk Hd Hl.
    - assert (E : skipn d idx = []) by (apply skipn_all2; lia). rewrite E. cbn [odfs map].
      set (b := obase data d last). assert (Hb : length b = length data) by (subst b; destruct d; [reflexivity|apply upd_length]).
      exists b. split; [|split; [exact Hb|reflexivity]].
      rewrite app_nil_r. assert (Efull : firstn d b = b) by (apply firstn_all2; lia). rewrite Efull.
      assert (En : nth_error idx d = None) by (apply nth_error_None; lia).
      destruct d as [|d'].
      + eapply (r_out (ostep fm) odata _ (ost b t stk)); [|apply r_refl].
        unfold ostep. cbn [ost os_stack os_data os_taken os_indices]. rewrite En. reflexivity.
      + destruct Hl as [Hl|[L1 L2]]; [discriminate|].
        eapply (r_out (ostep fm) odata _ (ost b (upd t last true) (OFree last :: stk))).
        * unfold ostep. cbn [ost os_stack os_data os_taken os_indices]. rewrite En. reflexivity.
        * eapply r_skip; [unfold ostep; cbn [ost os_stack os_data os_taken os_indices]; reflexivity|].
          unfold flip_at. rewrite upd_upd. replace (upd t last false) with t by (rewrite <- L2 at 1; symmetry; apply upd_id; exact L1).
          apply r_refl.
    - destruct (nth_error idx d) as [f|] eqn:En; [|apply nth_error_None in En; lia].
      rewrite (skipn_nth _ _ _ En).
      set (b := obase data d last). assert (Hb : length b = length data) by (subst b; destruct d; [reflexivity|apply upd_length]).
      set (t1 := otaken t d last). set (start := if crossed then 0 else last + 1).
      set (stk1 := match d with O => stk | S _ => OFree last :: stk end).
      set (cross := match nth_error idx (d + 1) with None => false | Some g => negb (f =? g) end).
      set (cand := filter (fun i => negb (nth i t1 false) && fm f i) (seq start (length t1 - start))).
      assert (St : ostep fm (ost data t (OTake last d crossed :: stk)) =
        Some (false, ost b t1 (map (fun i => OTake i (d + 1) cross) cand ++ stk1))).
      { unfold ostep. cbn [ost os_stack os_data os_taken os_indices]. rewrite En.
        subst b t1 stk1 cand start cross. unfold obase, otaken, flip_at. destruct d; reflexivity. }
      cbn [odfs]. fold cand.
      assert (Cn : forall i, match skipn (S d) idx with [] => i + 1 | g :: _ => if f =? g then i + 1 else 0 end
                   = if cross then 0 else i + 1).
      { intro i. subst cross. rewrite (Nat.add_1_r d). destruct (nth_error idx (S d)) as [g|] eqn:En2.
        - rewrite (skipn_nth _ _ _ En2). destruct (f =? g); reflexivity.
        - apply nth_error_None in En2. rewrite skipn_all2 by lia. reflexivity. }
      assert (Cin : forall i, In i cand -> i < length t1 /\ nth i t1 false = false).
      { intros i Hi. apply filter_In in Hi. destruct Hi as [Hi C]. apply in_seq in Hi.
        apply andb_true_iff in C. destruct C as [C _]. apply negb_true_iff in C. split; [lia|exact C]. }
      assert (G : forall qs, (forall i, In i qs -> i < length t1 /\ nth i t1 false = false) ->
         forall c, length c = length idx -> firstn d c = firstn d b ->
         exists c', runs (ostep fm) odata (ost c t1 (map (fun i => OTake i (d + 1) cross) qs ++ stk1))
           (map (fun u => firstn d b ++ u) (flat_map (fun i => map (cons i) (odfs fm (skipn (S d) idx)
                (match skipn (S d) idx with [] => i + 1 | g :: _ => if f =? g then i + 1 else 0 end) (upd t1 i true))) qs))
           (ost c' t1 stk1) /\ length c' = length c /\ firstn d c' = firstn d b).
      { induction qs as [|q qs IHq]; intros Hq c Hc Fc; cbn [map app flat_map].
        - exists c. split; [apply r_refl|auto].
        - destruct (IH (d + 1) q cross c t1 (map (fun i => OTake i (d + 1) cross) qs ++ stk1)) as [c1 [R [L1 F1]]];
            [lia|lia|right; apply Hq; left; reflexivity|].
          assert (F1' : firstn d c1 = firstn d b).
          { apply (f_equal (firstn d)) in F1. rewrite !firstn_firstn in F1. replace (Nat.min d (d + 1)) with d in F1 by lia.
            rewrite F1, Nat.add_1_r. cbn [obase]. rewrite firstn_upd_le by lia. exact Fc. }
          destruct (IHq (fun i Hi => Hq i (or_intror Hi)) c1 ltac:(lia) F1') as [c2 [R2 [L2 F2]]].
          exists c2. split; [|split; [lia|exact F2]].
          rewrite map_app. eapply runs_trans; [|exact R2].
          rewrite map_map, Cn. rewrite Nat.add_1_r in R. cbn [obase otaken] in R. rewrite firstn_upd in R by lia.
          rewrite Fc in R. rewrite Nat.add_1_r.
          rewrite map_app1 in R. exact R. }
      destruct (G cand Cin b ltac:(lia) eq_refl) as [c' [R [L1 F1]]].
      exists c'. split; [|split; [lia|exact F1]].
      eapply r_skip; [exact St|]. match goal with |- runs _ _ _ ?L _ => rewrite <- (app_nil_r L) end. eapply runs_trans; [exact R|].
      subst stk1 t1. destruct d as [|d']; [apply r_refl|]. destruct Hl as [Hl|[L3 L4]]; [discriminate|].
      eapply r_skip; [unfold ostep; cbn [ost os_stack os_data os_taken os_indices]; reflexivity|].
      unfold flip_at, otaken. rewrite upd_upd. replace (upd t last false) with t by (rewrite <- L4 at 1; symmetry; apply upd_id; exact L3).
      apply r_refl.
  Qed.
End Orun.

(* ---- the whole iterator ---- *)
Definition nout (s : ostate) : list (list nat) := slices (os_assn s) (os_data s).

Lemma ostep_keeps fm s y s' : ostep fm s = Some (y, s') -> os_iter s' = os_iter s /\ os_assn s' = os_assn s.
Proof.
  unfold ostep. destruct (os_stack s) as [|[i|last d c] stk]; [discriminate| |].
  - intro H. injection H as _ <-. auto.
  - destruct (nth_error _ d); intro H; injection H as _ <-; auto.
Qed.

Lemma lift_runs forms fm ord s L s' : runs (ostep fm) odata s L s' -> os_iter s = true ->
  runs (nstep forms fm ord) nout s (map (slices (os_assn s)) L) s' /\ os_iter s' = true.
Proof.
  induction 1 as [s|s s1 l s2 E R IH|s s1 l s2 E R IH]; intro Hi.
  - split; [apply r_refl|exact Hi].
  - destruct (ostep_keeps _ _ _ _ E) as [K1 K2]. rewrite Hi in K1. destruct (IH K1) as [R' I'].
    split; [|exact I']. eapply r_skip; [unfold nstep; rewrite Hi, E; reflexivity|]. rewrite <- K2. exact R'.
  - destruct (ostep_keeps _ _ _ _ E) as [K1 K2]. rewrite Hi in K1. destruct (IH K1) as [R' I'].
    split; [|exact I']. cbn [map]. replace (slices (os_assn s) (odata s1)) with (nout s1) by (unfold nout, odata; rewrite K2; reflexivity).
    eapply r_out; [unfold nstep; rewrite Hi, E; reflexivity|]. rewrite <- K2. exact R'.
Qed.

Lemma indices_len al : forall i, length (indices_from i al) = lsum al.
Proof. induction al as [|n t IH]; intro i; [reflexivity|]. cbn [indices_from]. rewrite app_length, repeat_length, IH. reflexivity. Qed.

Definition emit (fm : nat -> nat -> bool) (ord : bool) (l : nat) (al : list nat) : list (list (list nat)) :=
  if ord then map (slices al) (odfs fm (indices_from 0 al) 0 (repeat false l)) else [slices al (seq 0 l)].

Lemma nrun forms fm ord l : forall A L A', runs (astep forms) as_alloc A L A' -> (forall al, In al L -> lsum al = l) ->
  forall data ix assn, length data = l -> (ord = false -> data = seq 0 l) ->
  exists data' ix' assn', runs (nstep forms fm ord) nout (OState A data ix assn (repeat false l) [] false)
     (flat_map (emit fm ord l) L) (OState A' data' ix' assn' (repeat false l) [] false).
Proof.
  induction 1 as [A|A A1 L A2 E R IH|A A1 L A2 E R IH]; intros Hs data ix assn Hd Ho.
  - exists data, ix, assn. apply r_refl.
  - destruct (IH Hs data ix assn Hd Ho) as [d' [i' [a' R']]]. exists d', i', a'.
    eapply r_skip; [|exact R']. unfold nstep. cbn [os_iter os_alloc]. rewrite E. reflexivity.
  - cbn [flat_map]. set (al := as_alloc A1) in *. assert (Hal : lsum al = l) by (apply Hs; left; reflexivity).
    assert (Hs' : forall al, In al L -> lsum al = l) by (intros; apply Hs; right; assumption).
    destruct ord.
    + destruct (orun fm A1 (indices_from 0 al) al l 0 0 true data (repeat false l) []) as [data1 [R1 [L1 _]]];
        [rewrite indices_len; lia|rewrite indices_len; lia|left; reflexivity|].
      destruct (lift_runs forms fm true _ _ _ R1 eq_refl) as [R2 _].
      destruct (IH Hs' data1 (indices_from 0 al) al) as [d' [i' [a' R']]]; [lia|discriminate|].
      exists d', i', a'. eapply r_skip.
      * unfold nstep. cbn [os_iter os_alloc]. rewrite E. reflexivity.
      * unfold emit at 1. cbn [skipn firstn obase otaken app] in R2. rewrite map_id in R2.
        eapply runs_trans; [exact R2|]. eapply r_skip; [|exact R'].
        unfold nstep. reflexivity.
    + rewrite (Ho eq_refl) in *. clear data Ho. set (data := seq 0 l) in *.
      destruct (IH Hs' data (indices_from 0 al) al Hd (fun _ => eq_refl)) as [d' [i' [a' R']]].
      exists d', i', a'. cbn [emit app].
      change (slices al (seq 0 l)) with (nout (OState A1 data (indices_from 0 al) al (repeat false l) [] false)).
      eapply r_out; [|exact R']. unfold nstep. cbn [os_iter os_alloc]. rewrite E. reflexivity.
Qed.

Lemma ncollect_runs forms fm ord s L s' : runs (nstep forms fm ord) nout s L s' -> nstep forms fm ord s' = None ->
  exists f0, forall fuel, f0 <= fuel -> ncollect fuel forms fm ord s = Some L.
Proof.
  induction 1 as [s|s s1 l s2 E R IH|s s1 l s2 E R IH]; intro Hs.
  - exists 1. intros [|k] H; [lia|]. cbn [ncollect]. rewrite Hs. reflexivity.
  - destruct (IH Hs) as [f0 F]. exists (S f0). intros [|k] H; [lia|]. cbn [ncollect]. rewrite E, F by lia. reflexivity.
  - destruct (IH Hs) as [f0 F]. exists (S f0). intros [|k] H; [lia|]. cbn [ncollect]. rewrite E, F by lia. reflexivity.
Qed.

Lemma assn_collect forms fm ord l : forms <> [] -> exists f0, forall fuel, f0 <= fuel ->
  ncollect fuel forms fm ord (ninit l forms) = Some (assignments forms fm ord l).
Proof.
  intro N. destruct (arun_all forms l) as [al R].
  destruct (nrun forms fm ord l _ _ _ R) with (data := seq 0 l) (ix := @nil nat) (assn := @nil nat) as [d' [i' [a' R']]].
  - intros a Ha. apply (allocs_in forms N) in Ha. apply Ha.
  - apply seq_length.
  - reflexivity.
  - eapply ncollect_runs; [exact R'|]. reflexivity.
Qed.

(* ---- contents of [assignments] ---- *)
Lemma slices_len al : forall data, lsum al = length data -> map (@length nat) (slices al data) = al.
Proof.
  induction al as [|n t IH]; intros data H; [reflexivity|]. rewrite lsum_cons in H. cbn [slices map]. f_equal.
  - rewrite firstn_length. lia.
  - apply IH. rewrite skipn_length. lia.
Qed.
Lemma slices_concat al : forall data, lsum al = length data -> concat (slices al data) = data.
Proof.
  induction al as [|n t IH]; intros data H; [destruct data; [reflexivity|discriminate]|]. rewrite lsum_cons in H.
  cbn [slices concat]. rewrite IH by (rewrite skipn_length; lia). apply firstn_skipn.
Qed.
Lemma slices_of_concat bs : slices (map (@length nat) bs) (concat bs) = bs.
Proof.
  induction bs as [|b bs IH]; [reflexivity|]. cbn [map concat slices]. f_equal.
  - rewrite firstn_app, Nat.sub_diag, firstn_all. cbn. apply app_nil_r.
  - rewrite skipn_app, Nat.sub_diag, skipn_all. exact IH.
Qed.
Lemma lsum_concat bs : lsum (map (@length nat) bs) = length (concat bs).
Proof. induction bs as [|b bs IH]; [reflexivity|]. cbn [map concat]. rewrite lsum_cons, app_length, IH. reflexivity. Qed.

Lemma ordered_in forms fm l : forms <> [] -> forall bs, In bs (assignments forms fm false l) <-> valid_split forms l bs.
Proof.
  intros N bs. unfold assignments. rewrite in_flat_map. split.
  - intros [al [Ha [<-|[]]]]. apply (allocs_in forms N) in Ha. destruct Ha as [H1 H2].
    assert (E : lsum al = length (seq 0 l)) by (rewrite seq_length; exact H2).
    split; [rewrite slices_len by exact E; split; assumption|apply slices_concat, E].
  - intros [H1 H2]. exists (map (@length nat) bs). split; [apply (allocs_in forms N), H1|].
    left. rewrite <- H2. apply slices_of_concat.
Qed.

Lemma nodup_map_inj {A B} (f : A -> B) l : (forall x y, In x l -> In y l -> f x = f y -> x = y) -> NoDup l -> NoDup (map f l).
Proof.
  induction l as [|a l IH]; intros I N; [constructor|]. inversion N as [|? ? N1 N2]; subst. cbn. constructor.
  - intro H. apply in_map_iff in H. destruct H as [y [E Hy]]. assert (y = a) by (apply I; [right; assumption|left; reflexivity|exact E]).
    subst y. contradiction.
  - apply IH; [intros x y Hx Hy E; apply I; [right; exact Hx|right; exact Hy|exact E]|exact N2].
Qed.

Lemma flat_map_single {A B} (f : A -> B) l : flat_map (fun x => [f x]) l = map f l.
Proof. induction l as [|x l IH]; [reflexivity|]. cbn. rewrite IH. reflexivity. Qed.

Lemma ordered_nodup forms fm l : forms <> [] -> NoDup (assignments forms fm false l).
Proof.
  intro N. unfold assignments. rewrite flat_map_single. apply nodup_map_inj; [|apply allocs_nodup].
  intros x y Hx Hy E. apply (allocs_in forms N) in Hx. apply (allocs_in forms N) in Hy.
  apply (f_equal (map (@length nat))) in E.
  rewrite (slices_len x), (slices_len y) in E; [exact E| |]; rewrite seq_length; first [apply Hy | apply Hx].
Qed.

(* orderless: what odfs lists.  A candidate list D is acceptable for the index
   list idx when started at [start] with [taken]. *)
Inductive odfs_ok (fm : nat -> nat -> bool) : list nat -> nat -> list bool -> list nat -> Prop :=
| ok_nil st t : odfs_ok fm [] st t []
| ok_cons f idx st t i D : st <= i < length t -> nth i t false = false -> fm f i = true ->
    odfs_ok fm idx (match idx with [] => i + 1 | g :: _ => if f =? g then i + 1 else 0 end) (upd t i true) D ->
    odfs_ok fm (f :: idx) st t (i :: D).

Lemma odfs_in fm idx : forall st t D, In D (odfs fm idx st t) <-> odfs_ok fm idx st t D.
Proof.
  induction idx as [|f idx IH]; intros st t D; cbn [odfs].
  - split; [intros [<-|[]]; constructor|]. intro H; inversion H. left; reflexivity.
  - rewrite in_flat_map. split.
    + intros [i [Hi H]]. apply filter_In in Hi. destruct Hi as [Hi C]. apply in_seq in Hi.
      apply andb_true_iff in C. destruct C as [C1 C2]. apply negb_true_iff in C1.
      apply in_map_iff in H. destruct H as [D' [<- H]]. constructor; [lia|exact C1|exact C2|]. apply IH, H.
    + intro H. inversion H as [|? ? ? ? i D' H1 H2 H3 H4]; subst. exists i. split.
      * apply filter_In. split; [apply in_seq; lia|]. rewrite H2, H3. reflexivity.
      * apply in_map. apply IH, H4.
Qed.
Lemma odfs_nodup fm idx : forall st t, NoDup (odfs fm idx st t).
Proof.
  induction idx as [|f idx IH]; intros st t; cbn [odfs]; [constructor; [intros []|constructor]|].
  apply (nodup_flat_map_cons _ (fun i => odfs fm idx (match idx with [] => i + 1 | g :: _ => if f =? g then i + 1 else 0 end) (upd t i true))).
  - apply NoDup_filter, seq_NoDup.
  - intros; apply IH.
Qed.

Fixpoint good (fm : nat -> nat -> bool) (i : nat) (al : list nat) (D : list nat) : Prop :=
  match al with
  | [] => True
  | n :: al' => strictly_increasing (firstn n D) /\ (forall x, In x (firstn n D) -> fm i x = true) /\
                good fm (S i) al' (skipn n D)
  end.

Lemma indices_ge al : forall i g, In g (indices_from i al) -> i <= g.
Proof.
  induction al as [|n t IH]; intros i g H; [destruct H|]. cbn [indices_from] in H. apply in_app_or in H.
  destruct H as [H|H]; [apply repeat_spec in H; lia|]. apply IH in H. lia.
Qed.

Lemma si_cons x l : strictly_increasing (x :: l) <-> (forall y, In y l -> x < y) /\ strictly_increasing l.
Proof.
  revert x. induction l as [|z l IH]; intro x.
  - cbn. split; [intros _; split; [intros y []|exact I]|auto].
  - split.
    + intros [H1 H2]. split; [|exact H2]. apply IH in H2. destruct H2 as [H2 _].
      intros y [<-|Hy]; [exact H1|]. specialize (H2 y Hy). lia.
    + intros [H1 H2]. split; [apply H1; left; reflexivity|exact H2].
Qed.

Definition conds fm i n al st (t : list bool) D : Prop :=
  length D = n + lsum al /\ NoDup D /\ (forall x, In x D -> x < length t /\ nth x t false = false) /\
  strictly_increasing (firstn n D) /\ (forall x, In x (firstn n D) -> st <= x /\ fm i x = true) /\
  good fm (S i) al (skipn n D).

Lemma upd_false t x y : y < length t -> (nth y (upd t x true) false = false <-> y <> x /\ nth y t false = false).
Proof.
  intro H. destruct (Nat.eq_dec x y) as [->|N].
  - rewrite upd_nth_same by exact H. split; [discriminate|tauto].
  - rewrite upd_nth_other by exact N. split; [split; [auto|assumption]|tauto].
Qed.

Lemma odfs_ok_nil fm st t D : odfs_ok fm [] st t D <-> D = [].
Proof. split; [intro H; inversion H; reflexivity|intros ->; constructor]. Qed.

Lemma odfs_blocks fm : forall al i n st t D, (n = 0 -> st = 0) ->
  (odfs_ok fm (repeat i n ++ indices_from (S i) al) st t D <-> conds fm i n al st t D).
Proof.
  induction al as [|m al IHal]; intros i; (induction n as [|n IHn]; intros st t D Hst).
  - cbn [repeat app indices_from]. rewrite odfs_ok_nil. unfold conds. cbn. split.
    + intros ->. split; [reflexivity|]. split; [apply NoDup_nil|]. split; [intros x []|]. split; [exact I|]. split; [intros x []|exact I].
    + intros [H _]. destruct D; [reflexivity|discriminate].
  - cbn [repeat app indices_from]. cbn [indices_from] in IHn. rewrite app_nil_r in *. split.
    + intro H. inversion H as [|? ? ? ? x D' H1 H2 H3 H4]; subst.
      assert (C : conds fm i n [] (match n with O => 0 | _ => x + 1 end) (upd t x true) D').
      { apply IHn; [destruct n; [reflexivity|discriminate]|]. destruct n; cbn [repeat] in *.
        - apply odfs_ok_nil in H4. apply odfs_ok_nil. exact H4.
        - rewrite Nat.eqb_refl in H4. exact H4. }
      destruct C as [C1 [C2 [C3 [C4 [C5 _]]]]]. rewrite upd_length in C3.
      assert (X : forall y, In y D' -> y <> x) by (intros y Hy; destruct (C3 y Hy) as [Y1 Y2]; apply upd_false in Y2; tauto).
      split; [cbn in *; lia|]. split; [constructor; [intro F; apply (X x F); reflexivity|exact C2]|].
      split; [intros y [<-|Hy]; [tauto|]; destruct (C3 y Hy) as [Y1 Y2]; apply upd_false in Y2; tauto|].
      cbn [firstn]. split; [|split; [|exact I]].
      * apply si_cons. split; [|exact C4]. intros y Hy. destruct n; [destruct D'; cbn in *; [destruct Hy|lia]|]. destruct (C5 y Hy). lia.
      * intros y [<-|Hy]; [split; [lia|exact H3]|]. destruct n; [destruct D'; cbn in *; [destruct Hy|lia]|]. destruct (C5 y Hy). split; [lia|assumption].
    + intros [C1 [C2 [C3 [C4 [C5 _]]]]]. destruct D as [|x D']; [cbn in C1; lia|].
      cbn [firstn] in C4, C5. destruct (C5 x (or_introl eq_refl)) as [X1 X2]. destruct (C3 x (or_introl eq_refl)) as [X3 X4].
      apply si_cons in C4. destruct C4 as [C4 C4']. inversion C2 as [|? ? N1 N2]; subst.
      constructor; [lia|exact X4|exact X2|].
      assert (C : conds fm i n [] (match n with O => 0 | _ => x + 1 end) (upd t x true) D').
      { split; [cbn in *; lia|]. split; [exact N2|]. split.
        - intros y Hy. rewrite upd_length. destruct (C3 y (or_intror Hy)). split; [assumption|]. apply upd_false; [assumption|].
          split; [intros ->; contradiction|assumption].
        - split; [exact C4'|]. split; [|exact I]. intros y Hy. destruct (C5 y (or_intror Hy)) as [_ Y]. split; [|exact Y].
          destruct n; [lia|]. specialize (C4 y Hy). lia. }
      apply IHn in C; [|destruct n; [reflexivity|discriminate]].
      destruct n; cbn [repeat] in *; [apply odfs_ok_nil in C; apply odfs_ok_nil; exact C|rewrite Nat.eqb_refl; exact C].
  - rewrite (Hst eq_refl). cbn [repeat app]. cbn [indices_from]. rewrite (IHal (S i) m 0 t D) by reflexivity.
    unfold conds. cbn [good firstn skipn strictly_increasing]. rewrite lsum_cons. split.
    + intros [A1 [A2 [A3 [A4 [A5 A6]]]]]. split; [exact A1|]. split; [exact A2|]. split; [exact A3|]. split; [exact I|].
      split; [intros x []|]. split; [exact A4|]. split; [intros x Hx; apply A5, Hx|exact A6].
    + intros [A1 [A2 [A3 [A4 [A5 [A6 [A7 A8]]]]]]]. split; [exact A1|]. split; [exact A2|]. split; [exact A3|]. split; [exact A6|].
      split; [intros x Hx; split; [lia|apply A7, Hx]|exact A8].
  - cbn [repeat app]. set (rest := indices_from (S i) (m :: al)) in *.
    assert (NX : forall x, match repeat i n ++ rest with [] => x + 1 | g :: _ => if i =? g then x + 1 else 0 end =
                  match n with O => match rest with [] => x + 1 | _ => 0 end | _ => x + 1 end).
    { intro x. destruct n; cbn [repeat app]; [|rewrite Nat.eqb_refl; reflexivity].
      destruct rest as [|g r] eqn:Er; [reflexivity|].
      assert (S i <= g) by (apply (indices_ge (m :: al)); fold rest; rewrite Er; left; reflexivity).
      destruct (Nat.eqb_spec i g); [lia|reflexivity]. }
    assert (Q : forall x t' D', odfs_ok fm (repeat i n ++ rest) (match n with O => match rest with [] => x + 1 | _ => 0 end | _ => x + 1 end) t' D' <->
                 conds fm i n (m :: al) (match n with O => 0 | _ => x + 1 end) t' D').
    { intros x t' D'. rewrite <- IHn by (destruct n; [reflexivity|discriminate]).
      destruct n; [|reflexivity]. cbn [repeat app]. destruct rest; [rewrite !odfs_ok_nil; reflexivity|reflexivity]. }
    split.
    + intro H. inversion H as [|? ? ? ? x D' H1 H2 H3 H4]; subst. rewrite NX in H4. apply Q in H4. rename H4 into C.
      destruct C as [C1 [C2 [C3 [C4 [C5 C6]]]]]. rewrite upd_length in C3.
      assert (X : forall y, In y D' -> y <> x) by (intros y Hy; destruct (C3 y Hy) as [Y1 Y2]; apply upd_false in Y2; tauto).
      split; [cbn [length]; lia|]. split; [constructor; [intro F; apply (X x F); reflexivity|exact C2]|].
      split; [intros y [<-|Hy]; [tauto|]; destruct (C3 y Hy) as [Y1 Y2]; apply upd_false in Y2; tauto|].
      cbn [firstn skipn]. split; [|split; [|exact C6]].
      * apply si_cons. split; [|exact C4]. intros y Hy. destruct n; [destruct Hy|]. destruct (C5 y Hy). lia.
      * intros y [<-|Hy]; [split; [lia|exact H3]|]. destruct n; [destruct Hy|]. destruct (C5 y Hy). split; [lia|assumption].
    + intros [C1 [C2 [C3 [C4 [C5 C6]]]]]. destruct D as [|x D']; [cbn in C1; lia|].
      cbn [firstn skipn] in C4, C5, C6. destruct (C5 x (or_introl eq_refl)) as [X1 X2]. destruct (C3 x (or_introl eq_refl)) as [X3 X4].
      apply si_cons in C4. destruct C4 as [C4 C4']. inversion C2 as [|? ? N1 N2]; subst.
      constructor; [lia|exact X4|exact X2|]. rewrite NX. apply Q.
      split; [cbn [length] in C1; lia|]. split; [exact N2|]. split.
      * intros y Hy. rewrite upd_length. destruct (C3 y (or_intror Hy)). split; [assumption|]. apply upd_false; [assumption|].
        split; [intros ->; contradiction|assumption].
      * split; [exact C4'|]. split; [|exact C6]. intros y Hy. destruct (C5 y (or_intror Hy)) as [_ Y]. split; [|exact Y].
        destruct n; [lia|]. specialize (C4 y Hy). lia.
Qed.

Lemma good_slices fm al : forall i D, good fm i al D <->
  Forall strictly_increasing (slices al D) /\
  (forall j b x, nth_error (slices al D) j = Some b -> In x b -> fm (i + j) x = true).
Proof.
  induction al as [|n al IH]; intros i D; cbn [good slices].
  - split; [|auto]. intros _. split; [constructor|]. intros [|j] b x H; discriminate.
  - rewrite IH. split.
    + intros [H1 [H2 [H3 H4]]]. split; [constructor; assumption|]. intros [|j] b x Hb Hx.
      * injection Hb as <-. rewrite Nat.add_0_r. apply H2, Hx.
      * replace (i + S j) with (S i + j) by lia. apply (H4 j b x Hb Hx).
    + intros [H1 H2]. inversion H1; subst. split; [assumption|]. split.
      * intros x Hx. specialize (H2 0 _ x eq_refl Hx). rewrite Nat.add_0_r in H2. exact H2.
      * split; [assumption|]. intros j b x Hb Hx. replace (S i + j) with (i + S j) by lia. apply (H2 (S j) b x Hb Hx).
Qed.

Lemma odfs_spec fm al l D : lsum al = l ->
  (In D (odfs fm (indices_from 0 al) 0 (repeat false l)) <->
   Permutation D (seq 0 l) /\ Forall strictly_increasing (slices al D) /\
   (forall j b x, nth_error (slices al D) j = Some b -> In x b -> fm j x = true)).
Proof.
  intro Hl. rewrite odfs_in.
  assert (T : forall x, nth x (repeat false l) false = false).
  { intro x. destruct (Nat.lt_ge_cases x l); [|apply nth_overflow; rewrite repeat_length; lia].
    apply (repeat_spec l). apply nth_In. rewrite repeat_length. exact H. }
  assert (C : odfs_ok fm (indices_from 0 al) 0 (repeat false l) D <->
    length D = lsum al /\ NoDup D /\ (forall x, In x D -> x < l) /\ good fm 0 al D).
  { destruct al as [|n al].
    - cbn [indices_from]. rewrite odfs_ok_nil. cbn. split.
      + intros ->. split; [reflexivity|]. split; [apply NoDup_nil|]. split; [intros x []|exact I].
      + intros [H _]. destruct D; [reflexivity|discriminate].
    - cbn [indices_from]. rewrite (odfs_blocks fm al 0 n 0 (repeat false l) D) by reflexivity.
      unfold conds. rewrite repeat_length, lsum_cons. cbn [good]. split.
      + intros [A1 [A2 [A3 [A4 [A5 A6]]]]]. repeat split; try assumption; [intros x Hx; apply A3, Hx|intros x Hx; apply A5, Hx].
      + intros [A1 [A2 [A3 [A4 [A5 A6]]]]]. repeat split; try assumption; [apply A3; assumption|apply T|lia|apply A5; assumption]. }
  rewrite C, good_slices. cbn [plus]. split.
  - intros [A1 [A2 [A3 A4]]]. split; [|exact A4].
    apply NoDup_Permutation_bis; [exact A2|rewrite seq_length; lia|]. intros x Hx. apply in_seq. specialize (A3 x Hx). lia.
  - intros [P A]. split; [apply Permutation_length in P; rewrite seq_length in P; lia|].
    split; [apply (Permutation_NoDup (Permutation_sym P)), seq_NoDup|]. split; [|exact A].
    intros x Hx. apply (Permutation_in x P) in Hx. apply in_seq in Hx. lia.
Qed.

Lemma orderless_in forms fm l : forms <> [] -> forall bs, In bs (assignments forms fm true l) <-> valid_distribution forms fm l bs.
Proof.
  intros N bs. unfold assignments. rewrite in_flat_map. split.
  - intros [al [Ha H]]. apply (allocs_in forms N) in Ha. apply in_map_iff in H. destruct H as [D [<- HD]].
    apply (odfs_spec fm al l D) in HD; [|apply Ha]. destruct HD as [P [S F]].
    assert (E : lsum al = length D) by (apply Permutation_length in P; rewrite seq_length in P; destruct Ha; lia).
    split; [rewrite slices_len by exact E; exact Ha|]. split; [rewrite slices_concat by exact E; exact P|]. split; assumption.
  - intros [V [P [S F]]]. exists (map (@length nat) bs). split; [apply (allocs_in forms N), V|].
    apply in_map_iff. exists (concat bs). split; [apply slices_of_concat|].
    apply odfs_spec; [apply V|]. rewrite slices_of_concat. auto.
Qed.

Lemma NoDup_app_intro {A} (l l' : list A) : NoDup l -> NoDup l' -> (forall x, In x l -> ~ In x l') -> NoDup (l ++ l').
Proof.
  induction l as [|x l IH]; intros N N' D; [exact N'|]. inversion N as [|? ? N1 N2]; subst. cbn. constructor.
  - intro H. apply in_app_or in H. destruct H as [H|H]; [contradiction|apply (D x (or_introl eq_refl) H)].
  - apply IH; [exact N2|exact N'|intros; apply D; right; assumption].
Qed.

Lemma orderless_nodup forms fm l : forms <> [] -> NoDup (assignments forms fm true l).
Proof.
  intro N. unfold assignments.
  assert (G : forall als, NoDup als -> (forall al, In al als -> lsum al = l) ->
    NoDup (flat_map (fun al => map (slices al) (odfs fm (indices_from 0 al) 0 (repeat false l))) als)).
  { induction als as [|al als IH]; intros Nd Hs; [constructor|]. inversion Nd as [|? ? N1 N2]; subst. cbn [flat_map].
    assert (Hal : lsum al = l) by (apply Hs; left; reflexivity).
    assert (Len : forall a D, lsum a = l -> In D (odfs fm (indices_from 0 a) 0 (repeat false l)) -> lsum a = length D).
    { intros a D Ha H. apply odfs_spec in H; [|exact Ha]. destruct H as [P _]. apply Permutation_length in P. rewrite seq_length in P. lia. }
    apply NoDup_app_intro.
    - apply nodup_map_inj; [|apply odfs_nodup]. intros x y Hx Hy E. apply (f_equal (@concat nat)) in E.
      rewrite !slices_concat in E by (apply Len; assumption). exact E.
    - apply IH; [exact N2|]. intros; apply Hs; right; assumption.
    - intros b H1 H2. apply in_map_iff in H1. destruct H1 as [D [<- HD]].
      apply in_flat_map in H2. destruct H2 as [al2 [Ha2 H2]]. apply in_map_iff in H2. destruct H2 as [D2 [E HD2]].
      apply (f_equal (map (@length nat))) in E. rewrite !slices_len in E.
      + subst al2. contradiction.
      + apply Len; assumption.
      + apply Len; [apply Hs; right; assumption|assumption]. }
  apply G; [apply allocs_nodup|]. intros al Ha. apply (allocs_in forms N) in Ha. apply Ha.
Qed.
