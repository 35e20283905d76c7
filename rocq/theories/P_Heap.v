From Verif Require Import M_Syntax M_Float M_Hash M_Heap S_Heap.
Open Scope nat_scope.

Lemma lset_same {A} (l : list A) i x : i < length l -> nth_error (lset l i x) i = Some x.
Proof. revert i. induction l as [|y l IH]; intros [|i] H; cbn in *; try lia; [reflexivity|]. apply IH. lia. Qed.
Lemma lset_other {A} (l : list A) i j x : i <> j -> nth_error (lset l i x) j = nth_error l j.
Proof. revert i j. induction l as [|y l IH]; intros [|i] [|j] H; cbn; try lia; try reflexivity. apply IH. lia. Qed.
Lemma lset_length {A} (l : list A) i x : length (lset l i x) = length l.
Proof. revert i. induction l as [|y l IH]; intros [|i]; cbn; auto. Qed.
Lemma lset_id {A} (l : list A) i x : nth_error l i = Some x -> lset l i x = l.
Proof. revert i. induction l as [|y l IH]; intros [|i] H; cbn in *; try discriminate; [congruence|]. now rewrite IH. Qed.
Lemma In_lset {A} (l : list A) i x y : In y (lset l i x) -> y = x \/ In y l.
Proof. revert i. induction l as [|z l IH]; intros [|i]; cbn; auto; intros [<-|H]; auto. destruct (IH i H); auto. Qed.
Lemma hget_set h a o : hget h a <> None -> hget (hset h a o) a = Some o.
Proof. intros H. apply lset_same. now apply nth_error_Some. Qed.
Lemma hget_other h a b o : a <> b -> hget (hset h a o) b = hget h b.
Proof. intros H. now apply lset_other. Qed.
Lemma hset_id h a o : hget h a = Some o -> hset h a o = h.
Proof. intros H. destruct h as [os bs]. unfold hset. cbn in *. unfold hget in H. cbn in H. now rewrite lset_id. Qed.

Lemma set_bget h a o b : bget (hset h a o) b = bget h b. Proof. reflexivity. Qed.

Lemma F2_in {A B} (P Q : A -> B -> Prop) l vs : Forall2 P l vs -> (forall p v, In p l -> P p v -> Q p v) -> Forall2 Q l vs.
Proof. induction 1 as [|p v l vs Hp HF IH]; intros H; constructor; [apply H; [now left|exact Hp]|]. apply IH. intros q w Hq. apply H. now right. Qed.

Section Inv.
Context (rk : addr -> nat) (L : addr -> Prop) (r : vars).
Definition inv (h : heap) : Prop := ranked rk L r h /\ marked L r h.

(* h' comes from h by evaluating objects of rank below m *)
Definition good (m : nat) (h h' : heap) : Prop :=
  inv h' /\ (forall b w, L b -> means r h b w -> means r h' b w) /\
  (forall b, L b -> final r h b -> final r h' b) /\
  (forall b, m <= rk b -> hget h' b = hget h b) /\
  h_bigs h' = h_bigs h /\ (forall b n, hget h' b = Some (OSym n) -> hget h b = Some (OSym n)).
Lemma good_refl m h : inv h -> good m h h.
Proof. intros I0. unfold good. auto 8. Qed.
Lemma good_trans m h1 h2 h3 : good m h1 h2 -> good m h2 h3 -> good m h1 h3.
Proof.
  intros (_ & V1 & F1 & K1 & B1 & O1) (I2 & V2 & F2 & K2 & B2 & O2). split; [exact I2|]. split; [auto|]. split; [auto|]. split; [|split; [congruence|auto]].
  intros b H. rewrite K2 by assumption. auto.
Qed.
Lemma good_mono m m' h h' : m <= m' -> good m h h' -> good m' h h'.
Proof. intros H (I1 & V1 & F1 & K1 & B1 & O1). split; [exact I1|]. split; [auto|]. split; [auto|]. split; [|auto]. intros b Hb. apply K1. lia. Qed.

(* replacing an object by a more evaluated one *)
Definition refines (h : heap) (a : addr) (o o' : obj) : Prop :=
  match o, o' with
  | OInt b _, OInt b' _ => b = b'
  | OExpr ps e c, OExpr ps' e' c' =>
      (forall p, In p ps' -> L p /\ rk p < rk a) /\
      (forall ws, Forall2 (means r h) ps ws -> Forall2 (means r h) ps' ws) /\
      (e <> 0%N -> e' <> 0%N) /\ (e' <> 0%N -> c' = e' /\ forall p, In p ps' -> final r h p)
  | _, _ => False
  end.
Lemma set_final h a o o' b : hget h a = Some o -> refines h a o o' -> L b -> final r h b -> final r (hset h a o') b.
Proof.
  intros Ho R Lb F. destruct (Nat.eq_dec a b) as [<-|N].
  - unfold final in *. rewrite hget_set by congruence. rewrite Ho in F. destruct o, o'; cbn in *; try contradiction; tauto.
  - unfold final in *. now rewrite hget_other.
Qed.
Lemma set_means h a o o' : inv h -> L a -> hget h a = Some o -> refines h a o o' ->
  forall b w, L b -> means r h b w -> means r (hset h a o') b w.
Proof.
  intros [Rk Mk] La Ho R.
  assert (G : forall n b w, rk b < n -> L b -> means r h b w -> means r (hset h a o') b w); [|intros; eapply G; eauto].
  induction n as [|n IH]; intros b w Hn Lb M; [lia|]. assert (Rb := Rk b Lb).
  destruct (Nat.eq_dec a b) as [<-|N].
  - rewrite Ho in Rb. destruct o, o'; cbn in R; try contradiction.
    + rename b0 into b1. subst b1. inversion M as [| | |a0 b2 c2 E|]; subst; try congruence. rewrite Ho in E. injection E as <- <-.
      rewrite <- (set_bget h a (OInt b cached0)). eapply me_int. apply hget_set. congruence.
    + destruct R as (R1 & R2 & R3 & R4). inversion M as [| | | |a0 ps e c vs E FM]; subst; try congruence.
      rewrite Ho in E. injection E as <- <- <-. eapply me_expr; [apply hget_set; congruence|].
      apply R2 in FM. apply (F2_in _ _ _ _ FM). intros p v Hp. destruct (R1 p Hp). apply IH; [lia|assumption].
  - assert (E : hget (hset h a o') b = hget h b) by now apply hget_other.
    inversion M as [a0 n0 E0 V0|a0 n0 d v E0 V0 M0|a0 e E0|a0 b0 c0 E0|a0 ps e c vs E0 FM]; subst; rewrite E0 in Rb.
    + eapply me_free; [now rewrite E|assumption].
    + eapply me_var; [rewrite E; eassumption|eassumption|]. destruct (proj2 Rb d V0) as [Ld Hd]. apply IH; [lia|assumption|assumption].
    + apply me_atom. now rewrite E.
    + rewrite <- (set_bget h a o'). eapply me_int. now rewrite E, E0.
    + eapply me_expr; [rewrite E; eassumption|]. apply (F2_in _ _ _ _ FM). intros p v Hp. destruct (Rb p Hp). apply IH; [lia|assumption].
Qed.
Lemma set_good h a o o' : inv h -> L a -> hget h a = Some o -> refines h a o o' -> good (S (rk a)) h (hset h a o').
Proof.
  intros I0 La Ho R. assert (I1 := I0). destruct I0 as [Rk Mk]. split; [split|split; [|split]].
  - intros b Lb. destruct (Nat.eq_dec a b) as [<-|N].
    + rewrite hget_set by congruence. specialize (Rk a La). rewrite Ho in Rk. destruct o, o'; cbn in *; try contradiction; try tauto; congruence.
    + rewrite hget_other by assumption. now apply Rk.
  - intros b ps e c Lb E He. destruct (Nat.eq_dec a b) as [<-|N].
    + rewrite hget_set in E by congruence. injection E as ->. destruct o; cbn in R; try contradiction.
      destruct R as (R1 & R2 & R3 & R4). destruct (R4 He) as [-> F]. split; [reflexivity|].
      intros p Hp. eapply set_final; eauto; [cbn; auto|]. apply R1. exact Hp.
    + rewrite hget_other in E by assumption. destruct (Mk b ps e c Lb E He) as [-> F]. split; [reflexivity|].
      intros p Hp. eapply set_final; eauto. specialize (Rk b Lb). rewrite E in Rk. now apply Rk.
  - now apply set_means with o.
  - intros b Lb F. eapply set_final; eauto.
  - split; [intros b Hb; apply hget_other; intros ->; lia|]. split; [reflexivity|]. intros b n E.
    destruct (Nat.eq_dec a b) as [<-|N]; [|now rewrite hget_other in E].
    rewrite hget_set in E by congruence. injection E as ->. destruct o; contradiction.
Qed.

(* ---- hashing ---- *)
Definition hash_ok (m : nat) (h : heap) (a : addr) (q : res (N * heap)) : Prop :=
  match q with
  | Done (x, h') => x <> 0%N /\ good m h h' /\
      match hget h a, hget h' a with
      | Some (OExpr ps e c), Some (OExpr ps' e' c') => ps = ps' /\ e = e' /\ c' = x /\ (c <> 0%N -> x = c)
      | Some (OInt b c), Some (OInt b' c') => b = b' /\ c' = x /\ (c <> 0%N -> x = c)
      | Some (OSym n), Some (OSym n') => n = n' /\ h = h'
      | Some (OAtom _), Some (OAtom _) => h = h'
      | _, _ => False
      end
  | ZeroHash => True
  | _ => False
  end.

Lemma hash_spec k : forall h a, inv h -> L a -> rk a < k -> hash_ok (S (rk a)) h a (ohash k h a).
Proof.
  induction k as [|k IH]; intros h a I0 La Hk; [lia|]. cbn [ohash].
  assert (Ra := proj1 I0 a La). destruct (hget h a) as [[n|e|b c|bn bd|ps e c]|] eqn:E; try contradiction.
  - unfold nonzero. destruct (N.eqb_spec (hash (ESym n)) 0); [exact I|]. cbn [hash_ok]. rewrite E.
    split; [assumption|]. split; [now apply good_refl|]. auto.
  - unfold nonzero. destruct (N.eqb_spec (hash e) 0); [exact I|]. cbn [hash_ok]. rewrite E.
    split; [assumption|]. split; [now apply good_refl|]. auto.
  - destruct (N.ltb_spec 0 c).
    + cbn [hash_ok]. rewrite E. split; [lia|]. split; [now apply good_refl|]. auto.
    + unfold nonzero. destruct (N.eqb_spec (hash (EInt (bget h b))) 0); [exact I|].
      set (x := hash (EInt (bget h b))) in *. clearbody x. cbn [hash_ok]. rewrite E.
      split; [assumption|]. split; [eapply set_good; eauto; reflexivity|]. rewrite hget_set by congruence. split; [reflexivity|]. split; [reflexivity|]. intros; lia.
  - destruct (N.ltb_spec 0 c).
    + cbn [hash_ok]. rewrite E. split; [lia|]. split; [now apply good_refl|]. auto.
    + assert (HL : forall l h0, inv h0 -> (forall p, In p l -> L p /\ rk p < rk a) ->
                 match hash_list (ohash k) h0 l with
                 | Done (_, h1) => good (rk a) h0 h1 | ZeroHash => True | _ => False end).
      { induction l as [|p l IHl]; intros h0 I1 Hl; cbn [hash_list]; [now apply good_refl|].
        destruct (Hl p (or_introl eq_refl)) as [Lp Hp].
        specialize (IH h0 p I1 Lp ltac:(lia)). destruct (ohash k h0 p) as [[x h1]| | |]; cbn in IH |- *; try contradiction; [|exact I].
        destruct IH as (_ & G1 & _). apply (good_mono _ (rk a)) in G1; [|lia].
        specialize (IHl h1 (proj1 G1) (fun q Hq => Hl q (or_intror Hq))).
        destruct (hash_list (ohash k) h1 l) as [[xs h2]| | |]; cbn; try contradiction; [|exact I].
        eapply good_trans; eassumption. }
      specialize (HL ps h I0 Ra). destruct (hash_list (ohash k) h ps) as [[xs h1]| | |]; cbn [rbind]; try contradiction; [|exact I].
      set (x := fnv _). clearbody x. unfold nonzero. destruct (N.eqb_spec x 0); [exact I|]. cbn [hash_ok].
      assert (E2 : hget h1 a = Some (OExpr ps e c)) by (rewrite <- E; apply HL; lia).
      rewrite E. split; [assumption|]. split.
      * eapply good_trans; [eapply good_mono; [|exact HL]; lia|]. eapply set_good; [apply HL|exact La|exact E2|].
        cbn. assert (C0 : c = 0%N) by lia. split; [exact Ra|]. split; [auto|]. split; [auto|].
        intros He. destruct (proj2 (proj1 HL) a ps e c La E2 He) as [Hc _]. congruence.
      * rewrite hget_set by congruence. repeat split; auto. intros; lia.
Qed.

(* ---- evaluation ---- *)
Definition eval_ok (h : heap) (a : addr) (q : res (addr * heap)) : Prop :=
  match q with
  | Done (a', h') => L a' /\ rk a' <= rk a /\ final r h' a' /\ good (S (rk a)) h h' /\
                     (forall w, means r h' a w -> means r h' a' w)
  | ZeroHash => True
  | _ => False
  end.

Lemma heval_final k h a : inv h -> L a -> final r h a -> heval (S (S k)) r h a = Done (a, h).
Proof.
  intros [Rk Mk] La F. cbn [heval]. unfold final in F. destruct (hget h a) as [[n|e|b c|bn bd|ps e c]|] eqn:E; try contradiction; try reflexivity.
  - now rewrite F.
  - destruct (Mk a ps e c La E F) as [-> _]. cbn [ohash]. rewrite E. destruct (N.ltb_spec 0 e); [|lia].
    cbn [rbind]. now rewrite N.eqb_refl.
Qed.

Section Step.
Context (k : nat) (a : addr) (La : L a) (Hk : rk a < k).
Hypothesis EV : forall h p, inv h -> L p -> rk p < rk a -> eval_ok h p (heval k r h p).
Hypothesis EF : forall h p, inv h -> L p -> final r h p -> heval k r h p = Done (p, h).
Notation ev := (heval k r). Notation hsh := (ohash k).

Lemma F2_lset {A B} (P : A -> B -> Prop) l vs : Forall2 P l vs -> forall i p p', nth_error l i = Some p -> (forall w, P p w -> P p' w) -> Forall2 P (lset l i p') vs.
Proof.
  induction 1 as [|q v l vs Hq HF IH]; intros [|i] p p' E H; cbn in *; try discriminate.
  - injection E as ->. constructor; auto.
  - constructor; [assumption|]. eapply IH; eauto.
Qed.

Lemma part_spec h ps c i p : inv h -> hget h a = Some (OExpr ps 0%N c) -> nth_error ps i = Some p ->
  match eval_part ev hsh h a i with
  | Done h' => good (S (rk a)) h h' /\ exists p' c', hget h' a = Some (OExpr (lset ps i p') 0%N c') /\ final r h' p' /\
                 (final r h p -> p' = p /\ c' = c)
  | ZeroHash => True | _ => False end.
Proof.
  intros I0 E Ei. unfold eval_part. rewrite E, Ei.
  assert (Ra := proj1 I0 a La). rewrite E in Ra. destruct (Ra p (nth_error_In _ _ Ei)) as [Lp Hp].
  assert (H1 := hash_spec k h p I0 Lp ltac:(lia)).
  destruct (hsh h p) as [[old h1]| | |] eqn:E1; cbn [rbind]; cbn [hash_ok] in H1; try contradiction; [|exact I].
  destruct H1 as (N1 & G1 & S1). assert (I1 := proj1 G1).
  assert (A1 : hget h1 a = Some (OExpr ps 0%N c)) by (rewrite <- E; apply G1; lia).
  assert (FP : final r h p -> final r h1 p) by (intros F; now apply G1).
  assert (EF1 : final r h p -> ev h1 p = Done (p, h1)) by (intros F; apply EF; auto).
  assert (H2 := EV h1 p I1 Lp Hp).
  destruct (ev h1 p) as [[p' h2]| | |] eqn:E2; cbn [rbind]; cbn [eval_ok] in H2; try contradiction; [|exact I].
  destruct H2 as (Lp' & Hp' & F2 & G2 & M2). assert (I2 := proj1 G2).
  assert (A2 : hget h2 a = Some (OExpr ps 0%N c)) by (rewrite <- A1; apply G2; lia).
  rewrite A2. set (h3 := hset h2 a (OExpr (lset ps i p') 0%N c)).
  assert (G3 : good (S (rk a)) h2 h3).
  { eapply set_good; [exact I2|exact La|exact A2|]. cbn. split; [|split; [|split]].
    - intros q Hq. apply In_lset in Hq. destruct Hq as [->|Hq]; [split; [assumption|lia]|now apply Ra].
    - intros ws FM. eapply F2_lset; eauto.
    - intros []; reflexivity.
    - intros []; reflexivity. }
  assert (I3 := proj1 G3).
  assert (A3 : hget h3 a = Some (OExpr (lset ps i p') 0%N c)) by (apply hget_set; congruence).
  assert (H4 := hash_spec k h3 p' I3 Lp' ltac:(lia)).
  destruct (hsh h3 p') as [[new h4]| | |] eqn:E4; cbn [rbind]; cbn [hash_ok] in H4; try contradiction; [|exact I].
  destruct H4 as (N4 & G4 & S4). assert (I4 := proj1 G4).
  assert (A4 : hget h4 a = Some (OExpr (lset ps i p') 0%N c)) by (rewrite <- A3; apply G4; lia).
  assert (G : good (S (rk a)) h h4).
  { eapply good_trans; [eapply good_mono; [|exact G1]; lia|]. eapply good_trans; [eapply good_mono; [|exact G2]; lia|].
    eapply good_trans; [exact G3|]. eapply good_mono; [|exact G4]; lia. }
  assert (F4 : final r h4 p') by (apply G4; [assumption|]; apply G3; assumption).
  assert (SAME : final r h p -> p' = p /\ old = new).
  { intros F. specialize (EF1 F). injection EF1 as -> ->. split; [reflexivity|].
    assert (X : h3 = h1). { unfold h3. rewrite (lset_id _ _ _ Ei). now apply hset_id. }
    rewrite X in *. clear -S1 S4 E1 E4 N1 N4. destruct (hget h p) as [[n|e|b c0|bn bd|qs e c0]|] eqn:E0; try contradiction;
      destruct (hget h1 p) as [[n'|e'|b' c1|bn' bd'|qs' e' c1]|] eqn:E0'; try contradiction;
      destruct (hget h4 p) as [[n''|e''|b'' c2|bn'' bd''|qs'' e'' c2]|]; try contradiction.
    - destruct S1 as [_ <-]. congruence.
    - subst h1. congruence.
    - destruct S1 as (_ & -> & _), S4 as (_ & _ & X). symmetry. now apply X.
    - destruct S1 as (_ & _ & -> & _), S4 as (_ & _ & _ & X). symmetry. now apply X. }
  destruct (N.eqb_spec old new) as [X|X].
  - split; [exact G|]. exists p', c. split; [exact A4|]. split; [exact F4|]. intros F. split; [now apply SAME|reflexivity].
  - rewrite A4. split; [|exists p', 0%N; split; [apply hget_set; congruence|split]].
    + eapply good_trans; [exact G|]. eapply set_good; [exact I4|exact La|exact A4|]. cbn.
      assert (R4 := proj1 I4 a La). rewrite A4 in R4. split; [exact R4|]. split; [auto|]. split; intros []; reflexivity.
    + unfold final in *. destruct (Nat.eq_dec a p') as [<-|Nq]; [lia|]. now rewrite hget_other.
    + intros F. destruct (SAME F). congruence.
Qed.

Lemma parts_spec m : forall i h ps c, inv h -> hget h a = Some (OExpr ps 0%N c) -> i + m = length ps ->
  (forall j p, j < i -> nth_error ps j = Some p -> final r h p) ->
  match eval_parts ev hsh h a (seq i m) with
  | Done h' => good (S (rk a)) h h' /\ exists ps' c', hget h' a = Some (OExpr ps' 0%N c') /\
      (forall p, In p ps' -> final r h' p) /\ ((forall p, In p ps -> final r h p) -> ps' = ps /\ c' = c)
  | ZeroHash => True | _ => False end.
Proof.
  induction m as [|m IH]; intros i h ps c I0 E Hi Hf; cbn [seq eval_parts].
  - split; [now apply good_refl|]. exists ps, c. split; [exact E|]. split; [|auto].
    intros p Hp. apply In_nth_error in Hp. destruct Hp as (j & Ej). apply (Hf j); [|exact Ej].
    assert (j < length ps) by (apply nth_error_Some; congruence). lia.
  - destruct (nth_error ps i) as [p|] eqn:Ei; [|apply nth_error_None in Ei; lia].
    assert (H := part_spec h ps c i p I0 E Ei).
    destruct (eval_part ev hsh h a i) as [h1| | |]; cbn [rbind]; try contradiction; [|exact I].
    destruct H as (G1 & p' & c' & E1 & F1 & S1).
    specialize (IH (S i) h1 (lset ps i p') c' (proj1 G1) E1). rewrite lset_length in IH. specialize (IH ltac:(lia)).
    assert (Hf' : forall j q, j < S i -> nth_error (lset ps i p') j = Some q -> final r h1 q).
    { intros j q Hj Eq. destruct (Nat.eq_dec i j) as [<-|Nj].
      - rewrite lset_same in Eq by lia. congruence.
      - rewrite lset_other in Eq by assumption. apply G1; [|apply (Hf j); [lia|exact Eq]].
        assert (Ra := proj1 I0 a La). rewrite E in Ra. apply Ra. eapply nth_error_In; eauto. }
    specialize (IH Hf'). destruct (eval_parts ev hsh h1 a (seq (S i) m)) as [h2| | |]; try contradiction; [|exact I].
    destruct IH as (G2 & ps2 & c2 & E2 & F2 & S2). split; [eapply good_trans; eassumption|].
    exists ps2, c2. split; [exact E2|]. split; [exact F2|]. intros All.
    destruct (S1 (All p (nth_error_In _ _ Ei))) as [-> ->]. rewrite (lset_id _ _ _ Ei) in S2. apply S2.
    intros q Hq. apply G1; [|now apply All]. assert (Ra := proj1 I0 a La). rewrite E in Ra. now apply Ra.
Qed.

Lemma head_none h h1 (ps args : list addr) e c : inv h -> hget h a = Some (OExpr ps e c) ->
  match (match ps with p :: _ => match hget h p with Some (OSym n) => Some n | _ => None end | [] => None end) with
  | Some n => match apply_fn h1 n args with Some q => q | None => (a, h1) end
  | None => (a, h1) end = (a, h1).
Proof.
  intros I0 E. destruct ps as [|p ps]; [reflexivity|]. assert (Ra := proj1 I0 a La). rewrite E in Ra.
  destruct (Ra p (or_introl eq_refl)) as [Lp _]. assert (Rp := proj1 I0 p Lp).
  destruct (hget h p) as [[n| | | |]|]; try reflexivity. destruct Rp as [NA _]. unfold active in NA.
  unfold apply_fn. destruct (String.eqb_spec n sFactorial); [tauto|]. destruct (String.eqb_spec n sRational); [tauto|]. reflexivity.
Qed.

Lemma mark_ok h0 h ps c : good (S (rk a)) h0 h -> hget h a = Some (OExpr ps 0%N c) -> c <> 0%N -> (forall p, In p ps -> final r h p) ->
  eval_ok h0 a (Done (a, hset h a (OExpr ps c c))).
Proof.
  intros G E Hc F. cbn [eval_ok]. split; [exact La|]. split; [lia|]. split.
  - unfold final. rewrite hget_set by congruence. exact Hc.
  - split; [|auto]. eapply good_trans; [exact G|]. eapply set_good; [apply G|exact La|exact E|]. cbn.
    assert (Ra := proj1 (proj1 G) a La). rewrite E in Ra. split; [exact Ra|]. split; [auto|]. split; [auto|]. auto.
Qed.

Lemma pass_spec h0 h ps c : good (S (rk a)) h0 h -> hget h a = Some (OExpr ps 0%N c) ->
  forall j last, c <> 0%N -> c <> last ->
  match rbind (eval_parts ev hsh h a (seq 0 (length ps))) (fun h1 => rbind (hsh h1 a) (fun q => Done q)) with
  | Done (x, h2) => good (S (rk a)) h0 h2 /\ x <> 0%N /\ (exists ps2, hget h2 a = Some (OExpr ps2 0%N x) /\ (forall p, In p ps2 -> final r h2 p)) /\
       ((forall p, In p ps -> final r h p) -> x = c) /\ eval_loop ev hsh (S j) h a last c = eval_loop ev hsh j h2 a c x
  | ZeroHash => eval_loop ev hsh (S j) h a last c = ZeroHash
  | _ => False
  end.
Proof.
  intros G E j last Hc Hl. assert (I0 := proj1 G).
  cbn [eval_loop]. rewrite E. destruct (N.eqb_spec c last) as [|_]; [contradiction|]. destruct (N.eqb_spec c 0) as [|_]; [contradiction|].
  assert (H := parts_spec (length ps) 0 h ps c I0 E eq_refl ltac:(intros; lia)).
  destruct (eval_parts ev hsh h a (seq 0 (length ps))) as [h1| | |] eqn:EP; cbn [rbind]; try contradiction; [|reflexivity].
  destruct H as (G1 & ps1 & c1 & E1 & F1 & S1). rewrite E1. cbv zeta. rewrite (head_none h h1 ps (tl ps1) 0%N c I0 E). cbn [fst snd].
  assert (H := hash_spec k h1 a (proj1 G1) La Hk). destruct (hsh h1 a) as [[x h2]| | |]; cbn [rbind]; cbn [hash_ok] in H; try contradiction; [|reflexivity].
  destruct H as (Nx & G2 & S2). rewrite E1 in S2. destruct (hget h2 a) as [[| | | |ps2 e2 c2]|] eqn:E2; try contradiction.
  destruct S2 as (<- & <- & -> & Sx).
  split; [eapply good_trans; [exact G|]; eapply good_trans; eassumption|]. split; [exact Nx|]. split.
  - exists ps1. split; [reflexivity|]. intros p Hp. apply G2; [|now apply F1].
    assert (Ra := proj1 (proj1 G1) a La). rewrite E1 in Ra. now apply Ra.
  - split; [|reflexivity]. intros All. destruct (S1 All) as [-> ->]. now apply Sx.
Qed.

Lemma loop_final h0 h ps c j last : good (S (rk a)) h0 h -> hget h a = Some (OExpr ps 0%N c) -> c <> 0%N -> (forall p, In p ps -> final r h p) ->
  eval_ok h0 a (eval_loop ev hsh (S (S j)) h a last c).
Proof.
  intros G E Hc F. destruct (N.eq_dec c last) as [<-|Hl].
  - cbn [eval_loop]. rewrite E, N.eqb_refl. now apply mark_ok.
  - assert (H := pass_spec h0 h ps c G E (S j) last Hc Hl).
    destruct (rbind _ _) as [[x h2]| | |]; try contradiction; [|rewrite H; exact I].
    destruct H as (G2 & Nx & (ps2 & E2 & F2) & Sx & EL). rewrite EL. rewrite (Sx F) in *.
    cbn [eval_loop]. rewrite E2, N.eqb_refl. now apply mark_ok.
Qed.
Lemma loop_start h0 h ps c j : good (S (rk a)) h0 h -> hget h a = Some (OExpr ps 0%N c) -> c <> 0%N ->
  eval_ok h0 a (eval_loop ev hsh (S (S (S j))) h a 0%N c).
Proof.
  intros G E Hc. assert (H := pass_spec h0 h ps c G E (S (S j)) 0%N Hc Hc).
  destruct (rbind _ _) as [[x h2]| | |]; try contradiction; [|rewrite H; exact I].
  destruct H as (G2 & Nx & (ps2 & E2 & F2) & _ & EL). rewrite EL. eapply loop_final; eauto.
Qed.
End Step.

Theorem heval_spec k : forall h a, inv h -> L a -> rk a + 4 <= k -> eval_ok h a (heval k r h a).
Proof.
  induction k as [|k IH]; intros h a I0 La Hk; [lia|].
  assert (Ra := proj1 I0 a La). destruct (hget h a) as [[n|e|b c|bn bd|ps e c]|] eqn:E; try contradiction.
  - cbn [heval]. rewrite E. destruct Ra as [_ Ra]. destruct (vget r n) as [d|] eqn:V.
    + destruct (Ra d eq_refl) as [Ld Hd].
      assert (S0 : eval_ok h a (heval k r h d)).
      { assert (H := IH h d I0 Ld ltac:(lia)). destruct (heval k r h d) as [[a' h']| | |]; cbn [eval_ok] in *; try contradiction; [|exact I].
        destruct H as (La' & Ha' & F & G & M). split; [exact La'|]. split; [lia|]. split; [exact F|].
        split; [eapply good_mono; [|exact G]; lia|]. intros w Mw.
        assert (E' : hget h' a = Some (OSym n)) by (rewrite <- E; apply G; lia).
        apply M. inversion Mw as [a0 n0 E0 V0|a0 n0 d0 v E0 V0 M0|a0 e E0|a0 b0 c0 E0|a0 ps e c vs E0 FM]; subst; congruence. }
      assert (Rd := proj1 I0 d Ld). destruct (hget h d) as [[m| | | |]|]; try exact S0.
      destruct (String.eqb_spec m n) as [->|_]; [|exact S0].
      exfalso. destruct (proj2 Rd d V). lia.
    + cbn [eval_ok]. split; [exact La|]. split; [lia|]. split; [unfold final; now rewrite E|]. split; [now apply good_refl|]. auto.
  - cbn [heval]. rewrite E. cbn [eval_ok]. split; [exact La|]. split; [lia|]. split; [unfold final; now rewrite E|]. split; [now apply good_refl|]. auto.
  - cbn [heval]. rewrite E. cbn [eval_ok]. split; [exact La|]. split; [lia|]. split; [unfold final; now rewrite E|]. split; [now apply good_refl|]. auto.
  - destruct (N.eq_dec e 0) as [->|Ne].
    + cbn [heval]. rewrite E. assert (H := hash_spec k h a I0 La ltac:(lia)).
      destruct (ohash k h a) as [[x h1]| | |]; cbn [rbind]; cbn [hash_ok] in H; try contradiction; [|exact I].
      destruct H as (Nx & G & S1). rewrite E in S1. destruct (hget h1 a) as [[| | | |ps1 e1 c1]|] eqn:E1; try contradiction.
      destruct S1 as (<- & <- & -> & _). destruct (N.eqb_spec x 0) as [|_]; [contradiction|].
      destruct k as [|[|[|k]]]; try lia. apply loop_start with ps; auto; try lia.
      * intros h2 p I2 Lp Hp. apply IH; [assumption|assumption|lia].
      * intros h2 p I2 Lp Fp. now apply heval_final.
    + destruct k as [|k]; [lia|]. rewrite heval_final; auto; [|unfold final; now rewrite E].
      cbn [eval_ok]. split; [exact La|]. split; [lia|]. split; [unfold final; now rewrite E|]. split; [now apply good_refl|]. auto.
Qed.

(* ---- values exist and are unique ---- *)
Lemma means_total h : inv h -> forall n a, rk a < n -> L a -> exists w, means r h a w.
Proof.
  intros [Rk Mk]. induction n as [|n IH]; intros a Hn La; [lia|]. assert (Ra := Rk a La).
  destruct (hget h a) as [[m|e|b c|bn bd|ps e c]|] eqn:E; try contradiction.
  - destruct Ra as [_ Ra]. destruct (vget r m) as [d|] eqn:V.
    + destruct (Ra d eq_refl) as [Ld Hd]. destruct (IH d ltac:(lia) Ld) as (w & M). exists w. eapply me_var; eauto.
    + exists (ESym m). now apply me_free.
  - exists e. now apply me_atom.
  - eexists. eapply me_int; eauto.
  - assert (X : exists vs, Forall2 (means r h) ps vs).
    { clear E. induction ps as [|p ps IHp]; [now exists []|]. destruct (Ra p (or_introl eq_refl)) as [Lp Hp].
      destruct (IH p ltac:(lia) Lp) as (w & M). destruct IHp as (vs & F); [intros q Hq; apply Ra; now right|].
      exists (w :: vs). now constructor. }
    destruct X as (vs & F). exists (EExpr vs). eapply me_expr; eauto.
Qed.
(* an evaluated object is the tree of its value *)
Lemma final_tree h : inv h -> forall k a w, rk a < k -> L a -> final r h a -> means r h a w -> tree k h a = Some w.
Proof.
  intros [Rk Mk]. induction k as [|k IH]; intros a w Hk La F M; [lia|]. assert (Ra := Rk a La). cbn [tree].
  inversion M as [a0 n0 E0 V0|a0 n0 d v E0 V0 M0|a0 e E0|a0 b0 c0 E0|a0 ps e c vs E0 FM]; subst; rewrite E0 in *; try reflexivity.
  - exfalso. unfold final in F. rewrite E0 in F. congruence.
  - unfold final in F. rewrite E0 in F. destruct (Mk a ps e c La E0 F) as [_ FP].
    match goal with |- match ?G ps with _ => _ end = _ => set (go := G) end.
    assert (X : go ps = Some vs); [|now rewrite X]. clear E0 M F.
    induction FM as [|p v ps vs Hp HF IHF]; [reflexivity|].
    change (match tree k h p, go ps with Some x, Some y => Some (x :: y) | _, _ => None end = Some (v :: vs)).
    destruct (Ra p (or_introl eq_refl)) as [Lp Rp]. rewrite (IH p v); [|lia|exact Lp|apply FP; now left|exact Hp].
    rewrite IHF; [reflexivity|intros q Hq; apply Ra; now right|intros q Hq; apply FP; now right].
Qed.
End Inv.
