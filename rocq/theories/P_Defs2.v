(* C29: the stored rules are the definition history, stably sorted by
   decreasing specificity. *)
From Verif Require Import M_Syntax M_Float M_Hash M_Match M_Defs S_Defs P_Hash P_Defs.
From Coq Require Import Sorted Permutation.
Open Scope nat_scope.

Section Order.
  Variable fl : ex -> Z.
  Variable n : string.

  Definition condq (r : ex) : bool := has_head r (sysname "Condition").
  Definition pspec (p : ex * ex) : Z := rule_specificity fl (fst p) (snd p) n.
  Definition pkey (p : ex * ex) : N * N := key2 (fst p) (snd p).

  Definition ge_spec (p q : ex * ex) : Prop := (pspec q <= pspec p)%Z.

  Definition inv (dvs : list dval) (m : list (ex * ex)) : Prop :=
    Forall (fun d => eff_spec fl n d = pspec (dpair d)) dvs /\
    Forall (fun d => exists x, dv_lhs d = held x) dvs /\
    (forall z, filter (fun p => Z.eqb (pspec p) z) (map dpair dvs) =
               filter (fun p => Z.eqb (pspec p) z) (map hpair m)) /\
    StronglySorted ge_spec (map dpair dvs) /\
    NoDup (map pkey (map dpair dvs)) /\ NoDup (map pkey (map hpair m)).

  Lemma pspec_rhs l r r' : condq r = condq r' -> pspec (l, r) = pspec (l, r').
  Proof. unfold pspec, rule_specificity, condq. cbn [fst snd]. now intros ->. Qed.

  Lemma filter_in_same {A} (f : A -> bool) a b x : filter f a = filter f b -> f x = true -> In x a -> In x b.
  Proof.
    intros E F I. assert (In x (filter f a)) as J by (apply filter_In; auto).
    rewrite E in J. apply filter_In in J. apply J.
  Qed.

  Lemma inv_in dvs m p : inv dvs m -> In p (map dpair dvs) <-> In p (map hpair m).
  Proof.
    intros (_ & _ & F & _). specialize (F (pspec p)).
    split; [|symmetry in F]; intro I; eapply filter_in_same; eauto; apply Z.eqb_refl.
  Qed.

  Definition phi (k : N * N) (r : ex) (p : ex * ex) : ex * ex :=
    if key_eqb (pkey p) k then (fst p, r) else p.

  Lemma map_phi_split k r a p b : NoDup (map pkey (a ++ p :: b)) -> pkey p = k ->
    map (phi k r) (a ++ p :: b) = a ++ (fst p, r) :: b.
  Proof.
    intros ND K. rewrite map_app in ND. cbn [map] in ND. pose proof (NoDup_remove_2 _ _ _ ND) as X.
    rewrite map_app. cbn [map]. unfold phi at 2. rewrite (proj2 (key_eqb_eq _ _) K).
    assert (forall q, In q a \/ In q b -> phi k r q = q) as Y.
    { intros q I. unfold phi. destruct (key_eqb (pkey q) k) eqn:E; [|reflexivity].
      apply key_eqb_eq in E. exfalso. apply X. apply in_or_app. subst k. rewrite <- E.
      destruct I as [I|I]; [left|right]; now apply in_map. }
    f_equal; [|f_equal].
    - transitivity (map (fun q => q) a); [apply map_ext_in; intros q I; apply Y; auto|apply map_id].
    - transitivity (map (fun q => q) b); [apply map_ext_in; intros q I; apply Y; auto|apply map_id].
  Qed.

  Lemma filter_map_phi k r z l : (forall p, In p l -> pkey p = k -> pspec (fst p, r) = pspec p) ->
    filter (fun p => Z.eqb (pspec p) z) (map (phi k r) l) = map (phi k r) (filter (fun p => Z.eqb (pspec p) z) l).
  Proof.
    induction l as [|p t IH]; intro H; [reflexivity|]. cbn [map filter].
    assert (pspec (phi k r p) = pspec p) as E.
    { unfold phi. destruct (key_eqb (pkey p) k) eqn:Q; [|reflexivity]. apply key_eqb_eq in Q.
      apply H; [now left|exact Q]. }
    rewrite E. rewrite IH by (intros q I; apply H; now right). destruct (Z.eqb (pspec p) z); reflexivity.
  Qed.
  Lemma sorted_map_phi k r l : (forall p, In p l -> pkey p = k -> pspec (fst p, r) = pspec p) ->
    StronglySorted ge_spec l -> StronglySorted ge_spec (map (phi k r) l).
  Proof.
    intros H S. assert (forall p, In p l -> pspec (phi k r p) = pspec p) as E.
    { intros p I. unfold phi. destruct (key_eqb (pkey p) k) eqn:Q; [|reflexivity]. apply key_eqb_eq in Q.
      now apply H. }
    clear H. induction S as [|p t S IH F]; cbn [map]; constructor.
    - apply IH. intros q I. apply E. now right.
    - apply Forall_forall. intros q I. apply in_map_iff in I. destruct I as (q0 & <- & I).
      unfold ge_spec. rewrite (E p) by now left. rewrite (E q0) by now right.
      rewrite Forall_forall in F. apply (F q0 I).
  Qed.
  Lemma pkey_phi k r p : pkey p = k -> hash (mask_non_conditional r) = snd k -> pkey (fst p, r) = k.
  Proof. intros K E. destruct k as [k1 k2]. unfold pkey, key2 in *. cbn [fst snd] in *. injection K as K1 K2. congruence. Qed.

  Lemma dpair_key d : pkey (dpair d) = key d. Proof. reflexivity. Qed.

  Lemma sorted_insert (a : list (ex * ex)) p b : StronglySorted ge_spec (a ++ b) ->
    Forall (fun q => (pspec p <= pspec q)%Z) a -> match b with [] => True | q :: _ => (pspec q < pspec p)%Z end ->
    StronglySorted ge_spec (a ++ p :: b) /\ Forall (fun q => (pspec q < pspec p)%Z) b.
  Proof.
    intros S A B. induction A as [|q t Hq _ IH]; cbn [app] in *.
    - destruct b as [|q t].
      + split; repeat constructor.
      + inversion S as [|? ? S' F]; subst. assert (Forall (fun q => (pspec q < pspec p)%Z) (q :: t)) as G.
        { constructor; [exact B|]. eapply Forall_impl; [|exact F]. intros x Hx. cbn beta in Hx. unfold ge_spec in Hx. lia. }
        split; [|exact G]. constructor; [exact S|]. eapply Forall_impl; [|exact G].
        intros x Hx. cbn beta in Hx. unfold ge_spec. lia.
    - inversion S as [|? ? S' F]; subst. destruct (IH S') as [I1 I2]. split; [|exact I2].
      constructor; [exact I1|]. apply Forall_app in F. destruct F as [F1 F2].
      apply Forall_app. split; [exact F1|]. constructor; [exact Hq|exact F2].
  Qed.

  Lemma remember_key_ne m l r : Forall (fun p => keyb (held (fst p)) (snd p) (held l) r = false) m ->
    ~ In (key2 (held l) r) (map pkey (map hpair m)).
  Proof.
    intros F I. rewrite map_map in I. apply in_map_iff in I. destruct I as (p & K & I).
    rewrite Forall_forall in F. specialize (F p I). rewrite keyb_key in F.
    assert (key_eqb (key2 (held (fst p)) (snd p)) (key2 (held l) r) = true) as T by (apply key_eqb_eq; exact K).
    congruence.
  Qed.

  Lemma inv_define dvs m l r : inv dvs m ->
    (forall p, In p m -> is_sameq (mask_non_conditional (snd p)) (mask_non_conditional r) = true ->
       condq (snd p) = condq r) ->
    inv (define_rule fl n (held l) r dvs) (remember m l r).
  Proof.
    intros I C. pose proof (fun p => inv_in dvs m p I) as MEM.
    destruct I as (IE & IH & IF & IS & IN1 & IN2).
    set (k := key2 (held l) r).
    assert (CC : forall p, In p (map dpair dvs) -> pkey p = k -> pspec (fst p, r) = pspec p).
    { intros p I K. apply MEM in I. apply in_map_iff in I. destruct I as (q & <- & I).
      specialize (C q I). unfold hpair in *. cbn [fst snd] in *.
      rewrite (pspec_rhs _ r (snd q)); [reflexivity|]. symmetry. apply C.
      rewrite sameq_not_flt_r by apply mask_not_flt. apply N.eqb_eq.
      apply (f_equal snd) in K. exact K. }
    assert (CM : forall p, In p (map hpair m) -> pkey p = k -> pspec (fst p, r) = pspec p).
    { intros p I. apply CC. now apply MEM. }
    unfold define_rule. destruct (overwrite (held l) r dvs) as [dvs'|] eqn:E.
    - apply overwrite_some in E. destruct E as (a & d & b & -> & -> & S & A).
      rewrite same_rule_key in S by exact I. apply key_eqb_eq in S.
      assert (Hin : In (dpair d) (map dpair (a ++ d :: b))) by (apply in_map, in_elt).
      destruct (remember_spec m l r) as [(ma & l0 & r0 & mb & -> & -> & K & MA)|(_ & NM)].
      2:{ exfalso. apply (remember_key_ne _ _ _ NM). apply MEM in Hin. rewrite <- S.
          rewrite <- dpair_key. now apply in_map. }
      rewrite keyb_key in K. apply key_eqb_eq in K.
      assert (P1 : map dpair (a ++ DVal (dv_lhs d) r (dv_spec d) :: b) = map (phi k r) (map dpair (a ++ d :: b))).
      { rewrite !(map_app dpair). cbn [map]. symmetry.
        apply (map_phi_split k r (map dpair a) (dpair d) (map dpair b)); [|exact S].
        rewrite map_app in IN1. exact IN1. }
      assert (P2 : map hpair (ma ++ (l0, r) :: mb) = map (phi k r) (map hpair (ma ++ (l0, r0) :: mb))).
      { rewrite !(map_app hpair). cbn [map]. symmetry.
        apply (map_phi_split k r (map hpair ma) (hpair (l0, r0)) (map hpair mb)); [|exact K].
        rewrite map_app in IN2. exact IN2. }
      assert (KP : forall L, map pkey (map (phi k r) L) = map pkey L).
      { intro L. rewrite map_map. apply map_ext. intro p. unfold phi. destruct (key_eqb (pkey p) k) eqn:Q; [|reflexivity].
        apply key_eqb_eq in Q. rewrite Q. now apply pkey_phi. }
      unfold inv. rewrite P1, P2, !KP.
      split; [|split; [|split; [|split; [|split]]]]; auto.
      + rewrite Forall_app in IE |- *. destruct IE as [E1 E2]. inversion E2 as [|? ? Ed E3]; subst.
        split; [exact E1|]. constructor; [|exact E3].
        unfold eff_spec in *. cbn [dv_spec dv_lhs dv_rhs]. destruct (Z.eqb_spec (dv_spec d) 0) as [Z0|Z0].
        * reflexivity.
        * rewrite Ed. symmetry. apply (CC (dpair d)); [exact Hin|exact S].
      + rewrite Forall_app in IH |- *. destruct IH as [E1 E2]. inversion E2 as [|? ? Ed E3]; subst.
        split; [exact E1|]. constructor; [exact Ed|exact E3].
      + intro z. rewrite !filter_map_phi by assumption. now rewrite IF.
      + now apply sorted_map_phi.
    - apply overwrite_none in E.
      destruct (remember_spec m l r) as [(ma & l0 & r0 & mb & -> & _ & K & MA)|(-> & NM)].
      { exfalso. assert (In (hpair (l0, r0)) (map hpair (ma ++ (l0, r0) :: mb))) as J by (apply in_map, in_elt).
        apply MEM in J. apply in_map_iff in J. destruct J as (d & Q & J).
        rewrite Forall_forall in E. specialize (E d J). rewrite same_rule_key in E by exact I.
        rewrite keyb_key in K. unfold hpair in Q. cbn [fst snd] in Q. unfold dpair in Q. injection Q as Q1 Q2.
        unfold key in E. rewrite Q1, Q2 in E. unfold key2 at 1 in K. congruence. }
      destruct (insert_shape fl n (held l) r dvs) as (a & b & sp & -> & -> & SP & A & B).
      set (new := DVal (held l) r sp).
      assert (EN : eff_spec fl n new = pspec (dpair new)).
      { unfold eff_spec, new, pspec, dpair. cbn [dv_spec dv_lhs dv_rhs fst snd].
        destruct SP as [-> | ->]; [reflexivity|]. destruct (Z.eqb_spec (rule_specificity fl (held l) r n) 0); reflexivity. }
      assert (HA : Forall (fun q => (pspec (dpair new) <= pspec q)%Z) (map dpair a)).
      { apply Forall_app in IE. destruct IE as [E1 _]. apply Forall_map.
        rewrite Forall_forall in *. intros d J. rewrite <- (E1 d J). apply (A d J). }
      assert (HB : match map dpair b with [] => True | q :: _ => (pspec q < pspec (dpair new))%Z end).
      { destruct b as [|d b']; [exact Logic.I|]. cbn [map]. apply Forall_app in IE. destruct IE as [_ E2].
        inversion E2 as [|? ? Ed _]; subst. rewrite <- Ed. exact B. }
      rewrite map_app in IS. destruct (sorted_insert _ (dpair new) _ IS HA HB) as [S1 S2].
      unfold inv. rewrite !map_app. cbn [map].
      split; [|split; [|split; [|split; [|split]]]].
      + rewrite Forall_app in IE |- *. destruct IE as [E1 E2]. split; [exact E1|]. now constructor.
      + rewrite Forall_app in IH |- *. destruct IH as [E1 E2]. split; [exact E1|]. constructor; [now exists l|exact E2].
      + intro z. specialize (IF z). rewrite map_app, filter_app in IF. rewrite !filter_app, <- IF.
        rewrite <- app_assoc. apply f_equal. cbn [filter].
        change (pspec (hpair (l, r))) with (pspec (dpair new)). change (hpair (l, r)) with (dpair new).
        destruct (Z.eqb_spec (pspec (dpair new)) z) as [Q|Q].
        * subst z. rewrite (filter_none _ (map dpair b)); [reflexivity|].
          eapply Forall_impl; [|exact S2]. intros q Hq. cbn beta. apply Z.eqb_neq. cbn beta in Hq. lia.
        * now rewrite app_nil_r.
      + exact S1.
      + rewrite !map_app in IN1. apply NoDup_Add with (a := pkey (dpair new)) (l := map pkey (map dpair a) ++ map pkey (map dpair b)).
        * apply Add_app.
        * split; [exact IN1|]. rewrite <- !map_app, map_map. intro J. apply in_map_iff in J. destruct J as (d & K & J).
          rewrite Forall_forall in E. specialize (E d J). rewrite same_rule_key in E by exact I.
          assert (key_eqb (key d) (key2 (held l) r) = true) as T by (apply key_eqb_eq; exact K). congruence.
      + apply NoDup_Add with (a := pkey (hpair (l, r))) (l := map pkey (map hpair m)).
        * rewrite <- (app_nil_r (map pkey (map hpair m))) at 1. apply Add_app.
        * split; [exact IN2|]. exact (remember_key_ne m l r NM).
  Qed.
End Order.
