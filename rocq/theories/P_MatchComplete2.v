(* Completeness of the matcher on the fragment of S_Match.v: the main induction. *)
From Verif Require Import M_Syntax M_Hash M_Alloc M_Match S_Alloc S_Match P_Hash P_Alloc P_MatchFuel P_MatchSound P_MatchComplete.
From Coq Require Import Permutation Relations.
Open Scope nat_scope.

(* ---- sym_heads is inherited ---- *)
Lemma sh_args s args p : sym_heads (EExpr (ESym s :: args)) = true -> In p args -> sym_heads p = true.
Proof. cbn [sym_heads]. rewrite !andb_true_iff, forallb_forall. intros [_ H] Hp. apply H, Hp. Qed.
Lemma sh_in l p : sym_heads (EExpr l) = true -> In p l -> sym_heads p = true.
Proof. destruct l as [|[s| | | | | |] t]; try discriminate. intros H [<-|Hp]; [reflexivity|]. eapply sh_args; eauto. Qed.
Lemma sh_name n : is_sameq (sys "Rational") (ESym n) = false -> is_sameq (sys "Complex") (ESym n) = false ->
  forall l, (forall p, In p l -> sym_heads p = true) -> sym_heads (EExpr (ESym n :: l)) = true.
Proof. intros A B l H. cbn [sym_heads]. rewrite A, B. cbn [negb andb]. apply forallb_forall, H. Qed.
Lemma sh_blank l : (forall p, In p l -> sym_heads p = true) -> sym_heads (EExpr (sys "Blank" :: firstn 1 l)) = true.
Proof.
  intro H. unfold sys. apply sh_name; [vm_compute; reflexivity|vm_compute; reflexivity|].
  intros p Hp. apply H. destruct l as [|x t]; [destruct Hp|]. destruct Hp as [<-|[]]. left; reflexivity.
Qed.
Lemma sh_core fl sh c : sym_heads c = true -> sym_heads (snd (core_spec fl sh c)) = true.
Proof.
  intro H. unfold core_spec. destruct c as [| | | | | |[|[h| | | | | |] l]]; try exact H.
  pose proof (fun p => sh_args h l p H) as Ha.
  pose proof (sh_blank l Ha) as B.
  destruct (String.eqb h nBNS); [exact B|]. destruct (String.eqb h nBS); [exact B|].
  destruct (String.eqb h nBlank).
  { destruct fl; [|exact H]. destruct l as [|[g| | | | | |] t]; try exact H. destruct (String.eqb g sh); [|exact H]. apply (sh_blank []). intros p []. }
  destruct (String.eqb h nRepeated).
  { destruct l as [|q [|sp r]]; [exact H|apply Ha; left; reflexivity|].
    assert (Hq : sym_heads q = true) by (apply Ha; left; reflexivity).
    destruct sp as [| | | | | |[|[lst| | | | | |] [|[| |k| | | |] [|]]]]; try exact H.
    destruct (String.eqb lst nList); [|exact H]. destruct (Z.eqb k (-1)); [exact Hq|]. destruct (Z.ltb k 0); exact Hq. }
  destruct (String.eqb h nRepeatedNull); [|exact H]. destruct l as [|q [|]]; try exact H. apply Ha. left; reflexivity.
Qed.
Lemma sh_element fl sh p : sym_heads p = true -> sym_heads (element_pattern fl sh (view p)) = true.
Proof.
  intro H. unfold element_pattern. rewrite view_peel. cbv zeta. cbn [cv_opt cv_test cv_core cv_name].
  set (p1 := match peel_opt p with Some (q, _) => q | None => p end).
  assert (H1 : sym_heads p1 = true).
  { subst p1. destruct (peel_opt p) as [[q r]|] eqn:E; [|exact H]. apply peel_opt_some in E as ->. eapply sh_args; [exact H|left; reflexivity]. }
  set (p2 := match peel_test p1 with Some (q, _) => q | None => p1 end).
  assert (H2 : sym_heads p2 = true).
  { subst p2. destruct (peel_test p1) as [[q t]|] eqn:E; [|exact H1]. apply peel_test_some in E as [r E]. rewrite E in H1. eapply sh_args; [exact H1|left; reflexivity]. }
  set (p3 := match peel_name p2 with Some (_, q) => q | None => p2 end).
  assert (H3 : sym_heads p3 = true).
  { subst p3. destruct (peel_name p2) as [[x q]|] eqn:E; [|exact H2]. apply peel_name_some in E as [r E]. rewrite E in H2. eapply sh_args; [exact H2|right; left; reflexivity]. }
  set (c := match match peel_opt p with Some (_, r) => Some (hd_error r) | None => None end with Some _ => p3 | None => snd (core_spec fl sh p3) end).
  assert (Hc : sym_heads c = true) by (subst c; destruct (peel_opt p) as [[q r]|]; [exact H3|apply sh_core, H3]).
  destruct (peel_test p1) as [[q t]|] eqn:E; [|exact Hc].
  apply peel_test_some in E as [r E]. rewrite E in H1.
  assert (Ht : sym_heads t = true) by (eapply sh_args; [exact H1|right; left; reflexivity]).
  unfold sys. apply sh_name; [vm_compute; reflexivity|vm_compute; reflexivity|]. intros x [<-|[<-|[]]]; assumption.
Qed.

Lemma pairs_element la lb c p fl sh : pairs_ok (EExpr la) (EExpr lb) = true -> In c la -> In p lb -> pairs_ok c (element_pattern fl sh (view p)) = true.
Proof.
  unfold pairs_ok. rewrite !orb_true_iff. intros [[H|H]|H] Hc Hp.
  - left; left. apply nf_view. eapply nf_in; eauto.
  - left; right. cbn [no_pairs] in H. rewrite forallb_forall in H. apply H, Hc.
  - right. apply sh_element. eapply sh_in; eauto.
Qed.
Lemma pairs_args a s args p : pairs_ok a (EExpr (ESym s :: args)) = true -> In p args -> pairs_ok a p = true.
Proof.
  unfold pairs_ok. rewrite !orb_true_iff. intros [[H|H]|H] Hp; [left; left; eapply nf_args; eauto|left; right; exact H|right; eapply sh_args; eauto].
Qed.

(* what an instance of an ordinary pattern looks like *)
Inductive ord_inst (neg R : ex -> ex -> Prop) (env : menv) (sg : bindings) : ex -> ex -> list ex -> Prop :=
| O_rat n d hb tb : inst neg R env sg (EExpr [sys "Rational"; EInt n; EInt d]) (EExpr (hb :: tb)) -> ord_inst neg R env sg (ERat n d) hb tb
| O_cplx r i hb tb : inst neg R env sg (EExpr [sys "Complex"; r; i]) (EExpr (hb :: tb)) -> ord_inst neg R env sg (ECplx r i) hb tb
| O_atom e hb tb : is_expr e = false -> is_num_atom e = false -> is_sameq e (EExpr (hb :: tb)) = true -> ord_inst neg R env sg e hb tb
| O_args f args tb blocks : divided (me_orderless env f) args blocks ->
    Forall2 (fun b p => takes (inst neg R env sg) R env (me_flat env f) f sg b p) blocks tb ->
    ord_inst neg R env sg (EExpr (ESym f :: args)) (ESym f) tb
| O_head h args hb tb blocks : (forall f, h = ESym f -> hb <> ESym f) ->
    takes (inst neg R env sg) R env false "Sequence"%string sg [h] hb -> concat blocks = args ->
    Forall2 (fun b p => takes (inst neg R env sg) R env false "Sequence"%string sg b p) blocks tb ->
    ord_inst neg R env sg (EExpr (h :: args)) hb tb.

Lemma ordinary_inst neg R env nok sg a hb tb : ordinary nok (EExpr (hb :: tb)) -> inst neg R env sg a (EExpr (hb :: tb)) -> ord_inst neg R env sg a hb tb.
Proof.
  intros [hb' [tb' [E [Hpl [Hbt [Hfr [Hne [Hsh Hco]]]]]]]] Hi. injection E as <- <-.
  assert (Sp : forall s, hb = ESym s -> special s tb -> False) by (intros s -> H; exact (Hpl H)).
  inversion Hi as [e p args Hb Hh|e x q r args v Hb Hh Hs HR|e x q r args Hb Hh Hs|e ps p Hp Hip|e p Hn|e p q Hn Hq|e p t Hip Ht|e p c pm Hc H1 H2 H3|e p Hip|e p Hip
    |s h l l' Hs Hh|n d p Hp He Hip|r i p Hp He Hip|e f ps Ho Hd Hx Hh Hp Hip|e p He Hn Hp Hs|f args ps blocks Hp Hd F|h args hp ps blocks Hp Hne' T Hc F]; subst.
  - destruct Hb as [s [Hs Eb]]. injection Eb as -> ->. exfalso. apply (Sp s eq_refl). unfold special. tauto.
  - exfalso. apply (Sp (sysname "Pattern") eq_refl). unfold special. do 7 right. split; [reflexivity|]. eexists _, _, _, _. split; [reflexivity|exact Hb].
  - exfalso. apply (Sp (sysname "Pattern") eq_refl). unfold special. do 7 right. split; [reflexivity|]. eexists _, _, _, _. split; [reflexivity|exact Hb].
  - exfalso. apply (Sp (sysname "Alternatives") eq_refl). unfold special. do 3 right. left. reflexivity.
  - exfalso. apply (Sp (sysname "Except") eq_refl). unfold special. do 4 right. left. split; [reflexivity|left; reflexivity].
  - exfalso. apply (Sp (sysname "Except") eq_refl). unfold special. do 4 right. left. split; [reflexivity|right; reflexivity].
  - exfalso. apply (Sp (sysname "PatternTest") eq_refl). unfold special. do 5 right. left. split; reflexivity.
  - exfalso. destruct (Hco (sysname "Condition") eq_refl) as [Q _]. apply Q. reflexivity.
  - exfalso. destruct (Hco (sysname "Optional") eq_refl) as [_ Q]. apply Q. reflexivity.
  - exfalso. apply (Sp (sysname "HoldPattern") eq_refl). unfold special. do 6 right. left. split; reflexivity.
  - exfalso. destruct (Hco s eq_refl) as [Q1 Q2]. destruct Hs; contradiction.
  - apply O_rat; assumption.
  - apply O_cplx; assumption.
  - exfalso. apply existsb_exists in Hx as [p [Hp1 Q]]. assert (Hf : frag nok MTop p = true) by (apply Hfr; right; exact Hp1).
    unfold has_head in Q. destruct (head_assertion p nOptional) eqn:A; [|discriminate]. unfold head_assertion in A.
    destruct p as [| | | | | |[|[s'| | | | | |] l']]; try discriminate A. destruct (String.eqb_spec s' nOptional) as [->|]; [|discriminate A]. discriminate Hf.
  - apply O_atom; try assumption. cbn [is_expr] in Hn. rewrite andb_true_r in Hn. exact Hn.
  - eapply O_args; eauto.
  - eapply O_head; eauto.
Qed.

(* inversions for the other shapes *)
Section inv.
  Variables (neg R : ex -> ex -> Prop) (env : menv) (sg : bindings).
  Notation I := (inst neg R env sg).
  Ltac inv Hi := inversion Hi as [e0 p0 args0 Hb Hh|e0 x0 q0 r0 args0 v0 Hb Hh Hs HR|e0 x0 q0 r0 args0 Hb Hh Hs|e0 ps0 p0 Hp Hip|e0 p0 Hn|e0 p0 q0 Hn Hq|e0 p0 t0 Hip Ht|e0 p0 c0 pm0 Hc H1 H2 H3|e0 p0 Hip|e0 p0 Hip
    |s0 h0 l0 l0' Hs Hh|n0 d0 p0 Hp He Hip|r0 i0 p0 Hp He Hip|e0 f0 ps0 Ho Hd Hx Hh Hp Hip|e0 p0 He Hn Hp Hs|f0 args0 ps0 blocks0 Hp Hd F|h0 args0 hp0 ps0 blocks0 Hp Hne' T Hc F]; subst.
  Lemma inv_atom a b : is_expr b = false -> I a b -> is_expr a = false /\ is_sameq a b = true.
  Proof.
    intros Hb0 Hi. inv Hi; try discriminate Hb0; try (split; assumption).
    - destruct Hb as [s [_ ->]]. discriminate Hb0.
    - congruence.
    - congruence.
  Qed.
  (* a special pattern is matched only by its own rules *)
  Ltac spec := exfalso; match goal with H : plain _ |- _ => apply H; unfold special; tauto end.
  Ltac blk := exfalso; match goal with H : is_blank _ _ |- _ => let s := fresh in let E := fresh in let Q := fresh in destruct H as [s [Q E]]; try discriminate E; injection E as <- <-; destruct Q as [Q|[Q|Q]]; discriminate Q end.
  Lemma inv_blank a s args : blank_name s = true -> I a (EExpr (ESym s :: args)) -> head_fits args a.
  Proof.
    intros Hb0 Hi. assert (Hs0 : s = nBlank \/ s = nBS \/ s = nBNS) by (unfold blank_name in Hb0; rewrite !orb_true_iff, !String.eqb_eq in Hb0; tauto).
    inv Hi; try (vm_compute in Hb0; discriminate Hb0); try spec.
    - destruct Hb as [s' [_ E]]. injection E as <- <-. exact Hh.
    - destruct Hs as [->| ->]; discriminate Hb0.
  Qed.
  Lemma inv_named a x q : is_blankb q = true -> I a (EExpr [ESym nPattern; ESym x; q]) -> exists args v, is_blank q args /\ head_fits args a /\ sg x = Some v /\ R a v.
  Proof.
    intros Hq0 Hi. destruct (is_blankb_spec q Hq0) as [l Hl]. apply blank_like_spec in Hl.
    assert (Sp : special nPattern [ESym x; q]) by (unfold special; do 7 right; split; [reflexivity|]; eexists _, _, _, _; split; [reflexivity|exact Hl]).
    inv Hi; try (exfalso; match goal with H : plain _ |- _ => exact (H Sp) end).
    - blk.
    - exists args0, v0. auto.
    - discriminate Hs.
    - destruct Hs as [Q|Q]; discriminate Q.
  Qed.
  Lemma inv_test a q t : I a (EExpr [ESym nPatTest; q; t]) -> I a q /\ passes env t a.
  Proof.
    intro Hi. assert (Sp : special nPatTest [q; t]) by (unfold special; do 5 right; left; split; reflexivity).
    inv Hi; try (exfalso; match goal with H : plain _ |- _ => exact (H Sp) end).
    - blk.
    - split; assumption.
    - destruct Hs as [Q|Q]; discriminate Q.
  Qed.
  Lemma inv_alt a args : I a (EExpr (ESym nAlt :: args)) -> exists p, In p args /\ I a p.
  Proof.
    intro Hi. assert (Sp : special nAlt args) by (unfold special; tauto).
    inv Hi; try (exfalso; match goal with H : plain _ |- _ => exact (H Sp) end).
    - blk.
    - exists p0. auto.
    - destruct Hs as [Q|Q]; discriminate Q.
  Qed.
  Lemma inv_except a q : I a (EExpr [ESym nExcept; q]) -> neg a q.
  Proof.
    intro Hi. assert (Sp : special nExcept [q]) by (unfold special; do 4 right; left; split; [|left]; reflexivity).
    inv Hi; try (exfalso; match goal with H : plain _ |- _ => exact (H Sp) end).
    - blk.
    - assumption.
    - destruct Hs as [Q|Q]; discriminate Q.
  Qed.
  Lemma inv_except2 a q r : I a (EExpr [ESym nExcept; q; r]) -> neg a q /\ I a r.
  Proof.
    intro Hi. assert (Sp : special nExcept [q; r]) by (unfold special; do 4 right; left; split; [|right]; reflexivity).
    inv Hi; try (exfalso; match goal with H : plain _ |- _ => exact (H Sp) end).
    - blk.
    - split; assumption.
    - destruct Hs as [Q|Q]; discriminate Q.
  Qed.
  Lemma inv_hold a q : I a (EExpr [ESym nHoldPattern; q]) -> I a q.
  Proof.
    intro Hi. assert (Sp : special nHoldPattern [q]) by (unfold special; do 6 right; left; split; reflexivity).
    inv Hi; try (exfalso; match goal with H : plain _ |- _ => exact (H Sp) end).
    - blk.
    - assumption.
    - destruct Hs as [Q|Q]; discriminate Q.
  Qed.
End inv.

Lemma passes_test env t e : passes env t e ->
  (if match t with ESym tn => String.eqb tn (sysname "NumberQ") | _ => false end then numberQ e else me_true env (EExpr [t; e])) = true.
Proof.
  unfold passes. intro H. destruct (ex_eqb t (sys "NumberQ")) eqn:E.
  - apply ex_eqb_eq in E as ->. unfold sys. rewrite String.eqb_refl. exact H.
  - destruct t as [s| | | | | |]; try exact H. destruct (String.eqb_spec s (sysname "NumberQ")) as [->|]; [|exact H].
    exfalso. rewrite (proj2 (ex_eqb_eq (ESym (sysname "NumberQ")) (sys "NumberQ")) eq_refl) in E. discriminate.
Qed.

Section complete2.
  Variable env : menv.
  Variable neg : ex -> ex -> Prop.
  Variable nok : ex -> bool.
  Variable R : ex -> ex -> Prop.
  Notation M := (match_iter env).
  Hypothesis Hnf : forall a q, nok q = true -> nf_at M a q.
  Hypothesis Hneg : forall a q pm, nok q = true -> nodupk pm -> neg a q -> fst (M a q pm) = [].
  Notation comp_at := (comp_at env neg R).
  Notation mode := (mode R).

  (* a named blank matches at most once *)
  Lemma named_iter a x q pm : is_blankb q = true -> exists l, is_blank q l /\ M a (EExpr [ESym nPattern; ESym x; q]) pm =
    (if blank_head_ok l (head_ex a) then
       match pd_get pm x with
       | None => ([pd_set pm x a], pd_set pm x a)
       | Some v => if is_sameq v a then ([pm], pm) else ([], pm)
       end
     else ([], pm)).
  Proof.
    intro Hq. destruct (is_blankb_spec q Hq) as [l Hl]. exists l. split; [apply blank_like_spec, Hl|].
    rewrite match_iter_eq, mi_step_normal by (intros s args E; injection E as <- <-; reflexivity).
    unfold match_normal.
    assert (V : verbatim_op a (EExpr [ESym nPattern; ESym x; q]) = None) by (destruct a as [| | | | | |[|h ta]]; reflexivity).
    rewrite V. unfold is_blank_type_only, blank_capture.
    change (args_of (EExpr [ESym nPattern; ESym x; q]) nPattern) with (Some [ESym x; q]). cbv iota. rewrite Hl.
    destruct (blank_head_ok l (head_ex a)); [|reflexivity].
    destruct (pd_get pm x) as [v|]; [destruct (is_sameq v a); reflexivity|]. rewrite sameq_refl. reflexivity.
  Qed.

  Lemma alts_complete a sg ps pm : nodupk pm -> (forall p, In p ps -> nf_at M a p) -> (exists p, In p ps /\ comp_at a p /\ name_free p = true /\ pairs_ok a p = true /\ inst neg R env sg a p) ->
    exists m, In m (fst (match_alts M a ps pm)).
  Proof.
    induction ps as [|p t IH]; intros N H [q [Hq [C [Nf [Pq Iq]]]]]; [destruct Hq|]. cbn [match_alts].
    destruct (H p (or_introl eq_refl) pm N) as [A B]. destruct (M a p pm) as [ms pm1] eqn:E. cbn [fst snd] in *. subst pm1.
    destruct ms as [|m0 ms]; [|exists m0; left; reflexivity].
    apply IH; [exact N|intros r Hr; apply H; right; exact Hr|]. exists q. destruct Hq as [->|Hq]; [exfalso|auto].
    destruct (C sg pm N Pq Iq (or_introl Nf)) as [m [Hm _]]. rewrite E in Hm. destruct Hm.
  Qed.

  Lemma comp_step a b : (forall c p, pat_fuel c p < pat_fuel a b -> frag nok MElem p = true -> comp_at c p) ->
    frag nok MElem b = true -> comp_at a b.
  Proof.
    intros HM Hf sg pm N Hpk Hi Md.
    assert (P : forall args s, b = EExpr (ESym s :: args) -> forall p, In p args -> frag nok MElem p = true -> comp_at a p).
    { intros args s -> p Hp Hfp. apply HM; [|exact Hfp]. unfold pat_fuel. rewrite size_cons, size_sym. pose proof (in_size p args Hp). lia. }
    destruct (fr_shapes nok b Hf) as [b Ha|s args Hb|x q Hq|q t Hq Hqn|args Hargs|q Hq|q r Hq Hr Hrn|q Hq|b Ho Hst].
    - destruct (inv_atom _ _ _ _ a b Ha Hi) as [Hea Hs]. rewrite match_iter_eq, mi_step_normal by (intros s args ->; discriminate Ha).
      unfold match_normal. rewrite (verbatim_frag nok _ a b Hf).
      assert (Hb : is_blank_type_only b = false) by (destruct b; try discriminate Ha; reflexivity). rewrite Hb.
      assert (An : assume_head env a b = None) by (destruct b; try discriminate Ha; reflexivity).
      exists []. destruct a; try discriminate Hea; destruct b; try discriminate Ha; rewrite ?An; rewrite Hs; cbn [fst snd];
        (split; [left; reflexivity|]); intro Q; (split; [apply covers_nil|exact Q]).
    - pose proof (inv_blank _ _ _ _ a s args Hb Hi) as Hh. apply head_fits_spec in Hh.
      destruct (blank_name_like s args Hb) as [E1 [E2 E3]].
      rewrite match_iter_eq, mi_step_normal by (intros s' args' E; injection E as <- <-; exact E3). unfold match_normal. rewrite (verbatim_frag nok _ a _ Hf).
      assert (Ea : args_of (EExpr (ESym s :: args)) nPattern = None) by (rewrite args_of_expr; destruct (String.eqb_spec s nPattern); [contradiction|reflexivity]).
      unfold is_blank_type_only, blank_capture. rewrite Ea, E1, Hh. cbn [fst snd]. exists pm. split; [left; reflexivity|auto].
    - destruct (inv_named _ _ _ _ a x q Hq Hi) as [args [v [Hbq [Hh [Hv HR]]]]]. destruct Md as [Md|[-> Cv]]; [destruct (nf_nopat _ Md)|]. subst v.
      destruct (named_iter a x q pm Hq) as [l [Hl ->]].
      assert (l = args) by (apply is_blank_like in Hl; apply is_blank_like in Hbq; congruence). subst l.
      apply head_fits_spec in Hh. rewrite Hh.
      destruct (pd_get pm x) as [w|] eqn:Eg.
      + destruct (Cv x w Eg) as [u [Hu <-]]. assert (w = a) by congruence. subst w. rewrite sameq_refl. exists pm. split; [left; reflexivity|auto].
      + exists (pd_set pm x a). split; [left; reflexivity|]. intros _. cbn [snd].
        assert (Cs : covers eq sg (pd_set pm x a)).
        { intros y w. rewrite pd_get_set. destruct (String.eqb_spec x y) as [<-|Ne]; intro Hy; [injection Hy as <-; eauto|apply Cv, Hy]. }
        split; exact Cs.
    - destruct (inv_test _ _ _ _ a q t Hi) as [Iq Pt]. apply passes_test in Pt.
      assert (Cq : comp_at a q) by (apply (P [q; t] nPatTest eq_refl q (or_introl eq_refl) Hq)).
      assert (Pq : pairs_ok a q = true) by (apply (pairs_args a nPatTest [q; t] q Hpk); left; reflexivity).
      rewrite match_iter_eq. unfold mi_step. change (String.eqb nPatTest nExcept) with false. change (String.eqb nPatTest nAlt) with false. change (String.eqb nPatTest nPatTest) with true. cbv iota.
      assert (Mq : mode sg q pm). { destruct Md as [Md|Md]; [left; apply (nf_args _ _ q Md); left; reflexivity|right; exact Md]. }
      destruct (Cq sg pm N Pq Iq Mq) as [m [Hm Cm]].
      assert (H0 : exists m0 ms, fst (M a q pm) = m0 :: ms /\ (covers eq sg pm -> covers eq sg m0)).
      { destruct Hqn as [Hqn|Hqn].
        - destruct (nf_match env nok Hnf a q Hq Hqn pm N) as [A B]. destruct (fst (M a q pm)) as [|m0 ms]; [destruct Hm|].
          exists m0, ms. split; [reflexivity|]. apply covers_incl, B. left; reflexivity.
        - destruct q as [| | | | | |[|[s'| | | | | |] [|[x| | | | | |] [|c [|]]]]]; try discriminate Hqn. cbn [named_blank] in Hqn.
          apply andb_true_iff in Hqn as [Hs Hc]. apply String.eqb_eq in Hs. subst s'.
          destruct (named_iter a x c pm Hc) as [l [_ E]].
          assert (One : fst (M a (EExpr [ESym nPattern; ESym x; c]) pm) = [m]).
          { rewrite E in Hm |- *. destruct (blank_head_ok _ _); [|destruct Hm]. destruct (pd_get pm x) as [v|]; [destruct (is_sameq v a)|]; cbn [fst] in *; first [destruct Hm as [->|[]]; reflexivity|destruct Hm]. }
          exists m, []. split; [exact One|]. intro Q. apply (Cm Q). }
      destruct H0 as [m0 [ms [E0 C0]]].
      destruct (M a q pm) as [ms' pm1]. cbn [fst snd] in *. subst ms'.
      exists m0. split.
      + destruct (match t with ESym tn => _ | _ => _ end); cbn [fst]; rewrite Pt; left; reflexivity.
      + intro Q. split; [apply C0, Q|]. destruct (match t with ESym tn => _ | _ => _ end); cbn [snd]; apply (Cm Q).
    - rewrite forallb_forall in Hargs.
      destruct (inv_alt _ _ _ _ a args Hi) as [p [Hp Ip]].
      assert (Ha : forall p, In p args -> frag nok MElem p = true /\ name_free p = true) by (intros r Hr; apply andb_true_iff, Hargs, Hr).
      rewrite match_iter_eq. unfold mi_step. change (String.eqb nAlt nExcept) with false. change (String.eqb nAlt nAlt) with true. cbv iota.
      assert (Hn : forall p, In p args -> nf_at M a p) by (intros r Hr; apply (nf_match env nok Hnf); apply Ha, Hr).
      destruct (alts_complete a sg args pm N Hn) as [m Hm].
      { exists p. split; [exact Hp|]. split; [apply (P args nAlt eq_refl p Hp), Ha, Hp|]. split; [apply Ha, Hp|]. split; [apply (pairs_args a nAlt args p Hpk Hp)|exact Ip]. }
      destruct (nf_alts env a args Hn pm N) as [A B]. exists m. split; [exact Hm|]. intro Q. rewrite A. split; [|exact Q]. eapply covers_incl; [apply B, Hm|exact Q].
    - apply inv_except in Hi. rewrite match_iter_eq. unfold mi_step. change (String.eqb nExcept nExcept) with true. cbv iota.
      destruct (Hnf a q Hq pm N) as [A _]. pose proof (Hneg a q pm Hq N Hi) as E. destruct (M a q pm) as [ms pm1]. cbn [fst snd] in *. subst ms pm1.
      exists pm. split; [left; reflexivity|auto].
    - apply inv_except2 in Hi as [Hi Ir]. rewrite match_iter_eq. unfold mi_step. change (String.eqb nExcept nExcept) with true. cbv iota.
      destruct (Hnf a q Hq pm N) as [A _]. pose proof (Hneg a q pm Hq N Hi) as E. destruct (M a q pm) as [ms pm1]. cbn [fst snd] in *. subst ms pm1.
      assert (Cr : comp_at a r) by (apply (P [q; r] nExcept eq_refl r (or_intror (or_introl eq_refl)) Hr)).
      destruct (Cr sg pm N) as [m [Hm Cm]]; [apply (pairs_args a nExcept [q; r] r Hpk); right; left; reflexivity|exact Ir|left; exact Hrn|].
      destruct (nf_match env nok Hnf a r Hr Hrn pm N) as [A B]. destruct (M a r pm) as [ms2 pm2]. cbn [fst snd] in *. subst pm2.
      destruct ms2 as [|m0 ms2]; [destruct Hm|]. exists m0. split; [left; reflexivity|]. intro Q. split; [|exact Q].
      eapply covers_incl; [apply B; left; reflexivity|exact Q].
    - apply inv_hold in Hi. rewrite match_iter_eq. unfold mi_step. change (String.eqb nHoldPattern nExcept) with false. change (String.eqb nHoldPattern nAlt) with false. change (String.eqb nHoldPattern nPatTest) with false.
      change (String.eqb nHoldPattern nCondition) with false. change (String.eqb nHoldPattern nOptional) with false. change (String.eqb nHoldPattern nHoldPattern) with true. cbv iota.
      apply (P [q] nHoldPattern eq_refl q (or_introl eq_refl) Hq sg pm N); [apply (pairs_args a nHoldPattern [q] q Hpk); left; reflexivity|exact Hi|].
      destruct Md as [Md|Md]; [left; apply (nf_args _ _ q Md); left; reflexivity|right; exact Md].
    - rewrite match_iter_eq, mi_step_normal by exact Hst. pose proof Ho as [hb [tb [-> [_ [_ [Hfr [Hne _]]]]]]]. rewrite (normal_ordinary M env nok a hb tb pm Ho).
      assert (Sub : forall fl sh p, In p (hb :: tb) -> forall c, comp_at c (element_pattern fl sh (view p))).
      { intros fl sh p Hp c. apply HM; [|apply frag_element, Hfr, Hp]. pose proof (element_size fl sh p). pose proof (in_size p _ Hp). unfold pat_fuel. destruct (is_num_atom c); lia. }
      assert (First : forall c hd, pat_fuel c (EExpr (hb :: tb)) < pat_fuel a (EExpr (hb :: tb)) -> (exists t, c = EExpr (ESym hd :: t)) ->
        no_pairs a = false -> (forall s, hb = ESym s -> sym_heads (EExpr (hb :: tb)) = true -> is_sameq (ESym hd) (ESym s) = false) ->
        inst neg R env sg c (EExpr (hb :: tb)) ->
        let r := (let '(ms, pm1) := M c (EExpr (hb :: tb)) pm in (match ms with [] => [] | m :: _ => [m] end, pm1)) in
        exists m, In m (fst r) /\ (covers eq sg pm -> covers eq sg m /\ covers eq sg (snd r))).
      { intros c hd L [t ->] Hnp Hsh Ic.
        destruct (name_free (EExpr (hb :: tb))) eqn:Enf.
        - destruct (HM _ _ L Hf sg pm N) as [m [Hm Cm]]; [unfold pairs_ok; rewrite Enf; reflexivity|exact Ic|left; exact Enf|].
          destruct (nf_match env nok Hnf (EExpr (ESym hd :: t)) _ Hf Enf pm N) as [A B].
          destruct (M (EExpr (ESym hd :: t)) (EExpr (hb :: tb)) pm) as [ms pm1]. cbn [fst snd] in *. subst pm1.
          destruct ms as [|m0 ms]; [destruct Hm|]. exists m0. split; [left; reflexivity|]. intro Q. split; [|exact Q]. eapply covers_incl; [apply B; left; reflexivity|exact Q].
        - exfalso. unfold pairs_ok in Hpk. rewrite Enf, Hnp in Hpk. cbn [orb] in Hpk.
          destruct hb as [s| | | | | |]; try discriminate Hpk. specialize (Hsh s eq_refl Hpk).
          apply (ordinary_inst _ _ _ nok) in Ic; [|exact Ho]. inversion Ic; subst.
          + discriminate.
          + rewrite sameq_refl in Hsh. discriminate.
          + match goal with H : takes _ _ _ _ _ _ _ _ |- _ => destruct H as [_ [Fe _]] end. inversion Fe as [|? ? He _]; subst.
            change (element_pattern false "Sequence" (view (ESym s))) with (ESym s) in He.
            destruct (inv_atom _ _ _ _ (ESym hd) (ESym s) eq_refl He) as [_ Q]. congruence. }
      apply (ordinary_inst _ _ _ nok) in Hi; [|exact Ho].
      inversion Hi as [n d h0 t0 Ic|r i h0 t0 Ic|e h0 t0 He Hn Hs|f args t0 blocks Hd F|h args h0 t0 blocks Hne' T Hc F]; subst.
      + apply (First _ (sysname "Rational")); [unfold pat_fuel; cbn [is_num_atom]; lia|eexists; reflexivity|reflexivity| |exact Ic].
        intros s -> Q. cbn [sym_heads] in Q. apply andb_true_iff in Q as [Q _]. apply andb_true_iff in Q as [Q _]. apply negb_true_iff in Q. exact Q.
      + apply (First _ (sysname "Complex")); [unfold pat_fuel; cbn [is_num_atom]; lia|eexists; reflexivity|reflexivity| |exact Ic].
        intros s -> Q. cbn [sym_heads] in Q. apply andb_true_iff in Q as [Q _]. apply andb_true_iff in Q as [_ Q]. apply negb_true_iff in Q. exact Q.
      + exists []. destruct a; try discriminate He; try discriminate Hn; rewrite Hs; cbn [fst snd]; (split; [left; reflexivity|]); intro Q; (split; [apply covers_nil|exact Q]).
      + cbn [fst snd]. unfold match_parts. rewrite String.eqb_refl, !andb_true_r.
        destruct (seq_complete env neg R (me_orderless env f) (me_flat env f) f sg args tb blocks pm) as [m [Hm Cm]]; try assumption.
        * apply (Hne f eq_refl).
        * intros p Hp. apply Sub. right; exact Hp.
        * intros c p Hc Hp. apply (pairs_element (ESym f :: args) (ESym f :: tb)); [exact Hpk|right; exact Hc|right; exact Hp].
        * destruct Md as [Md|Md]; [left; intros p Hp; apply (nf_args _ _ p Md Hp)|right; exact Md].
        * exists m. split; [exact Hm|]. intro Q. split; [apply Cm, Q|exact Q].
      + cbn [fst snd].
        assert (E : match_parts M env false (h :: concat blocks) (hb :: tb) pm =
                    seq_match M env (h :: concat blocks) (map (fun p => parse_form p false "Sequence"%string (me_default env "Sequence"%string)) (hb :: tb)) false "Sequence"%string pm).
        { unfold match_parts. destruct h as [s| | | | | |]; try reflexivity. destruct hb as [s'| | | | | |]; try reflexivity.
          destruct (String.eqb_spec s s') as [<-|]; [|reflexivity]. exfalso. apply (Hne' s eq_refl). reflexivity. }
        rewrite E.
        destruct (seq_complete env neg R false false "Sequence"%string sg (h :: concat blocks) (hb :: tb) ([h] :: blocks) pm) as [m [Hm Cm]]; try assumption.
        * discriminate.
        * intros p Hp. apply Sub, Hp.
        * intros c p Hc Hp. apply (pairs_element (h :: concat blocks) (hb :: tb)); [exact Hpk|exact Hc|exact Hp].
        * reflexivity.
        * constructor; assumption.
        * destruct Md as [Md|Md]; [left; intros p Hp; apply (nf_in _ p Md Hp)|right; exact Md].
        * exists m. split; [exact Hm|]. intro Q. split; [apply Cm, Q|exact Q].
  Qed.

  Lemma comp_all : forall n a b, pat_fuel a b < n -> frag nok MElem b = true -> comp_at a b.
  Proof. induction n as [|n IH]; intros a b L Hf; [lia|]. apply comp_step; [|exact Hf]. intros c p Lc. apply IH. lia. Qed.
  Lemma match_complete a b : frag nok MElem b = true -> comp_at a b.
  Proof. apply (comp_all (S (pat_fuel a b))). lia. Qed.
End complete2.

(* ---- Except nested n deep ---- *)
Section strata.
  Variable env : menv.
  Hypothesis Henv : env_ok env.
  Notation M := (match_iter env).
  Lemma strata n : (forall a q, neg_ok_n n q = true -> nf_at M a q) /\
    (forall a q pm, neg_ok_n n q = true -> nodupk pm -> (fst (M a q pm) = [] <-> neg_n env n a q)).
  Proof.
    induction n as [|n [IH1 IH2]]; [split; intros; discriminate|].
    assert (S : forall q, neg_ok_n (S n) q = true -> frag (neg_ok_n n) MElem q = true /\ name_free q = true /\ supported (neg_ok_n n) q = true).
    { intros q H. cbn [neg_ok_n] in H. apply andb_true_iff in H as [H C]. apply andb_true_iff in H as [A B]. auto. }
    split.
    - intros a q H. apply S in H as [A [B _]]. apply (nf_match env (neg_ok_n n) IH1 a q A B).
    - intros a q pm H N. apply S in H as [A [B C]]. cbn [neg_n]. split.
      + intros E [sg Hi].
        destruct (match_complete env (neg_n env n) (neg_ok_n n) same IH1 (fun a q pm H N => proj2 (IH2 a q pm H N)) a q A sg pm N) as [m [Hm _]].
        * unfold pairs_ok. rewrite B. reflexivity.
        * exact Hi.
        * left. exact B.
        * rewrite E in Hm. destruct Hm.
      + intro H. destruct (fst (M a q pm)) as [|m ms] eqn:E; [reflexivity|]. exfalso. apply H. exists (pd_bindings m).
        apply (match_sound env (neg_n env n) (neg_ok_n n) Henv (fun a q pm H N => proj1 (IH2 a q pm H N)) a q pm m C N); [rewrite E; left; reflexivity|apply covers_self].
  Qed.
End strata.
