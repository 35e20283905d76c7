(* Completeness of the matcher on the fragment of S_Match.v. *)
From Verif Require Import M_Syntax M_Hash M_Alloc M_Match S_Alloc S_Match P_Hash P_Alloc P_MatchFuel P_MatchSound.
From Coq Require Import Permutation Relations.
Open Scope nat_scope.

(* ---- name-free patterns leave the bindings alone ---- *)
Definition nf_at (M : matcher) (a b : ex) : Prop := forall pm, nodupk pm ->
  snd (M a b pm) = pm /\ forall m, In m (fst (M a b pm)) -> incl_pd m pm.

Lemma nf_args s args p : name_free (EExpr (ESym s :: args)) = true -> In p args -> name_free p = true.
Proof. cbn [name_free]. rewrite andb_true_iff, forallb_forall. intros [_ H] Hp. apply H, Hp. Qed.
Lemma nf_in l p : name_free (EExpr l) = true -> In p l -> name_free p = true.
Proof.
  destruct l as [|h t]; [intros _ []|]. intros H [<-|Hp].
  - destruct h as [s| | | | | |]; try reflexivity. cbn [name_free forallb] in H. apply andb_true_iff in H. apply H.
  - destruct h as [s| | | | | |]; [eapply nf_args; eauto|..]; cbn [name_free] in H; rewrite forallb_forall in H; apply H; right; exact Hp.
Qed.
Lemma nf_nopat args : name_free (EExpr (ESym nPattern :: args)) = true -> False.
Proof. cbn [name_free]. rewrite String.eqb_refl. discriminate. Qed.

Lemma nf_core fl sh c : name_free c = true -> name_free (snd (core_spec fl sh c)) = true.
Proof.
  intro H. unfold core_spec. destruct c as [| | | | | |[|[h| | | | | |] l]]; try exact H.
  assert (B : name_free (EExpr (sys "Blank" :: firstn 1 l)) = true).
  { unfold sys. destruct l as [|x t]; [reflexivity|]. cbn [firstn name_free]. change (String.eqb (sysname "Blank") nPattern) with false.
    cbn [negb andb forallb]. rewrite (nf_args h (x :: t) x H) by (left; reflexivity). reflexivity. }
  destruct (String.eqb h nBNS); [exact B|]. destruct (String.eqb h nBS); [exact B|].
  destruct (String.eqb h nBlank).
  { destruct fl; [|exact H]. destruct l as [|[g| | | | | |] t]; try exact H. destruct (String.eqb g sh); [reflexivity|exact H]. }
  destruct (String.eqb h nRepeated).
  { destruct l as [|q [|sp r]]; [exact H|eapply nf_args; [exact H|left; reflexivity]|].
    assert (Hq : name_free q = true) by (eapply nf_args; [exact H|left; reflexivity]).
    destruct sp as [| | | | | |[|[lst| | | | | |] [|[| |k| | | |] [|]]]]; try exact H.
    destruct (String.eqb lst nList); [|exact H]. destruct (Z.eqb k (-1)); [exact Hq|]. destruct (Z.ltb k 0); exact Hq. }
  destruct (String.eqb h nRepeatedNull); [|exact H]. destruct l as [|q [|]]; try exact H. eapply nf_args; [exact H|left; reflexivity].
Qed.

Lemma nf_view fl sh p : name_free p = true -> cv_name (view p) = None /\ name_free (element_pattern fl sh (view p)) = true.
Proof.
  intro H. unfold element_pattern. rewrite view_peel. cbv zeta. cbn [cv_opt cv_test cv_core cv_name].
  set (p1 := match peel_opt p with Some (q, _) => q | None => p end).
  assert (H1 : name_free p1 = true).
  { subst p1. destruct (peel_opt p) as [[q r]|] eqn:E; [|exact H]. apply peel_opt_some in E as ->. eapply nf_args; [exact H|left; reflexivity]. }
  set (p2 := match peel_test p1 with Some (q, _) => q | None => p1 end).
  assert (H2 : name_free p2 = true).
  { subst p2. destruct (peel_test p1) as [[q t]|] eqn:E; [|exact H1]. apply peel_test_some in E as [r E]. rewrite E in H1. eapply nf_args; [exact H1|left; reflexivity]. }
  assert (Hn : peel_name p2 = None).
  { destruct (peel_name p2) as [[x q]|] eqn:E; [|reflexivity]. apply peel_name_some in E as [r E]. rewrite E in H2. destruct (nf_nopat _ H2). }
  rewrite Hn. split; [reflexivity|].
  set (c := match match peel_opt p with Some (_, r) => Some (hd_error r) | None => None end with Some _ => p2 | None => snd (core_spec fl sh p2) end).
  assert (Hc : name_free c = true) by (subst c; destruct (peel_opt p) as [[q r]|]; [exact H2|apply nf_core, H2]).
  destruct (peel_test p1) as [[q t]|] eqn:E; [|exact Hc].
  apply peel_test_some in E as [r E]. rewrite E in H1.
  assert (Ht : name_free t = true) by (eapply nf_args; [exact H1|right; left; reflexivity]).
  unfold sys. cbn [name_free forallb]. rewrite Hc, Ht. reflexivity.
Qed.

(* ---- the fragment is closed under the recursion ---- *)
Section fragment.
  Variable nok : ex -> bool.
  Notation fr := (frag nok).

  Lemma fr_plain m s args : blank_name s = false -> existsb (String.eqb s) [nPattern; nPatTest; nRepeated; nRepeatedNull; nAlt; nExcept; nHoldPattern; nCondition; nOptional] = false ->
    fr m (EExpr (ESym s :: args)) = match args with [] => false | _ => forallb (fr MTop) args end.
  Proof.
    intros H1 H2. cbn [existsb] in H2. rewrite !orb_false_iff in H2. destruct H2 as [A1 [A2 [A3 [A4 [A5 [A6 [A7 [A8 [A9 _]]]]]]]]].
    cbn [frag]. rewrite H1, A1, A2, A3, A4, A5, A6, A7, A8, A9. reflexivity.
  Qed.

  (* what each kind of pattern in the fragment looks like *)
  Lemma fr_pattern m args : fr m (EExpr (ESym nPattern :: args)) = true -> exists x q, args = [ESym x; q] /\
    match m with MTop => fr MCore q = true | _ => is_blankb q = true end.
  Proof.
    cbn [frag]. change (blank_name nPattern) with false. change (String.eqb nPattern nPattern) with true. cbv iota.
    destruct args as [|[x| | | | | |] [|q [|]]]; try discriminate. intro H. exists x, q. split; [reflexivity|]. destruct m; exact H.
  Qed.
  Lemma fr_test m args : fr m (EExpr (ESym nPatTest :: args)) = true -> exists q t, args = [q; t] /\
    match m with
    | MTop => (exists x c, q = EExpr [ESym nPattern; ESym x; c] /\ fr MCore c = true /\ name_free c = true) \/
              (fr MCore q = true /\ name_free q = true)
    | _ => fr MElem q = true /\ (name_free q = true \/ named_blank q = true)
    end.
  Proof.
    cbn [frag]. change (blank_name nPatTest) with false. change (String.eqb nPatTest nPattern) with false.
    change (String.eqb nPatTest nPatTest) with true. cbv iota.
    destruct args as [|q [|t [|]]]; try discriminate. intro H. exists q, t. split; [reflexivity|].
    destruct m.
    - destruct q as [| | | | | |[|[s'| | | | | |] [|[x| | | | | |] [|c [|]]]]]; try (right; apply andb_true_iff in H; exact H).
      destruct (String.eqb_spec s' nPattern) as [->|]; [|right; apply andb_true_iff in H; exact H].
      left. exists x, c. apply andb_true_iff in H. split; [reflexivity|exact H].
    - apply andb_true_iff in H as [A B]. apply orb_true_iff in B. auto.
    - apply andb_true_iff in H as [A B]. apply orb_true_iff in B. auto.
  Qed.
  Lemma fr_opt m args : fr m (EExpr (ESym nOptional :: args)) = false.
  Proof. reflexivity. Qed.

  Lemma fr_core_top p : fr MCore p = true -> peel_test p = None \/ fr MElem p = true.
  Proof.
    intro H. destruct (peel_test p) as [[q t]|] eqn:E; [right|left; reflexivity]. apply peel_test_some in E as [r ->].
    destruct (fr_test _ _ H) as [q' [t' [Ea Q]]]. injection Ea as <- <- ->. cbn [frag].
    change (blank_name nPatTest) with false. change (String.eqb nPatTest nPattern) with false. change (String.eqb nPatTest nPatTest) with true. cbv iota.
    destruct Q as [A B]. rewrite A. apply orb_true_iff in B. exact B.
  Qed.

  (* MCore and MElem differ only for Repeated and RepeatedNull *)
  Lemma fr_core_elem s args : fr MCore (EExpr (ESym s :: args)) = true -> s <> nRepeated -> s <> nRepeatedNull -> fr MElem (EExpr (ESym s :: args)) = true.
  Proof.
    intros H N1 N2. cbn [frag] in *. destruct (blank_name s); [reflexivity|]. destruct (String.eqb s nPattern); [exact H|].
    destruct (String.eqb s nPatTest); [exact H|].
    destruct (String.eqb_spec s nRepeated); [contradiction|]. destruct (String.eqb_spec s nRepeatedNull); [contradiction|]. exact H.
  Qed.

  Lemma fr_corespec fl sh c : fr MCore c = true -> fr MElem (snd (core_spec fl sh c)) = true.
  Proof.
    intro H. unfold core_spec. destruct c as [| | | | | |[|[h| | | | | |] l]]; try exact H.
    destruct (String.eqb h nBNS); [reflexivity|]. destruct (String.eqb h nBS); [reflexivity|].
    destruct (String.eqb_spec h nBlank) as [->|].
    { destruct fl; [|reflexivity]. destruct l as [|[g| | | | | |] t]; try reflexivity. destruct (String.eqb g sh); reflexivity. }
    destruct (String.eqb_spec h nRepeated) as [->|N1].
    { assert (Q : match l with [q] => fr MElem q = true | [q; EExpr [ESym ll; EInt _]] => fr MElem q = true /\ String.eqb ll nList = true | _ => False end).
      { cbn [frag] in H. change (blank_name nRepeated) with false in H. change (String.eqb nRepeated nPattern) with false in H.
        change (String.eqb nRepeated nPatTest) with false in H. change (String.eqb nRepeated nRepeated) with true in H. cbv iota in H.
        destruct l as [|q [|sp [|]]]; try discriminate H; [exact H| |].
        - destruct sp as [| | | | | |[|[lst| | | | | |] [|[| |k| | | |] [|]]]]; try discriminate H. apply andb_true_iff in H. exact H.
        - destruct sp as [| | | | | |[|[lst| | | | | |] [|[| |k| | | |] [|]]]]; discriminate H. }
      destruct l as [|q [|sp l]]; [destruct Q|exact Q|].
      destruct sp as [| | | | | |[|[lst| | | | | |] [|[| |k| | | |] [|]]]]; try (destruct l; destruct Q; fail).
      destruct l; [|destruct Q]. destruct Q as [Q1 Q2].
      rewrite Q2. destruct (Z.eqb k (-1)); [exact Q1|]. destruct (Z.ltb k 0); exact Q1. }
    destruct (String.eqb_spec h nRepeatedNull) as [->|N2].
    { destruct l as [|q [|]]; try discriminate H. exact H. }
    apply fr_core_elem; assumption.
  Qed.

  Lemma peel_opt_frag m p : fr m p = true -> peel_opt p = None.
  Proof. intro H. destruct (peel_opt p) as [[q r]|] eqn:E; [|reflexivity]. apply peel_opt_some in E as ->. rewrite fr_opt in H. discriminate. Qed.

  (* a pattern in the fragment in an argument position *)
  Lemma view_frag p : fr MTop p = true -> cv_opt (view p) = None /\
    fr MCore (cv_core (view p)) = true /\ (cv_test (view p) <> None -> name_free (cv_core (view p)) = true).
  Proof.
    intro H. rewrite view_peel. cbv zeta. cbn [cv_opt cv_test cv_core]. rewrite (peel_opt_frag _ _ H). split; [reflexivity|].
    destruct (peel_test p) as [[q t]|] eqn:E.
    - apply peel_test_some in E as [r ->]. destruct (fr_test _ _ H) as [q' [t' [Ea Q]]]. injection Ea as <- <- ->.
      destruct Q as [[x [c [-> [A B]]]]|[A B]].
      + change (peel_name (EExpr [ESym nPattern; ESym x; c])) with (Some (x, c)). split; [exact A|intros _; exact B].
      + destruct (peel_name q) as [[x c]|] eqn:En; [|split; [exact A|intros _; exact B]].
        apply peel_name_some in En as [r ->]. destruct (nf_nopat _ B).
    - split; [|congruence]. destruct (peel_name p) as [[x q]|] eqn:En.
      + apply peel_name_some in En as [r ->]. destruct (fr_pattern _ _ H) as [x' [q' [Ea Q]]]. injection Ea as <- <- ->. exact Q.
      + destruct p as [| | | | | |[|[s| | | | | |] args]]; try exact H.
        cbn [frag] in *. destruct (blank_name s); [reflexivity|].
        destruct (String.eqb_spec s nPattern) as [->|].
        { destruct args as [|[x| | | | | |] [|q [|]]]; first [discriminate H|discriminate En]. }
        destruct (String.eqb_spec s nPatTest) as [->|].
        { destruct args as [|q [|t [|]]]; first [discriminate H|discriminate E]. }
        exact H.
  Qed.

  Lemma frag_element fl sh p : fr MTop p = true -> fr MElem (element_pattern fl sh (view p)) = true.
  Proof.
    intro H. destruct (view_frag p H) as [Ho [Hc Ht]]. unfold element_pattern. rewrite Ho.
    pose proof (fr_corespec fl sh _ Hc) as Q. destruct (cv_test (view p)) as [t|]; [|exact Q].
    unfold sys. fold nPatTest. cbn [frag]. change (blank_name nPatTest) with false. change (String.eqb nPatTest nPattern) with false.
    change (String.eqb nPatTest nPatTest) with true. cbv iota. rewrite Q, (nf_core fl sh _ (Ht ltac:(discriminate))). reflexivity.
  Qed.
End fragment.

Lemma update_incl add : forall pm, nodupk add -> incl_pd add pm -> incl_pd (pd_update pm add) pm.
Proof.
  intros pm N H x v. rewrite pd_get_update by exact N. destruct (pd_get add x) eqn:E; [|auto]. intro Q; injection Q as <-. apply H, E.
Qed.

Section nf.
  Variable env : menv.
  Notation M := (match_iter env).

  Lemma nf_comps form : (forall c, nf_at M c form) -> forall comps pm pm', nodupk pm -> In pm' (ami_comps M form comps pm) -> incl_pd pm' pm.
  Proof.
    intro HM. induction comps as [|c r IH]; intros pm pm' N Hin.
    - destruct Hin as [<-|[]]. apply incl_refl.
    - cbn [ami_comps] in Hin. destruct (HM c pm N) as [E1 I1]. destruct (str_match env c form pm N) as [_ [_ S1]]. destruct (M c form pm) as [ms pm1]. cbn [fst snd] in *. subst pm1.
      apply in_flat_map in Hin as [m [Hm Hin]]. eapply incl_trans; [apply (IH _ _ (nodup_update m pm N) Hin)|].
      apply update_incl; [apply (S1 m Hm)|apply I1, Hm].
  Qed.
  Lemma nf_forms sh : forall bl, (forall x, In x bl -> pf_pat (fst x) = None /\ forall c, nf_at M c (pf_form (fst x))) -> forall pm pm', nodupk pm ->
    In pm' (ami_forms M env sh bl pm) -> incl_pd pm' pm.
  Proof.
    induction bl as [|[lhs comps] bl IH]; intros HM pm pm' N Hin.
    - destruct Hin as [<-|[]]. apply incl_refl.
    - cbn [ami_forms] in Hin. apply in_flat_map in Hin as [pm1 [H1 Hin]]. destruct (HM _ (or_introl eq_refl)) as [Hp Hf]. cbn [fst] in Hp, Hf.
      unfold define_sequence in Hin. rewrite Hp in Hin.
      pose proof (comps_str M _ (fun c => str_match env c _) comps pm pm1 N H1) as [N1 _].
      eapply incl_trans; [apply (IH (fun x Hx => HM x (or_intror Hx)) pm1 pm' N1 Hin)|]. eapply nf_comps; eauto.
  Qed.
  Lemma nf_parts nok fo la lb pm pm' : name_free (EExpr lb) = true -> (forall p, In p lb -> frag nok MTop p = true) ->
    (forall c p, ex_size p < ex_size (EExpr lb) -> frag nok MElem p = true -> name_free p = true -> nf_at M c p) -> nodupk pm ->
    In pm' (match_parts M env fo la lb pm) -> incl_pd pm' pm.
  Proof.
    intros Hn Hfr HM N Hin.
    assert (D : forall ps comps fl sh ord, (forall p, In p ps -> In p lb) ->
       In pm' (seq_match M env comps (map (fun p => parse_form p fl sh (me_default env sh)) ps) ord sh pm) -> incl_pd pm' pm).
    { intros ps comps fl sh ord Hps Q. unfold seq_match in Q. destruct (enough_matches _ _ _); [|destruct Q].
      apply in_flat_map in Q as [assn [_ Q]]. eapply nf_forms; [|exact N|exact Q].
      intros [f bl] Hx. apply in_combine_l in Hx. apply in_map_iff in Hx as [p [<- Hp]]. cbn [fst]. rewrite parse_form_view. cbn [pform_of pf_pat pf_form].
      destruct (nf_view fl sh p (nf_in lb p Hn (Hps p Hp))) as [A B]. split; [exact A|]. intro c. apply HM; [|apply frag_element, Hfr, Hps, Hp|exact B].
      pose proof (element_size fl sh p). pose proof (in_size p lb (Hps p Hp)). lia. }
    unfold match_parts in Hin.
    destruct la as [|[s| | | | | |] ta]; try (revert Hin; apply D; auto; fail).
    destruct lb as [|[s'| | | | | |] tb]; try (revert Hin; apply D; auto; fail).
    destruct (String.eqb s s'); [|revert Hin; apply D; auto]. revert Hin. apply D. intros p Hp; right; exact Hp.
  Qed.
End nf.

(* verbatim operators are outside the fragment *)
Lemma verbatim_frag nok m a b : frag nok m b = true -> verbatim_op a b = None.
Proof.
  intro H. unfold verbatim_op. destruct a as [| | | | | |[|h ta]]; try reflexivity.
  destruct b as [| | | | | |[|[| | | | | |[|[s| | | | | |] [|v [|]]]] args]]; try reflexivity.
  cbn [frag] in H. apply andb_true_iff in H as [H _]. apply andb_true_iff in H as [H _]. unfold single_head in H.
  apply andb_true_iff in H as [_ H]. apply negb_true_iff in H. rewrite H. reflexivity.
Qed.

(* the compound patterns that are not special *)
Definition ordinary (nok : ex -> bool) (b : ex) : Prop :=
  exists hb tb, b = EExpr (hb :: tb) /\ plain b /\ is_blank_type_only b = false /\ (forall p, In p (hb :: tb) -> frag nok MTop p = true) /\
    (forall s, hb = ESym s -> tb <> []) /\ (is_sym hb = false -> single_head hb = true) /\
    (forall s, hb = ESym s -> s <> nCondition /\ s <> nOptional).

Definition step_heads := [nExcept; nAlt; nPatTest; nCondition; nOptional; nHoldPattern].
Lemma mi_step_normal M env a b pm : (forall s args, b = EExpr (ESym s :: args) -> existsb (String.eqb s) step_heads = false) ->
  mi_step M env a b pm = match_normal M env a b pm.
Proof.
  intro H. unfold mi_step. destruct b as [| | | | | |[|[s| | | | | |] args]]; try reflexivity.
  specialize (H s args eq_refl). cbn [existsb step_heads] in H. rewrite !orb_false_iff in H. destruct H as [A1 [A2 [A3 [A4 [A5 [A6 _]]]]]].
  rewrite A1, A2, A3, A4, A5, A6. reflexivity.
Qed.

(* a pattern of the fragment is an atom, blank, a named blank, one of the
   special forms, or ordinary *)
Inductive fr_shape (nok : ex -> bool) : ex -> Prop :=
| FS_atom b : is_expr b = false -> fr_shape nok b
| FS_blank s args : blank_name s = true -> fr_shape nok (EExpr (ESym s :: args))
| FS_named x q : is_blankb q = true -> fr_shape nok (EExpr [ESym nPattern; ESym x; q])
| FS_test q t : frag nok MElem q = true -> name_free q = true \/ named_blank q = true -> fr_shape nok (EExpr [ESym nPatTest; q; t])
| FS_alt args : forallb (fun q => frag nok MElem q && name_free q) args = true -> fr_shape nok (EExpr (ESym nAlt :: args))
| FS_except q : nok q = true -> fr_shape nok (EExpr [ESym nExcept; q])
| FS_except2 q r : nok q = true -> frag nok MElem r = true -> name_free r = true -> fr_shape nok (EExpr [ESym nExcept; q; r])
| FS_hold q : frag nok MElem q = true -> fr_shape nok (EExpr [ESym nHoldPattern; q])
| FS_ord b : ordinary nok b -> (forall s args, b = EExpr (ESym s :: args) -> existsb (String.eqb s) step_heads = false) -> fr_shape nok b.

Lemma blank_type_sym s args : blank_name s = false -> s <> nPattern -> is_blank_type_only (EExpr (ESym s :: args)) = false.
Proof.
  intros H N. unfold is_blank_type_only, blank_like. rewrite !args_of_expr. unfold blank_name in H. rewrite !orb_false_iff in H. destruct H as [[A B] C].
  destruct (String.eqb_spec s nPattern); [contradiction|]. rewrite A, B, C. reflexivity.
Qed.

Lemma fr_shapes nok b : frag nok MElem b = true -> fr_shape nok b.
Proof.
  intro H. destruct b as [s|s|z|n d|f|r i|[|hb tb]]; try (apply FS_atom; reflexivity); [discriminate|].
  destruct hb as [s|sb|zb|nb db|fb|rb ib|lb].
  2-7: cbn [frag] in H; apply andb_true_iff in H as [H H3]; apply andb_true_iff in H as [H1 H2]; apply FS_ord; [|intros; discriminate];
       eexists _, tb; split; [reflexivity|]; split; [exact Logic.I|]; split; [reflexivity|];
       (split; [intros p [<-|Hp]; [exact H2|rewrite forallb_forall in H3; apply H3, Hp]|]); split; [discriminate|]; split; [intros _; exact H1|discriminate].
  cbn [frag] in H. destruct (blank_name s) eqn:Hb; [apply FS_blank; exact Hb|].
  destruct (String.eqb_spec s nPattern) as [->|N1].
  { destruct tb as [|[x| | | | | |] [|q [|]]]; try discriminate H. apply FS_named; exact H. }
  destruct (String.eqb_spec s nPatTest) as [->|N2].
  { destruct tb as [|q [|t [|]]]; try discriminate H. apply andb_true_iff in H as [A B]. apply orb_true_iff in B. apply FS_test; assumption. }
  destruct (String.eqb s nRepeated) eqn:N3; [discriminate H|]. destruct (String.eqb s nRepeatedNull) eqn:N4; [discriminate H|].
  destruct (String.eqb_spec s nAlt) as [->|N5]; [apply FS_alt; exact H|].
  destruct (String.eqb_spec s nExcept) as [->|N6].
  { destruct tb as [|q [|r [|]]]; try discriminate H; [apply FS_except; exact H|]. apply andb_true_iff in H as [H C]. apply andb_true_iff in H as [A B]. apply FS_except2; assumption. }
  destruct (String.eqb_spec s nHoldPattern) as [->|N7].
  { destruct tb as [|q [|]]; try discriminate H. apply FS_hold; exact H. }
  destruct (String.eqb_spec s nCondition) as [->|N8]; [discriminate H|]. destruct (String.eqb_spec s nOptional) as [->|N9]; [discriminate H|]. cbn [orb] in H.
  apply FS_ord.
  - exists (ESym s), tb. split; [reflexivity|]. split.
    { cbn. unfold blank_name in Hb. rewrite !orb_false_iff in Hb. destruct Hb as [[B1 B2] B3].
      apply String.eqb_neq in B1, B2, B3. intros [Q|[Q|[Q|[Q|[[Q _]|[[Q _]|[[Q _]|[Q _]]]]]]]]; contradiction. }
    split; [apply blank_type_sym; assumption|]. destruct tb as [|p0 tb]; [discriminate H|].
    split; [intros p [<-|Hp]; [reflexivity|rewrite forallb_forall in H; apply H, Hp]|]. split; [discriminate|]. split; [discriminate|].
    intros s' E. injection E as <-. split; assumption.
  - intros s' args E. injection E as <- <-. cbn [existsb step_heads]. rewrite !orb_false_iff, !String.eqb_neq. tauto.
Qed.

Lemma is_blankb_spec q : is_blankb q = true -> exists l, blank_like q = Some l.
Proof.
  destruct q as [| | | | | |[|[s| | | | | |] l]]; try discriminate. cbn. unfold blank_name. rewrite !orb_true_iff, !String.eqb_eq.
  intros [[->| ->]| ->]; exists l; reflexivity.
Qed.
Lemma blank_name_like s args : blank_name s = true -> blank_like (EExpr (ESym s :: args)) = Some args /\ s <> nPattern /\ existsb (String.eqb s) step_heads = false.
Proof. unfold blank_name. rewrite !orb_true_iff, !String.eqb_eq. intros [[->| ->]| ->]; (split; [reflexivity|]); (split; [discriminate|reflexivity]). Qed.

(* no optional argument: the head is never assumed *)
Lemma assume_none env nok a hb tb : (forall p, In p tb -> frag nok MTop p = true) -> assume_head env a (EExpr (hb :: tb)) = None.
Proof.
  intro H. unfold assume_head. destruct hb as [s| | | | | |]; try reflexivity.
  assert (E : has_optional tb = false).
  { unfold has_optional. destruct (existsb (fun p => has_head p nOptional) tb) eqn:E; [|reflexivity]. apply existsb_exists in E as [p [Hp Q]].
    specialize (H p Hp). unfold has_head in Q. destruct (head_assertion p nOptional) eqn:A; [|discriminate]. unfold head_assertion in A.
    destruct p as [| | | | | |[|[s'| | | | | |] l']]; try discriminate A. destruct (String.eqb_spec s' nOptional) as [->|]; [|discriminate A]. discriminate H. }
  rewrite E, andb_false_r. reflexivity.
Qed.

(* matching an ordinary pattern *)
Lemma normal_ordinary M env nok a hb tb pm : ordinary nok (EExpr (hb :: tb)) ->
  match_normal M env a (EExpr (hb :: tb)) pm =
  match a with
  | ERat n d => let '(ms, pm1) := M (EExpr [sys "Rational"; EInt n; EInt d]) (EExpr (hb :: tb)) pm in (match ms with [] => [] | m :: _ => [m] end, pm1)
  | ECplx re im => let '(ms, pm1) := M (EExpr [sys "Complex"; re; im]) (EExpr (hb :: tb)) pm in (match ms with [] => [] | m :: _ => [m] end, pm1)
  | EExpr la => (match_parts M env false la (hb :: tb) pm, pm)
  | _ => (if is_sameq a (EExpr (hb :: tb)) then [[]] else [], pm)
  end.
Proof.
  intros [hb' [tb' [E [Hpl [Hb [Hfr [Hne [Hsh _]]]]]]]]. injection E as <- <-. unfold match_normal.
  assert (V : verbatim_op a (EExpr (hb :: tb)) = None).
  { destruct hb as [s|s|z|n d|f|r i|l]; try (destruct a as [| | | | | |[|h ta]]; reflexivity).
    assert (F : frag nok MElem (EExpr (EExpr l :: tb)) = true).
    { change (single_head (EExpr l) && frag nok MTop (EExpr l) && forallb (frag nok MTop) tb = true). rewrite (Hsh eq_refl), (Hfr (EExpr l)) by (left; reflexivity). cbn [andb]. apply forallb_forall. intros p Hp. apply Hfr. right; exact Hp. }
    exact (verbatim_frag nok _ a _ F). }
  rewrite V, Hb. rewrite (assume_none env nok a hb tb) by (intros p Hp; apply Hfr; right; exact Hp).
  destruct a; reflexivity.
Qed.

Section nf2.
  Variable env : menv.
  Variable nok : ex -> bool.
  (* patterns under Except leave the bindings alone *)
  Hypothesis Hnok : forall a q, nok q = true -> nf_at (match_iter env) a q.
  Notation M := (match_iter env).

  Lemma nf_alts a ps : (forall p, In p ps -> nf_at M a p) -> forall pm, nodupk pm ->
    snd (match_alts M a ps pm) = pm /\ forall m, In m (fst (match_alts M a ps pm)) -> incl_pd m pm.
  Proof.
    induction ps as [|p t IH]; intros H pm N; cbn [match_alts]; [split; [reflexivity|intros m []]|].
    destruct (H p (or_introl eq_refl) pm N) as [A B]. destruct (M a p pm) as [ms pm1]. cbn [fst snd] in *. subst pm1.
    destruct ms as [|m0 ms]; [apply IH; [intros q Hq; apply H; right; exact Hq|exact N]|].
    cbn [fst snd]. split; [reflexivity|]. intros m [<-|[]]. apply B. left. reflexivity.
  Qed.

  Lemma nf_step a b : (forall c p, pat_fuel c p < pat_fuel a b -> frag nok MElem p = true -> name_free p = true -> nf_at M c p) ->
    frag nok MElem b = true -> name_free b = true -> nf_at M a b.
  Proof.
    intros HM Hf Hn pm N. rewrite match_iter_eq.
    assert (P : forall args s, b = EExpr (ESym s :: args) -> forall p, In p args -> frag nok MElem p = true -> nf_at M a p).
    { intros args s -> p Hp Hfp. apply HM; [|exact Hfp|eapply nf_args; eauto]. unfold pat_fuel. rewrite size_cons, size_sym. pose proof (in_size p args Hp). lia. }
    destruct (fr_shapes nok b Hf) as [b Ha|s args Hb|x q Hq|q t Hq _|args Hargs|q Hq|q r Hq Hr _|q Hq|b Ho Hst].
    - rewrite mi_step_normal by (intros s args ->; discriminate Ha). unfold match_normal. rewrite (verbatim_frag nok _ a b Hf).
      assert (Hb : is_blank_type_only b = false) by (destruct b; try discriminate Ha; reflexivity). rewrite Hb.
      assert (An : assume_head env a b = None) by (destruct b; try discriminate Ha; reflexivity).
      destruct a; destruct b; try discriminate Ha; rewrite ?An; cbn [fst snd]; (split; [reflexivity|]);
        try (destruct (is_sameq _ _); [|intros m []]; intros m [<-|[]] y w Hy; discriminate Hy); intros m [].
    - destruct (blank_name_like s args Hb) as [E1 [E2 E3]].
      rewrite mi_step_normal by (intros s' args' E; injection E as <- <-; exact E3). unfold match_normal. rewrite (verbatim_frag nok _ a _ Hf).
      assert (Ea : args_of (EExpr (ESym s :: args)) nPattern = None) by (rewrite args_of_expr; destruct (String.eqb_spec s nPattern); [contradiction|reflexivity]).
      unfold is_blank_type_only, blank_capture. rewrite Ea, E1. destruct (blank_head_ok args (head_ex a)); cbn [fst snd]; (split; [reflexivity|]); [|intros m []].
      intros m [<-|[]]. apply incl_refl.
    - destruct (nf_nopat _ Hn).
    - unfold mi_step. change (String.eqb nPatTest nExcept) with false. change (String.eqb nPatTest nAlt) with false. change (String.eqb nPatTest nPatTest) with true. cbv iota.
      destruct (P [q; t] nPatTest eq_refl q (or_introl eq_refl) Hq pm N) as [A B]. destruct (M a q pm) as [ms pm1]. cbn [fst snd] in *. subst pm1.
      destruct ms as [|m0 ms]; [split; [reflexivity|intros m []]|].
      assert (G : forall t : bool, snd ((if t then [m0] else []), pm) = pm /\ forall m, In m (fst ((if t then [m0] else []), pm)) -> incl_pd m pm).
      { intros [|]; cbn; (split; [reflexivity|]); [|intros m []]. intros m [<-|[]]. apply B. left; reflexivity. }
      destruct (match t with ESym tn => _ | _ => _ end); apply G.
    - unfold mi_step. change (String.eqb nAlt nExcept) with false. change (String.eqb nAlt nAlt) with true. cbv iota.
      apply nf_alts; [|exact N]. intros p Hp. rewrite forallb_forall in Hargs. specialize (Hargs p Hp). apply andb_true_iff in Hargs as [A B]. apply (P args nAlt eq_refl p Hp A).
    - unfold mi_step. change (String.eqb nExcept nExcept) with true. cbv iota.
      destruct (Hnok a q Hq pm N) as [A B]. destruct (M a q pm) as [ms pm1]. cbn [fst snd] in *. subst pm1.
      destruct ms; cbn [fst snd]; (split; [reflexivity|]); [|intros m []]. intros m [<-|[]]. apply incl_refl.
    - unfold mi_step. change (String.eqb nExcept nExcept) with true. cbv iota.
      destruct (Hnok a q Hq pm N) as [A B]. destruct (M a q pm) as [ms pm1]. cbn [fst snd] in *. subst pm1.
      destruct ms; cbn [fst snd]; [|split; [reflexivity|intros m []]].
      destruct (P [q; r] nExcept eq_refl r (or_intror (or_introl eq_refl)) Hr pm N) as [A' B']. destruct (M a r pm) as [ms2 pm2]. cbn [fst snd] in *.
      split; [exact A'|]. intros m Hm. apply B'. destruct ms2; [destruct Hm|]. destruct Hm as [->|[]]. left; reflexivity.
    - unfold mi_step. change (String.eqb nHoldPattern nExcept) with false. change (String.eqb nHoldPattern nAlt) with false. change (String.eqb nHoldPattern nPatTest) with false.
      change (String.eqb nHoldPattern nCondition) with false. change (String.eqb nHoldPattern nOptional) with false. change (String.eqb nHoldPattern nHoldPattern) with true. cbv iota.
      apply (P [q] nHoldPattern eq_refl q (or_introl eq_refl) Hq pm N).
    - rewrite mi_step_normal by exact Hst. pose proof Ho as [hb [tb [-> [_ [_ [Hfr _]]]]]]. rewrite (normal_ordinary M env nok a hb tb pm Ho).
      assert (First : forall c, pat_fuel c (EExpr (hb :: tb)) < pat_fuel a (EExpr (hb :: tb)) ->
        let r := (let '(ms, pm1) := M c (EExpr (hb :: tb)) pm in (match ms with [] => [] | m :: _ => [m] end, pm1)) in
        snd r = pm /\ forall m, In m (fst r) -> incl_pd m pm).
      { intros c L. destruct (HM c _ L Hf Hn pm N) as [A B]. destruct (M c (EExpr (hb :: tb)) pm) as [ms pm1]. cbn [fst snd] in *.
        split; [exact A|]. intros m Hm. apply B. destruct ms; [destruct Hm|]. destruct Hm as [->|[]]. left; reflexivity. }
      destruct a as [sa|sa|z|n d|f|re im|la].
      4,6: apply First; unfold pat_fuel; cbn [is_num_atom]; lia.
      1-4: cbn [fst snd]; (split; [reflexivity|]); destruct (is_sameq _ _); [|intros m []]; intros m [<-|[]] y w Hy; discriminate Hy.
      cbn [fst snd]. split; [reflexivity|]. intros m Hm. eapply nf_parts; eauto.
      intros c p L Hp Hnp. apply HM; try assumption. unfold pat_fuel. destruct (is_num_atom c); cbn [is_num_atom]; lia.
  Qed.

  Lemma nf_all : forall n a b, pat_fuel a b < n -> frag nok MElem b = true -> name_free b = true -> nf_at M a b.
  Proof. induction n as [|n IH]; intros a b L Hf Hn; [lia|]. apply nf_step; [|exact Hf|exact Hn]. intros c p Lc. apply IH. lia. Qed.
  Lemma nf_match a b : frag nok MElem b = true -> name_free b = true -> nf_at M a b.
  Proof. apply (nf_all (S (pat_fuel a b))). lia. Qed.
End nf2.

(* ---- completeness ---- *)
Lemma filter_perm_len {A} (f : A -> bool) l l' : Permutation l l' -> length (filter f l) = length (filter f l').
Proof. induction 1 as [|x l l' _ IH|x y l|l1 l2 l3 _ IH1 _ IH2]; cbn; [reflexivity| | |congruence].
  - destruct (f x); cbn; congruence.
  - destruct (f x), (f y); reflexivity. Qed.
Lemma filter_all_len {A} (f : A -> bool) l : Forall (fun x => f x = true) l -> length (filter f l) = length l.
Proof. induction 1 as [|x l Hx _ IH]; cbn; [reflexivity|]. rewrite Hx. cbn. congruence. Qed.
Lemma block_count {A} (f : A -> bool) (bs : list (list A)) b l : Permutation (concat bs) l -> In b bs -> Forall (fun x => f x = true) b -> length b <= length (filter f l).
Proof.
  intros P Hb Hf. rewrite <- (filter_perm_len f _ _ P), <- (filter_all_len f b Hf). clear P Hf.
  induction bs as [|c bs IH]; [destruct Hb|]. cbn [concat]. rewrite filter_app, app_length. destruct Hb as [->|Hb]; [lia|]. specialize (IH Hb). lia.
Qed.

Lemma pick_perm comps ix : Permutation (concat ix) (seq 0 (length comps)) -> Permutation (concat (map (pick comps) ix)) comps.
Proof.
  intro H. rewrite <- (pick_concat comps [seq 0 (length comps)]) at 2 by (cbn; apply app_nil_r).
  unfold pick. rewrite <- !concat_map. cbn [concat]. rewrite app_nil_r. apply Permutation_map, H.
Qed.

Lemma slices_pick (bs : list (list ex)) : map (pick (concat bs)) (slices (map (@length ex) bs) (seq 0 (length (concat bs)))) = bs.
Proof.
  assert (G : forall (bs : list (list ex)) pre, map (pick (pre ++ concat bs)) (slices (map (@length ex) bs) (seq (length pre) (length (concat bs)))) = bs).
  { induction bs0 as [|b bs0 IH]; intro pre; cbn [map slices concat]; [reflexivity|].
    rewrite app_length, seq_app.
    rewrite firstn_app, seq_length, Nat.sub_diag, firstn_O, app_nil_r, firstn_all2 by (rewrite seq_length; lia).
    rewrite skipn_app, seq_length, Nat.sub_diag, skipn_O, skipn_all2 by (rewrite seq_length; lia). cbn [app map]. f_equal.
    - unfold pick. clear. revert pre. induction b as [|x t IH]; intro pre; cbn [length seq map app]; [reflexivity|]. f_equal.
      + rewrite app_nth2, Nat.sub_diag by lia. reflexivity.
      + specialize (IH (pre ++ [x])). rewrite app_length in IH. cbn [length] in IH. rewrite Nat.add_1_r in IH. rewrite <- app_assoc in IH. exact IH.
    - specialize (IH (pre ++ b)). rewrite app_length in IH. rewrite <- app_assoc in IH. exact IH. }
  apply (G bs []).
Qed.

Lemma covers_nil R sg : covers R sg []. Proof. intros x v H. discriminate H. Qed.
Lemma covers_incl R sg a b : incl_pd a b -> covers R sg b -> covers R sg a.
Proof. intros I C x v H. apply C, I, H. Qed.
Lemma covers_update sg pm m : nodupk m -> covers eq sg pm -> covers eq sg m -> covers eq sg (pd_update pm m).
Proof. intros N C1 C2 x v. rewrite pd_get_update by exact N. destruct (pd_get m x) eqn:E; intro H; [injection H as <-; apply C2, E|apply C1, H]. Qed.

Section complete.
  Variable env : menv.
  Variable neg : ex -> ex -> Prop.
  Variable nok : ex -> bool.
  Variable R : ex -> ex -> Prop.
  Notation M := (match_iter env).
  Hypothesis Hnf : forall a q, nok q = true -> nf_at M a q.
  Hypothesis Hneg : forall a q pm, nok q = true -> nodupk pm -> neg a q -> fst (M a q pm) = [].

  (* either no names occur, or R is equality and the current bindings agree
     with the solution *)
  Definition mode (sg : bindings) (b : ex) (pm : pdm) : Prop := name_free b = true \/ (R = eq /\ covers eq sg pm).
  Definition comp_at (a b : ex) : Prop := forall sg pm, nodupk pm -> pairs_ok a b = true -> inst neg R env sg a b -> mode sg b pm ->
    exists m, In m (fst (M a b pm)) /\ (covers eq sg pm -> covers eq sg m /\ covers eq sg (snd (M a b pm))).

  Lemma comps_complete form sg : (forall c, comp_at c form) -> forall comps pm, nodupk pm ->
    Forall (fun c => inst neg R env sg c form) comps -> Forall (fun c => pairs_ok c form = true) comps -> mode sg form pm ->
    exists pm', In pm' (ami_comps M form comps pm) /\ (covers eq sg pm -> covers eq sg pm').
  Proof.
    intro HM. induction comps as [|c r IH]; intros pm N F Fp Md.
    - exists pm. split; [left; reflexivity|auto].
    - inversion F as [|? ? Hc Hr]; subst. inversion Fp as [|? ? Pc Pr]; subst. destruct (HM c sg pm N Pc Hc Md) as [m [Hm C]]. destruct (str_match env c form pm N) as [A [_ B]].
      cbn [ami_comps]. destruct (M c form pm) as [ms pm1]. cbn [fst snd] in *. destruct (B m Hm) as [Nm _].
      assert (Cu : covers eq sg pm -> covers eq sg (pd_update pm1 m)) by (intro Q; destruct (C Q); apply covers_update; assumption).
      destruct (IH (pd_update pm1 m) (nodup_update m pm1 A) Hr Pr) as [pm' [Hin Hcv]].
      { destruct Md as [Md|[E Q]]; [left; exact Md|right; split; [exact E|apply Cu, Q]]. }
      exists pm'. split; [|auto]. apply in_flat_map. exists m. split; [exact Hm|exact Hin].
  Qed.

  Lemma forms_complete fl sh sg : forall ps blocks pm, nodupk pm ->
    (forall p, In p ps -> forall c, comp_at c (element_pattern fl sh (view p))) ->
    Forall2 (fun b p => takes (inst neg R env sg) R env fl sh sg b p) blocks ps ->
    (forall b c p, In b blocks -> In c b -> In p ps -> pairs_ok c (element_pattern fl sh (view p)) = true) ->
    ((forall p, In p ps -> name_free p = true) \/ (R = eq /\ covers eq sg pm)) ->
    exists pm', In pm' (ami_forms M env sh (combine (map (fun p => parse_form p fl sh (me_default env sh)) ps) blocks) pm) /\ (covers eq sg pm -> covers eq sg pm').
  Proof.
    induction ps as [|p ps IH]; intros blocks pm N HM F Fp Md; inversion F as [|bl p0 bs ps0 T Ts]; subst.
    - exists pm. split; [left; reflexivity|auto].
    - cbn [map combine ami_forms]. rewrite parse_form_view. cbn [pform_of pf_form]. fold (pform_of env fl sh (view p)).
      destruct T as [W [Fe Nm]].
      destruct (comps_complete (element_pattern fl sh (view p)) sg (HM p (or_introl eq_refl)) bl pm N Fe) as [pm1 [H1 C1]].
      { apply Forall_forall. intros c Hc. apply (Fp bl c p); [left; reflexivity|exact Hc|left; reflexivity]. }
      { destruct Md as [Md|Md]; [left; apply (nf_view fl sh p), Md; left; reflexivity|right; exact Md]. }
      pose proof (comps_str M _ (fun c => str_match env c _) bl pm pm1 N H1) as [N1 _].
      assert (D : exists pm2, define_sequence env (pform_of env fl sh (view p)) bl sh pm1 = Some pm2 /\ nodupk pm2 /\ (covers eq sg pm -> covers eq sg pm2)).
      { unfold define_sequence. rewrite seq_value_view. cbn [pform_of pf_pat].
        destruct (cv_name (view p)) as [x|] eqn:En; [|exists pm1; auto].
        destruct Md as [Md|[E Q]]; [destruct (nf_view fl sh p (Md p (or_introl eq_refl))); congruence|].
        destruct Nm as [v [Hv Rv]]. rewrite E in Rv. subst v. specialize (C1 Q).
        assert (Cs : covers eq sg (pd_set pm1 x (name_value env fl sh (view p) bl))).
        { intros y w. rewrite pd_get_set. destruct (String.eqb_spec x y) as [<-|Ne]; intro Hy; [injection Hy as <-; eauto|apply C1, Hy]. }
        destruct (pd_get pm1 x) as [w|] eqn:Eg.
        - destruct (C1 x w Eg) as [u [Hu <-]]. assert (w = name_value env fl sh (view p) bl) by congruence. subst w. rewrite sameq_refl.
          eexists. split; [reflexivity|]. split; [apply nodup_set, N1|auto].
        - eexists. split; [reflexivity|]. split; [apply nodup_set, N1|auto]. }
      destruct D as [pm2 [D [N2 C2]]].
      destruct (IH bs pm2 N2 (fun q Hq => HM q (or_intror Hq)) Ts) as [pm' [Hin Cv]].
      { intros b c q Hb Hc Hq. apply (Fp b c q); [right; exact Hb|exact Hc|right; exact Hq]. }
      { destruct Md as [Md|[E Q]]; [left; intros q Hq; apply Md; right; exact Hq|right; split; [exact E|apply C2, Q]]. }
      exists pm'. split; [|auto]. apply in_flat_map. exists pm1. split; [exact H1|]. rewrite D. exact Hin.
  Qed.

  Lemma form_match_true comps ps fl sh i j p c : nth_error ps i = Some p -> nth_error comps j = Some c ->
    fst (M c (element_pattern fl sh (view p)) []) <> [] ->
    form_match M comps (map (fun p => parse_form p fl sh (me_default env sh)) ps) i j = true.
  Proof.
    intros H1 H2 H3. unfold form_match. rewrite (map_nth_error _ _ _ H1), H2, parse_form_view. cbn [pform_of pf_form].
    destruct (fst (M c (element_pattern fl sh (view p)) [])); [congruence|reflexivity].
  Qed.

  Lemma f2_nth {A B} (P : A -> B -> Prop) l l' : Forall2 P l l' -> forall i x, nth_error l i = Some x -> exists y, nth_error l' i = Some y /\ P x y.
  Proof. induction 1 as [|x y l l' H _ IH]; intros [|i] z E; try discriminate E; [injection E as <-; exists y; auto|apply IH, E]. Qed.

  Lemma seq_complete ord fl sh sg comps ps blocks pm : ps <> [] -> nodupk pm ->
    (forall p, In p ps -> forall c, comp_at c (element_pattern fl sh (view p))) ->
    (forall c p, In c comps -> In p ps -> pairs_ok c (element_pattern fl sh (view p)) = true) ->
    divided ord comps blocks -> Forall2 (fun b p => takes (inst neg R env sg) R env fl sh sg b p) blocks ps ->
    ((forall p, In p ps -> name_free p = true) \/ (R = eq /\ covers eq sg pm)) ->
    exists pm', In pm' (seq_match M env comps (map (fun p => parse_form p fl sh (me_default env sh)) ps) ord sh pm) /\ (covers eq sg pm -> covers eq sg pm').
  Proof.
    intros Hne N HM Hp Hd F Md.
    assert (Pm : Permutation (concat blocks) comps).
    { destruct ord; [|rewrite Hd; reflexivity]. destruct Hd as [ix [P [_ ->]]]. apply pick_perm, P. }
    assert (Hin : forall b c, In b blocks -> In c b -> In c comps).
    { intros b c Hb Hc. apply (Permutation_in c Pm). apply in_concat. exists b. auto. }
    destruct (forms_complete fl sh sg ps blocks pm N HM F) as [pm' [Hm Cv]]; [intros b c p Hb Hc; apply Hp; eapply Hin; eauto|exact Md|].
    exists pm'. split; [|exact Cv]. unfold seq_match.
    set (forms := map (fun p => parse_form p fl sh (me_default env sh)) ps) in *.
    assert (Sub : forall i b p, nth_error blocks i = Some b -> nth_error ps i = Some p -> forall c, In c b -> fst (M c (element_pattern fl sh (view p)) []) <> []).
    { intros i b p Hb Hps c Hc. destruct (f2_nth _ _ _ F i b Hb) as [p' [Hp' [_ [Fe _]]]]. assert (p' = p) by congruence. subst p'.
      apply nth_error_In in Hb. apply nth_error_In in Hps. rewrite Forall_forall in Fe.
      destruct (HM p Hps c sg [] nodup_nil) as [m [Hmm _]].
      - apply Hp; [eapply Hin; eauto|exact Hps].
      - apply Fe, Hc.
      - destruct Md as [Md|[E _]]; [left; apply (nf_view fl sh p), Md, Hps|right; split; [exact E|apply covers_nil]].
      - intro Q. rewrite Q in Hmm. destruct Hmm. }
    assert (En : enough_matches M comps forms = true).
    { unfold enough_matches. apply forallb_forall. intros f Hf. apply Nat.leb_le.
      apply In_nth_error in Hf as [i Hi]. unfold forms in Hi. destruct (nth_error ps i) as [p|] eqn:Ei.
      2: { apply nth_error_None in Ei. assert (i < length (map (fun p => parse_form p fl sh (me_default env sh)) ps)) by (apply nth_error_Some; congruence). rewrite map_length in *. lia. }
      rewrite (map_nth_error _ _ _ Ei) in Hi. injection Hi as <-. rewrite parse_form_view. cbn [pform_of pf_start pf_form].
      destruct (nth_error blocks i) as [b|] eqn:Eb.
      2: { apply nth_error_None in Eb. assert (i < length ps) by (apply nth_error_Some; congruence). apply f2_len in F. lia. }
      destruct (f2_nth _ _ _ F i b Eb) as [p' [Hp' [[W _] _]]]. assert (p' = p) by congruence. subst p'.
      eapply Nat.le_trans; [exact W|]. apply (block_count _ blocks b comps Pm); [eapply nth_error_In; eauto|].
      apply Forall_forall. intros c Hc. specialize (Sub i b p Eb Ei c Hc). destruct (fst (M c _ [])); [congruence|reflexivity]. }
    rewrite En. apply in_flat_map.
    assert (Vs : forall ix, map (@length nat) ix = map (@length ex) blocks -> length comps = lsum (map (@length ex) blocks) ->
      valid_sizes forms (length comps) (map (@length nat) ix)).
    { intros ix -> L. split; [|congruence]. unfold forms. clear - F. induction F as [|b p bs ps T _ IH]; cbn [map]; constructor; [|exact IH].
      rewrite parse_form_view. cbn [pform_of pf_start pf_end]. apply T. }
    assert (Len : length comps = lsum (map (@length ex) blocks)).
    { rewrite <- (Permutation_length Pm). clear. induction blocks as [|b bs IH]; [reflexivity|]. cbn [concat map]. rewrite app_length, lsum_cons. lia. }
    assert (Hf : forms <> []) by (unfold forms; destruct ps; [congruence|discriminate]).
    destruct ord.
    - destruct Hd as [ix [P [Si Eb]]]. exists ix. split; [|rewrite Eb in Hm; exact Hm].
      apply orderless_in; [exact Hf|]. split; [apply Vs; [|exact Len]|].
      { rewrite Eb, map_map. apply map_ext. intro x. rewrite map_length. reflexivity. }
      split; [exact P|]. split; [exact Si|]. intros i b x Hb Hx.
      assert (Hbl : nth_error blocks i = Some (pick comps b)) by (rewrite Eb; apply (map_nth_error (pick comps)), Hb).
      destruct (f2_nth _ _ _ F i _ Hbl) as [p [Hpi _]].
      assert (Hxl : x < length comps).
      { assert (Q : In x (seq 0 (length comps))) by (eapply Permutation_in; [exact P|]; apply in_concat; exists b; split; [eapply nth_error_In; eauto|exact Hx]). apply in_seq in Q. lia. }
      apply (form_match_true comps ps fl sh i x p (nth x comps (sys "Null"))); [exact Hpi|apply nth_error_nth', Hxl|].
      apply (Sub i (pick comps b) p Hbl Hpi). unfold pick. apply in_map_iff. exists x. auto.
    - cbn [divided] in Hd. exists (slices (map (@length ex) blocks) (seq 0 (length comps))). split.
      + apply ordered_in; [exact Hf|]. split.
        * apply Vs; [|exact Len]. apply slices_len. rewrite seq_length. congruence.
        * apply slices_concat. rewrite seq_length. congruence.
      + subst comps. rewrite slices_pick. exact Hm.
  Qed.
End complete.
