(* Property theorems: FreeQ (C116). *)
From Verif Require Import M_Syntax M_Float M_Hash M_Order M_Sort M_Num M_Arith M_Compare M_Match M_Defs S_Defs P_Defs P_Defs4 M_Eval M_List S_Match S_Eval S_Iter S_Replace S_Call M_LibAssign M_Callback
  P_Hash P_MatchFuel P_Eval P_Eval2 P_Eval3 P_Eval4 P_Replace P_Callback P_Iter P_Call T_Match T_Eval T_Eval2 T_Eval3 T_Eval4 T_Eval5 T_Replace T_Iter T_Callback T_Call T_Assign M_FreeQ.
Open Scope nat_scope.

(* no part of e matches the pattern *)
Definition free_of (env : menv) (e p : ex) : Prop := forall t, In t (subterms e) -> is_match_q env t p [] = None.
(* expressions that have neither the replacement symbol nor the symbol without a
   name in them *)
Definition named_only (e : ex) : Prop := ~ In dummy (subterms e) /\ forall t, In t (subterms e) -> ~ headed t "".

Lemma in_self e : In e (subterms e).
Proof. destruct e; left; reflexivity. Qed.

Lemma subst_dummy m e' : pd_get m "Internal`DummyReplace" = None -> subst m dummy e' -> e' = dummy.
Proof.
  intros N S. unfold dummy in *. remember (ESym "Internal`DummyReplace") as dd eqn:DD. destruct S as [y v V|y V|y V1 V2|q q' V].
  - injection DD as ->. congruence.
  - reflexivity.
  - subst y. discriminate V1.
  - discriminate DD.
Qed.
Lemma hit_free env p m x e' : (forall t m, is_match_q env t p [] = Some m -> pd_get m "Internal`DummyReplace" = None) ->
  is_match_q env x p [] = Some m -> subst m dummy e' -> ~ In dummy (subterms x) -> (e' = x <-> free_of env x p).
Proof.
  intros Nd M S N. split.
  - intro E. exfalso. apply N. rewrite <- (subst_dummy m e' (Nd _ _ M) S), E. apply in_self.
  - intro F. specialize (F x (in_self x)). congruence.
Qed.

(* what replacing every match by the replacement symbol leaves *)
Lemma rewrite_free env p e : (forall t m, is_match_q env t p [] = Some m -> pd_get m "Internal`DummyReplace" = None) ->
  forall e', rewrites env p dummy "" e e' -> named_only e -> (e' = e <-> free_of env e p).
Proof.
  intro Nd. induction e as [s|s|z|n d|f|a1 a2 _ _|l IH] using ex_ind'; intros e' R [ND NH].
  1-6: remember (EExpr []) as dflt; clear Heqdflt dflt;
    match type of R with rewrites _ _ _ _ ?x _ => remember x as e eqn:Q; destruct R as [e H|e m e' N M S|q q' N M F|e E M];
      [exfalso; subst e; exact (NH _ (in_self _) H)
      |apply (hit_free env p m e e' Nd M S); subst e; exact ND
      |discriminate Q
      |split; [intros _ t T; subst e; cbn [subterms] in T; destruct T as [<-|[]]; exact M|reflexivity]] end.
  remember (EExpr l) as e eqn:Q; destruct R as [e H|e m e' N M S|q q' N M F|e E M].
  - exfalso. subst e. exact (NH _ (in_self _) H).
  - apply (hit_free env p m e e' Nd M S). exact ND.
  - injection Q as ->. assert (K : Forall2 (fun a b => a = b <-> free_of env b p) q' l).
    { assert (A : forall a, In a l -> named_only a).
      { intros a Ia. split; [intro K; apply ND; eapply subterms_part; eauto|]. intros t T. apply NH. eapply subterms_part; eauto. }
      clear ND NH N M. induction F as [|a b t t' Rab F IHF]; [constructor|]. apply Forall_cons_iff in IH. destruct IH as [IHa IHt].
      constructor; [apply IHa; [exact Rab|apply A; left; reflexivity]|]. apply IHF; [exact IHt|]. intros x X. apply A. right. exact X. }
    split.
    + intro E. injection E as E. subst q'. intros t T. cbn [subterms] in T. destruct T as [<-|T]; [exact M|].
      apply in_flat_map in T. destruct T as [a [Ia Ta]]. clear - K Ia Ta.
      assert (Z : forall l1 l2, Forall2 (fun a b => a = b <-> free_of env b p) l1 l2 -> l1 = l2 -> forall a, In a l2 -> free_of env a p).
      { clear. intros l1 l2 H. induction H as [|x y t1 t2 Hx H IH]; intros E a Ia; [destruct Ia|]. injection E as E1 E2.
        destruct Ia as [<-|Ia]; [apply Hx, E1|apply IH; assumption]. }
      exact (Z _ _ K eq_refl a Ia t Ta).
    + intro Fr. f_equal. assert (A : forall a, In a l -> free_of env a p).
      { intros a Ia t T. apply Fr. eapply subterms_part; eauto. }
      clear - K A. induction K as [|x y t1 t2 Hx H IH]; [reflexivity|]. f_equal.
      * apply Hx, A. left. reflexivity.
      * apply IH. intros a Ia. apply A. right. exact Ia.
  - subst e. discriminate E.
Qed.

(* e with D in place of the outermost matches *)
Definition marked (env : menv) (p e : ex) : ex := replace_all env p dummy "" e.
Theorem C116_replacement : forall env p e e', not_flat env p -> ~ In "Internal`DummyReplace"%string (pattern_names p) -> named_only e ->
  rewrites env p dummy "" e e' -> collision_free (subterms e ++ subterms e') -> (marked env p e = e <-> free_of env e p).
Proof.
  intros env p e e' Nf Np No R C. unfold marked. rewrite (C27_top_down env p dummy "" e e' Nf R C).
  apply rewrite_free; auto. intros t m M. destruct (pd_get m "Internal`DummyReplace") as [v|] eqn:G; [|reflexivity].
  exfalso. apply Np. exact (C23_only_pattern_names_bound env t p m _ v M G).
Qed.
Print Assumptions C116_replacement.

Lemma free_rewrites env p e : (forall t, In t (subterms e) -> ~ headed t "") -> free_of env e p -> rewrites env p dummy "" e e.
Proof.
  induction e as [s|s|z|n d|f|a1 a2 _ _|l IH] using ex_ind'; intros NH F.
  1-6: apply RW_atom; [reflexivity|apply F; left; reflexivity].
  apply RW_parts; [apply NH, in_self|apply F, in_self|].
  assert (A : forall a, In a l -> rewrites env p dummy "" a a).
  { intros a Ia. rewrite Forall_forall in IH. apply IH; [exact Ia| |]; intros t T; [apply NH|apply F]; eapply subterms_part; eauto. }
  clear - A. induction l as [|a l IHl]; constructor; [apply A; left; reflexivity|]. apply IHl. intros x X. apply A. right. exact X.
Qed.
Lemma rewrites_flt env p f e' : (forall t m, is_match_q env t p [] = Some m -> pd_get m "Internal`DummyReplace" = None) ->
  rewrites env p dummy "" (EFlt f) e' -> e' = EFlt f \/ e' = dummy.
Proof.
  intros Nd R. remember (EFlt f) as e eqn:Q. destruct R as [e H|e m e' N M S|q q' N M F|e E M]; auto.
  - right. exact (subst_dummy m e' (Nd _ _ M) S).
  - discriminate Q.
Qed.

(* ReplaceAll[e, p -> D], e and p -> D values *)
Lemma mark_evals c es e p w : cfg_mono c -> ready es "ReplaceAll" ra_attrs -> value c es e -> ordinary_arg e ->
  value c es (fn "Rule" [p; dummy]) -> evals_to c es (marked (env_of c es) p e) w es ->
  hash_ok (fn "ReplaceAll" [e; fn "Rule" [p; dummy]]) -> no_clash (fn "ReplaceAll" [e; fn "Rule" [p; dummy]]) (marked (env_of c es) p e) ->
  evals_to c es (fn "ReplaceAll" [e; fn "Rule" [p; dummy]]) w es.
Proof.
  intros Hc R Ve Oe Vr Ew Hz Nc. pose proof R as [S0 [NR [NV T]]].
  apply (evals_next c es [sys "ReplaceAll"; e; fn "Rule" [p; dummy]] _ es w es Hc Hz Nc); [|exact Ew].
  apply (system_pass c es (sysname "ReplaceAll") ra_attrs [e; fn "Rule" [p; dummy]] [e; fn "Rule" [p; dummy]] (replace_all_fn c) _ es es Hc S0 (ex_intro _ _ S0));
    try (intros [K|[]]; discriminate K); auto.
  - apply head_arg; auto. apply (EA_eval _ _ _ _ _ _ es); [apply prot_free'|exact Ve|exact T|].
    apply (EA_eval _ _ _ _ _ _ es); [apply prot_free'|exact Vr|exact T|apply EA_nil].
  - constructor; [exact Oe|constructor; [|constructor]]. repeat split; nh.
  - exists 0. intros m _. exists [sys "ReplaceAll"; e; fn "Rule" [p; dummy]]. reflexivity.
Qed.

(* the library is loaded: FreeQ with its rule, SameQ and ReplaceAll *)
Definition free_ready (es : estate) : Prop :=
  library es "FreeQ" free_attrs free_rules /\ ready es "SameQ" prot /\ ready es "ReplaceAll" ra_attrs /\
  no_value es (sysname "True") /\ no_value es (sysname "False").
Definition free_hashes (a b e p w : ex) : Prop :=
  hash_ok (fn "FreeQ" [a; b]) /\ no_clash (fn "FreeQ" [a; b]) (free_rhs e p) /\
  hash_ok (fn "ReplaceAll" [e; fn "Rule" [p; dummy]]) /\ no_clash (fn "ReplaceAll" [e; fn "Rule" [p; dummy]]) w.

(* FreeQ[a, b]: e and p are the values of a and b; w what the marked expression
   evaluates to *)
Theorem C116_call : forall c es a b e p w es1, cfg_mono c -> free_ready es -> free_ready es1 ->
  evals_args c (fun _ => False) 1 es [a; b] [e; p] es1 -> Forall ordinary_arg [e; p; w] ->
  value c es1 e -> value c es1 (fn "Rule" [p; dummy]) -> evals_to c es1 (marked (env_of c es1) p e) w es1 ->
  free_hashes a b e p (marked (env_of c es1) p e) ->
  evals_to c es (fn "FreeQ" [a; b]) (if is_sameq e w then sTrue else sFalse) es1.
Proof.
  intros c es a b e p w es1 Hc (L & _) ([U1 D1] & RS & RR & VT & VF) E O Ve Vr Ew (H1 & H2 & H3 & H4). destruct L as [U D].
  pose proof (Forall_inv O) as Oe. pose proof (Forall_inv (Forall_inv_tail O)) as Op. pose proof (Forall_inv (Forall_inv_tail (Forall_inv_tail O))) as Ow.
  eapply (library_call c es (sysname "FreeQ") free_attrs free_vars [a; b] [e; p] es1 _ [sys "SameQ"; e; fn "ReplaceAll" [e; fn "Rule" [p; dummy]]]
     (if is_sameq e w then sTrue else sFalse) es1 Hc U); [ | |exact D1|exact U1|discriminate| | |reflexivity| |nh|nh|nh|nh| | | |exact H1|exact H2].
  - clear - E. assert (G : forall i s l r s', evals_args c (fun _ => False) i s l r s' -> evals_args c (holds free_attrs) i s l r s').
    { intros i s l r s' H. induction H as [i s|i s x t Hh r s' H IH|i s x v s1 t r s' Hh Ex T H IH]; [apply EA_nil|contradiction|].
      apply EA_eval with s1; auto. apply prot_free'. }
    apply G, E.
  - constructor; [exact Oe|constructor; [exact Op|constructor]].
  - constructor; [intros [K|[]]; discriminate K|constructor; [intros []|constructor]].
  - intro K. cbn in K. repeat (destruct K as [K|K]; [discriminate K|]). exact K.
  - cbn [combine free_vars]. unfold free_rhs, app2. repeat first [apply S_parts|apply Forall2_cons|apply Forall2_nil].
    all: first [apply S_free; reflexivity|apply S_bound; reflexivity].
  - pose proof RS as [Sy [NR [NV T]]].
    apply (system_pass c es1 (sysname "SameQ") prot [e; fn "ReplaceAll" [e; fn "Rule" [p; dummy]]] [e; w] (answer_fn sameq_eval) _ es1 es1 Hc Sy (ex_intro _ _ Sy));
      try (intros [K|[]]; discriminate K); auto.
    + apply head_arg; auto. apply EA_eval with es1; [apply prot_free'|exact Ve|exact T|].
      apply EA_eval with es1; [apply prot_free'| |exact T|apply EA_nil]. apply mark_evals; assumption.
    + exists 0. intros m _. eexists. unfold answer_fn. cbn [tl sameq_eval forallb]. rewrite andb_true_r. destruct (is_sameq e w); reflexivity.
  - destruct (is_sameq e w); reflexivity.
  - destruct (is_sameq e w); apply value_sym; assumption.
Qed.
Print Assumptions C116_call.

(* no part of e, and no head, matches: True *)
Theorem C116_free : forall c es a b e p es1, cfg_mono c -> free_ready es -> free_ready es1 ->
  evals_args c (fun _ => False) 1 es [a; b] [e; p] es1 -> Forall ordinary_arg [e; p] ->
  value c es1 e -> value c es1 (fn "Rule" [p; dummy]) -> free_hashes a b e p e ->
  not_flat (env_of c es1) p -> (forall t, In t (subterms e) -> ~ headed t "") -> collision_free (subterms e) ->
  free_of (env_of c es1) e p -> evals_to c es (fn "FreeQ" [a; b]) sTrue es1.
Proof.
  intros c es a b e p es1 Hc R R1 E O Ve Vr H Nf NH C F.
  assert (M : marked (env_of c es1) p e = e).
  { apply (C27_top_down _ _ _ _ _ _ Nf (free_rewrites _ _ _ NH F)). eapply collision_sub; [|exact C].
    intros x X. apply in_app_iff in X. tauto. }
  replace sTrue with (if is_sameq e e then sTrue else sFalse) by (rewrite sameq_refl; reflexivity).
  apply (C116_call c es a b e p e es1); auto.
  - constructor; [exact (Forall_inv O)|constructor; [exact (Forall_inv (Forall_inv_tail O))|constructor; [exact (Forall_inv O)|constructor]]].
  - rewrite M. exact Ve.
  - rewrite M. exact H.
Qed.
Print Assumptions C116_free.

(* a part matches, and the expression with the replacement symbol in its place
   is a value: False *)
Theorem C116_found : forall c es a b e p w es1, cfg_mono c -> free_ready es -> free_ready es1 ->
  evals_args c (fun _ => False) 1 es [a; b] [e; p] es1 -> Forall ordinary_arg [e; p; w] ->
  value c es1 e -> value c es1 (fn "Rule" [p; dummy]) -> free_hashes a b e p w ->
  not_flat (env_of c es1) p -> ~ In "Internal`DummyReplace"%string (pattern_names p) -> named_only e ->
  rewrites (env_of c es1) p dummy "" e w -> value c es1 w -> collision_free (subterms e ++ subterms w) ->
  ~ free_of (env_of c es1) e p -> evals_to c es (fn "FreeQ" [a; b]) sFalse es1.
Proof.
  intros c es a b e p w es1 Hc R R1 E O Ve Vr H Nf Np No Rw Vw C F.
  assert (M : marked (env_of c es1) p e = w) by (apply (C27_top_down _ _ _ _ _ _ Nf Rw C)).
  assert (Nd : forall t m, is_match_q (env_of c es1) t p [] = Some m -> pd_get m "Internal`DummyReplace" = None).
  { intros t m K. destruct (pd_get m "Internal`DummyReplace") as [v|] eqn:G; [|reflexivity].
    exfalso. apply Np. exact (C23_only_pattern_names_bound _ t p m _ v K G). }
  assert (D : e <> w).
  { intro Q. apply F. apply (rewrite_free _ _ _ Nd w Rw No). symmetry. exact Q. }
  assert (NS : is_sameq e w = false).
  { assert (HN : hash e <> hash w).
    { intro Q. apply D. apply (C e w); [apply in_app_iff; left; apply in_self|apply in_app_iff; right; apply in_self|exact Q]. }
    destruct (is_flt e) eqn:Fe.
    - destruct e as [| | | |f| |]; try discriminate Fe. destruct (rewrites_flt _ _ _ _ Nd Rw) as [Q|Q]; [congruence|]. rewrite Q in *.
      rewrite sameq_sym, is_sameq_hash by reflexivity. apply N.eqb_neq. congruence.
    - rewrite is_sameq_hash by exact Fe. apply N.eqb_neq. exact HN. }
  replace sFalse with (if is_sameq e w then sTrue else sFalse) by (rewrite NS; reflexivity).
  apply (C116_call c es a b e p w es1); auto; rewrite M; assumption.
Qed.
Print Assumptions C116_found.

(* ---- the hypotheses are met; where the claim fails ---- *)
Definition es_fr : estate := ES (State (st_defs (es_defs es0) ++
  [ entry "SameQ" ["Protected"%string] true; lib "FreeQ" free_rules free_attrs ]) false) None None.
Lemma fr_ready : free_ready es_fr.
Proof.
  split; [|split; [rdy|split; [rdy|split; vm_compute; reflexivity]]]. split; [|vm_compute; split; reflexivity].
  split; [vm_compute; reflexivity|]. split; [vm_compute; reflexivity|]. split; [reflexivity|].
  intros a I K. cbn in I, K. destruct K as [<-|[]]. repeat (destruct I as [I|I]; [discriminate I|]); exact I.
Qed.
(* f[x, g[1]] is free of y, and not of the integers *)
Definition sample : ex := uf "f" [gl "x"; uf "g" [EInt 1]].
Definition ints : ex := EExpr [sys "Blank"; sys "Integer"].
Example C116_free_ex : evals_to c0 es_fr (fn "FreeQ" [sample; gl "y"]) sTrue es_fr.
Proof.
  apply (C116_free c0 es_fr sample (gl "y") sample (gl "y") es_fr c0_mono fr_ready fr_ready).
  - repeat (apply EA_eval with es_fr; [intros []|exists 20; vm_compute; reflexivity|reflexivity|]). apply EA_nil.
  - repeat (constructor; [repeat split; not_headed|]). constructor.
  - exists 20. vm_compute. reflexivity.
  - exists 20. vm_compute. reflexivity.
  - split; [hok|split; [split; hok|split; [hok|split; hok]]].
  - intros s l K. discriminate K.
  - intros t T K. cbn in T. destruct K as [l ->]. repeat (destruct T as [T|T]; [discriminate T|]). exact T.
  - apply collision_freeb_ok. vm_compute. reflexivity.
  - intros t T. cbn in T. repeat (destruct T as [<-|T]; [vm_compute; reflexivity|]). destruct T.
Qed.
Example C116_found_ex : evals_to c0 es_fr (fn "FreeQ" [sample; ints]) sFalse es_fr.
Proof.
  apply (C116_found c0 es_fr sample ints sample ints (uf "f" [gl "x"; uf "g" [dummy]]) es_fr c0_mono fr_ready fr_ready).
  - repeat (apply EA_eval with es_fr; [intros []|exists 20; vm_compute; reflexivity|reflexivity|]). apply EA_nil.
  - repeat (constructor; [repeat split; not_headed|]). constructor.
  - exists 20. vm_compute. reflexivity.
  - exists 20. vm_compute. reflexivity.
  - split; [hok|split; [split; hok|split; [hok|split; hok]]].
  - intros s l K. injection K as <- <-. vm_compute. reflexivity.
  - intros [].
  - split; [intro K; cbn in K; repeat (destruct K as [K|K]; [discriminate K|]); exact K|].
    intros t T K. cbn in T. destruct K as [l ->]. repeat (destruct T as [T|T]; [discriminate T|]). exact T.
  - assert (A : forall e, is_expr e = false -> is_match_q (env_of c0 es_fr) e ints [] = None -> rewrites (env_of c0 es_fr) ints dummy "" e e) by (intros; apply RW_atom; assumption).
    apply RW_parts; [not_headed|vm_compute; reflexivity|].
    apply Forall2_cons; [apply A; vm_compute; reflexivity|]. apply Forall2_cons; [apply A; vm_compute; reflexivity|]. apply Forall2_cons; [|apply Forall2_nil].
    apply RW_parts; [not_headed|vm_compute; reflexivity|].
    apply Forall2_cons; [apply A; vm_compute; reflexivity|]. apply Forall2_cons; [|apply Forall2_nil].
    apply RW_match with []; [not_headed|vm_compute; reflexivity|apply S_free; reflexivity].
  - exists 20. vm_compute. reflexivity.
  - apply collision_freeb_ok. vm_compute. reflexivity.
  - intro F. specialize (F (EInt 1)). assert (K : In (EInt 1) (subterms sample)) by (vm_compute; tauto). specialize (F K). vm_compute in F. discriminate F.
Qed.

(* The expression is evaluated after the replacement, so that a part that does
   occur goes unnoticed where a definition makes up for it *)
Definition es_fr2 : estate := ES (State (("Global`h"%string, Def [DVal (held (uf "h" [dummy])) (uf "h" [gl "x"]) 0] (strings_to_attributes []) None false)
  :: st_defs (es_defs es_fr)) false) None None.
Theorem C116_evaluated_refuted : exists e p, value c0 es_fr2 e /\ In p (subterms e) /\ constant p /\
  evals_to c0 es_fr2 (fn "FreeQ" [e; p]) sTrue es_fr2.
Proof.
  exists (uf "h" [gl "x"]), (gl "x"). split; [exists 30; vm_compute; reflexivity|]. split; [vm_compute; tauto|].
  split; [exact Logic.I|]. exists 40. vm_compute. reflexivity.
Qed.
Print Assumptions C116_evaluated_refuted.
(* ... and the replacement symbol is not noticed at all *)
Theorem C116_dummy_refuted : evals_to c0 es_fr (fn "FreeQ" [uf "f" [dummy]; dummy]) sTrue es_fr.
Proof. exists 40. vm_compute. reflexivity. Qed.
Print Assumptions C116_dummy_refuted.
