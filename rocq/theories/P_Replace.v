(* Replacement of symbols and slots. *)
From Verif Require Import M_Syntax M_Float M_Hash M_Sort M_Num M_Arith M_Compare M_Match M_Defs M_Eval S_Eval S_Match S_Replace P_Hash P_MatchFuel P_MatchSound P_MatchComplete P_MatchComplete2 P_MatchNames P_Eval P_Eval2 T_Match.
Open Scope nat_scope.

Lemma no_names_same env a p m rhs : pattern_names p = [] -> is_match_q env a p [] = Some m -> replace_pd_go m rhs = rhs.
Proof.
  intros Hp H. apply C26_unbound_untouched. intros x Hx. exfalso.
  destruct (pd_get m x) as [v|] eqn:E.
  - generalize (C23_only_pattern_names_bound env a p m x v H E). rewrite Hp. intros [].
  - apply pd_get_none in E. contradiction.
Qed.

(* atoms as patterns *)
Lemma match_atom env a p : is_expr p = false ->
  is_match_q env a p [] = if is_expr a then None else if is_sameq a p then Some [] else None.
Proof.
  intro Hp. unfold is_match_q, match_iter. cbn [mi]. unfold mi_step.
  destruct p as [s|s|z|p q|f|re im|l]; try discriminate Hp; unfold match_normal;
  destruct a as [s'|s'|z'|p' q'|f'|re' im'|[|h t]]; cbn [verbatim_op is_blank_type_only]; try reflexivity;
  cbn [is_expr];
  match goal with |- context[is_sameq ?a ?b] => destruct (is_sameq a b); reflexivity | _ => reflexivity end.
Qed.


Lemma atom_takes neg R env sg f b (p : ex) : match p with ESym _ | EInt _ => True | _ => False end ->
  takes (inst neg R env sg) R env false f sg b p ->
  exists e, b = [e] /\ inst neg R env sg e p.
Proof.
  intros Hp [W [F _]]. destruct p as [s|s|z|p q|f'|re im|l]; try contradiction;
    change (within (1, Some 1) (length b)) in W; destruct W as [W1 W2]; cbn [fst snd] in *;
    (destruct b as [|e [|]]; cbn [length] in *; try lia); exists e; (split; [reflexivity|]);
    inversion F as [|x l H _]; exact H.
Qed.
Lemma atom_inst neg R env sg e (p : ex) : match p with ESym _ | EInt _ => True | _ => False end ->
  inst neg R env sg e p -> is_expr e = false /\ is_sameq e p = true.
Proof.
  intros Hp H. destruct p as [s|s|z|p q|f'|re im|l]; try contradiction;
    (inversion H as [e0 p0 l Hb Hh|e0 x q r l v Hb Hh Hv HR|e0 x q r l Hb Hh Hx|e0 qs p0 Hp0 Hip|e0 p0 Hn|e0 p0 q Hn Hq|e0 p0 t Hip Ht|e0 p0 c pm0 Hc H1 H2 H3|e0 p0 Hip|e0 p0 Hip
      |s0 h l l' Hsy Hh|n d p0 Hp0 He Hip|r i p0 Hp0 He Hip|e0 g qs Hoi Hd Hx Hh Hp0 Hip|e0 p0 He Hn Hp0 Hsq|g l qs blocks Hp0 Hd F|h l hp qs blocks Hp0 Hne' T Hc F]; subst);
    try discriminate He; try (destruct Hb as [s9 [_ E]]; discriminate E); auto.
Qed.
Lemma sameq_hash_sym e (p : ex) : match p with ESym _ | EInt _ => True | _ => False end -> is_sameq e p = true -> hash e = hash p.
Proof.
  intros Hp H. destruct p as [s|s|z|p q|f'|re im|l]; try contradiction; unfold is_sameq in H; destruct e; apply N.eqb_eq in H; exact H.
Qed.

Lemma slot_ok i : neg_ok_n 1 (slot i) = true.
Proof. reflexivity. Qed.
Lemma slot_plain i : plain (slot i).
Proof.
  intro H. repeat (destruct H as [H|H]; [first [discriminate H|destruct H as [H _]; discriminate H]|]). destruct H as [H _]; discriminate H.
Qed.
Lemma slot_match_self env i : slot_env env -> matchq_eval env (slot i) (slot i) = true.
Proof.
  intros [He [Ho Hf]]. apply (C24_matchq_decides_partial env 0 (slot i) (slot i) He (slot_ok i)).
  exists (fun _ => None). apply (I_args _ _ _ _ _ _ _ [[EInt i]] (slot_plain i)).
  - rewrite Ho. reflexivity.
  - constructor; [|constructor]. rewrite Hf. split; [split; constructor|]. split; [|exact Logic.I].
    constructor; [|constructor]. apply I_atom; try reflexivity. apply sameq_refl.
Qed.
Lemma slot_inst_expr neg R env sg l i : slot_env env -> inst neg R env sg (EExpr l) (slot i) ->
  exists a b, l = [a; b] /\ hash a = hash (sys "Slot") /\ hash b = hash (EInt i).
Proof.
  intros [He [Ho Hf]] H. unfold slot in H.
  inversion H as [e0 p0 l0 Hb Hh|e0 x q r l0 v Hb Hh Hv HR|e0 x q r l0 Hb Hh Hx|e0 qs p0 Hp0 Hip|e0 p0 Hn|e0 p0 q Hn Hq|e0 p0 t Hip Ht|e0 p0 c pm0 Hc H1 H2 H3|e0 p0 Hip|e0 p0 Hip
      |s0 h l0 l' Hsy Hh|n d p0 Hp0 Hx Hip|r im p0 Hp0 Hx Hip|e0 g qs Hoi Hd Hx Hh Hp0 Hip|e0 p0 Hx Hn Hp0 Hsq|g l0 qs blocks Hp0 Hd F|h l0 hp qs blocks Hp0 Hne' T Hc F]; subst.
  - destruct Hb as [s [Hs E]]. injection E as <- _. destruct Hs as [Q|[Q|Q]]; discriminate Q.
  - destruct Hsy as [Q|Q]; discriminate Q.
  - discriminate Hx.
  - discriminate Hx.
  - rewrite Ho in Hd. cbn [divided] in Hd. rewrite Hf in F.
    inversion F as [|b p bs ps T F' Eb]; subst. inversion F'; subst.
    apply atom_takes in T as [e [-> Q]]; [|exact Logic.I]. apply atom_inst in Q as [_ Q]; [|exact Logic.I].
    exists (ESym (sysname "Slot")), e. split; [reflexivity|]. split; [reflexivity|]. apply sameq_hash_sym; [exact Logic.I|exact Q].
  - apply atom_takes in T as [e [E Q]]; [|exact Logic.I]. injection E as <-. apply atom_inst in Q as [_ Q]; [|exact Logic.I].
    inversion F as [|b p bs ps T F' Eb]; subst. inversion F'; subst.
    apply atom_takes in T as [e [-> Q2]]; [|exact Logic.I]. apply atom_inst in Q2 as [_ Q2]; [|exact Logic.I].
    exists h, e. split; [reflexivity|]. split; apply sameq_hash_sym; try exact Logic.I; assumption.
Qed.
Lemma slot_match_sound env e i : slot_env env -> matchq_eval env e (slot i) = true ->
  hash e = hash (slot i) \/ exists a b, e = EExpr [a; b] /\ hash a = hash (sys "Slot") /\ hash b = hash (EInt i).
Proof.
  intros Hs H. generalize Hs. intros [He [Ho Hf]].
  apply (C24_matchq_decides_partial env 0 e (slot i) He (slot_ok i)) in H as [sg H].
  destruct e as [s|s|z|p q|f|re im|l].
  7:{ right. apply slot_inst_expr in H as [a [b [-> K]]]; [|exact Hs]. exists a, b. auto. }
  all: left; generalize H; unfold slot; intro H0;
    inversion H0 as [e0 p0 l0 Hb Hh|e0 x q0 r l0 v Hb Hh Hv HR|e0 x q0 r l0 Hb Hh Hx|e0 qs p0 Hp0 Hip|e0 p0 Hn|e0 p0 q0 Hn Hq|e0 p0 t Hip Ht|e0 p0 c pm0 Hc H1 H2 H3|e0 p0 Hip|e0 p0 Hip
      |s0 h l0 l' Hsy Hh|n d p0 Hp0 Hx Hip|r im0 p0 Hp0 Hx Hip|e0 g qs Hoi Hd Hx Hh Hp0 Hip|e0 p0 Hx Hn Hp0 Hsq|g l0 qs blocks Hp0 Hd F|h l0 hp qs blocks Hp0 Hne' T Hc F]; subst;
    try (destruct Hb as [s9 [Hs9 E]]; injection E as <- _; destruct Hs9 as [Q|[Q|Q]]; discriminate Q);
    try discriminate Hx; try discriminate Hn;
    try (unfold is_sameq in Hsq; apply N.eqb_eq in Hsq; exact Hsq).
  - exfalso. apply (slot_inst_expr _ _ _ _ _ i Hs) in Hip as [a [b [E _]]]. discriminate E.
  - exfalso. apply (slot_inst_expr _ _ _ _ _ i Hs) in Hip as [a [b [E _]]]. discriminate E.
Qed.

(* ---- the rewriting relation ---- *)
Lemma subterms_self e : In e (subterms e).
Proof. destruct e; left; reflexivity. Qed.
Lemma subterms_part l a x : In a l -> In x (subterms a) -> In x (subterms (EExpr l)).
Proof. intros I H. cbn [subterms]. right. apply in_flat_map. exists a. auto. Qed.
Lemma collision_sub l l' : (forall x, In x l' -> In x l) -> collision_free l -> collision_free l'.
Proof. intros S H a b Ha Hb. apply H; auto. Qed.

Lemma has_head_iff e h : has_head e h = true <-> headed e h.
Proof.
  split.
  - unfold has_head, head_assertion. destruct e as [| | | | | |[|[hh| | | | | |] t]]; try discriminate.
    destruct (String.eqb_spec hh h) as [->|]; [|discriminate]. exists t. reflexivity.
  - intros [l ->]. unfold has_head, head_assertion. rewrite String.eqb_refl. reflexivity.
Qed.
Lemma has_head_not e h : ~ headed e h -> has_head e h = false.
Proof. intro N. destruct (has_head e h) eqn:E; [|reflexivity]. apply has_head_iff in E. contradiction. Qed.

(* the rule does not take the special path for Flat functions *)
Definition not_flat (env : menv) (lhs : ex) : Prop := forall s l, lhs = EExpr (ESym s :: l) -> me_flat env s = false.

Lemma replace_all_rewrites env lhs rhs stop : not_flat env lhs -> forall e e',
  rewrites env lhs rhs stop e e' -> collision_free (subterms e ++ subterms e') -> replace_all env lhs rhs stop e = e'.
Proof.
  intros Nf e. induction e as [s|s|z|n d|f|a1 a2 _ _|l IH] using ex_ind'; intros e' R C.
  all: try (inversion R as [e0 [x E]|e0 m e0' N M S|l0 l0' N M F|e0 E M]; subst; [discriminate E| |];
    cbn [replace_all]; rewrite M; [apply C26_replace_is_substitution, S|reflexivity]).
  cbn [replace_all].
  inversion R as [e0 H|e0 m e0' N M S|l0 l0' N M F|e0 E M]; subst.
  - rewrite (proj2 (has_head_iff _ _) H). reflexivity.
  - rewrite (has_head_not _ _ N), M. apply C26_replace_is_substitution, S.
  - rewrite (has_head_not _ _ N), M.
    assert (E : map (replace_all env lhs rhs stop) l = l0').
    { assert (CC : forall a b, In a l -> In b l0' -> collision_free (subterms a ++ subterms b)).
      { intros a b Ha Hb. eapply collision_sub; [|exact C]. intros x Hx. apply in_app_iff in Hx. apply in_app_iff.
        destruct Hx as [Hx|Hx]; [left|right]; eapply subterms_part; eauto. }
      clear - F IH CC. induction F as [|a b l l' Rab F IHF]; [reflexivity|]. cbn [map]. inversion IH as [|x y Hx Hy]; subst.
      f_equal; [apply Hx; [exact Rab|apply CC; left; reflexivity]|].
      apply IHF; [exact Hy|]. intros p q Hp Hq. apply CC; right; assumption. }
    cbv zeta. rewrite E.
    assert (G : (if N.eqb (hash (EExpr l0')) (hash (EExpr l)) then EExpr l else EExpr l0') = EExpr l0').
    { destruct (N.eqb_spec (hash (EExpr l0')) (hash (EExpr l))) as [Q|Q]; [|reflexivity].
      apply C; [apply in_app_iff; left; apply subterms_self|apply in_app_iff; right; apply subterms_self|symmetry; exact Q]. }
    destruct l as [|h t].
    + inversion F. reflexivity.
    + rewrite G. destruct h as [s| | | | | |]; try reflexivity.
      destruct lhs as [| | | | | |[|[s'| | | | | |] la]]; try reflexivity.
      destruct (String.eqb_spec s s') as [->|]; [|reflexivity].
      rewrite (Nf s' la eq_refl). reflexivity.
  - discriminate E.
Qed.

(* ---- constants ---- *)
Lemma sameq_const e p : constant p -> is_sameq e p = N.eqb (hash e) (hash p).
Proof. intro Hp. destruct p as [s|s|z|p q|f'|re im|l]; try contradiction; unfold is_sameq; destruct e; reflexivity. Qed.
Lemma const_not_expr p : constant p -> is_expr p = false.
Proof. destruct p; try contradiction; reflexivity. Qed.
Lemma const_names p : constant p -> pattern_names p = [].
Proof. destruct p; try contradiction; reflexivity. Qed.

Lemma atom_subst_atom stop p v e : is_expr e = false -> atom_subst stop p v e = if ex_eqb e p then v else e.
Proof. destruct e; try reflexivity. discriminate. Qed.
Lemma subst_nil e : subst [] e e.
Proof. apply C26_replace_is_substitution, C26_empty_identity. Qed.

Lemma atom_subst_rewrites env stop p v : constant p -> forall e,
  collision_free (p :: subterms e) ->
  rewrites env p v stop e (atom_subst stop p v e).
Proof.
  intros Hp e.
  assert (A : forall e, is_expr e = false -> collision_free (p :: subterms e) -> rewrites env p v stop e (atom_subst stop p v e)).
  { clear e. intros e He C. rewrite atom_subst_atom by exact He.
    assert (M := match_atom env e p (const_not_expr p Hp)). rewrite He, (sameq_const e p Hp) in M.
    destruct (N.eqb_spec (hash e) (hash p)) as [Q|Q].
    - assert (e = p) by (apply C; [right; apply subterms_self|left; reflexivity|exact Q]). subst e.
      rewrite (proj2 (ex_eqb_eq p p) eq_refl). apply (RW_match _ _ _ _ _ []); [|exact M|apply subst_nil].
      intros [l E]. subst p. contradiction.
    - replace (ex_eqb e p) with false.
      + apply RW_atom; assumption.
      + symmetry. destruct (ex_eqb e p) eqn:E; [|reflexivity]. apply ex_eqb_eq in E. subst. congruence. }
  induction e as [s|s|z|n d|f|a1 a2 _ _|l IH] using ex_ind'; intro C; try (apply A; [reflexivity|exact C]).
  cbn [atom_subst]. destruct (has_head (EExpr l) stop) eqn:E.
  - apply RW_stop, has_head_iff, E.
  - apply RW_parts.
    + intro K. apply has_head_iff in K. congruence.
    + rewrite (match_atom env (EExpr l) p (const_not_expr p Hp)). reflexivity.
    + assert (CC : forall a, In a l -> collision_free (p :: subterms a)).
      { intros a Ha. eapply collision_sub; [|exact C]. intros x [Hx|Hx]; [left; exact Hx|right; eapply subterms_part; eauto]. }
      clear - IH CC. induction IH as [|a l Ha _ IHl]; [constructor|]. cbn [map]. constructor; [apply Ha, CC; left; reflexivity|].
      apply IHl. intros x Hx. apply CC. right; exact Hx.
Qed.

(* ---- slots ---- *)
(* one slot *)
Fixpoint slot1 (i : Z) (a e : ex) : ex :=
  match e with
  | EExpr l => if has_head e (sysname "Function") then e
               else if ex_eqb e (slot i) then a else EExpr (map (slot1 i a) l)
  | _ => e
  end.
Lemma slot_not_function i : ~ headed (slot i) (sysname "Function").
Proof. intros [l E]. injection E as E _. discriminate E. Qed.

Lemma slot1_rewrites env i a : slot_env env -> forall e,
  collision_free (sys "Slot" :: EInt i :: slot i :: subterms e) ->
  rewrites env (slot i) a (sysname "Function") e (slot1 i a e).
Proof.
  intros Hs e.
  assert (M : forall e, collision_free (sys "Slot" :: EInt i :: slot i :: subterms e) -> e <> slot i -> is_match_q env e (slot i) [] = None).
  { clear e. intros e C N. destruct (is_match_q env e (slot i) []) as [m|] eqn:E; [|reflexivity]. exfalso.
    assert (Q : matchq_eval env e (slot i) = true) by (unfold matchq_eval; rewrite E; reflexivity).
    apply slot_match_sound in Q; [|exact Hs]. destruct Q as [Q|[x [y [-> [Q1 Q2]]]]].
    - apply N, C; [do 3 right; apply subterms_self|do 2 right; left; reflexivity|exact Q].
    - apply N.
      assert (x = sys "Slot") as -> by (apply C; [do 3 right; apply (subterms_part _ x); [left; reflexivity|apply subterms_self]|left; reflexivity|exact Q1]).
      assert (y = EInt i) as -> by (apply C; [do 3 right; apply (subterms_part _ y); [right; left; reflexivity|apply subterms_self]|right; left; reflexivity|exact Q2]).
      reflexivity. }
  induction e as [s|s|z|n d|f|a1 a2 _ _|l IH] using ex_ind'; intro C;
    try (apply RW_atom; [reflexivity|apply M; [exact C|discriminate]]).
  cbn [slot1]. destruct (has_head (EExpr l) (sysname "Function")) eqn:E.
  - apply RW_stop, has_head_iff, E.
  - destruct (ex_eqb (EExpr l) (slot i)) eqn:Q.
    + apply ex_eqb_eq in Q. rewrite Q. assert (K := slot_match_self env i Hs). unfold matchq_eval in K.
      destruct (is_match_q env (slot i) (slot i) []) as [m|] eqn:Em; [|discriminate K].
      apply (RW_match _ _ _ _ _ m); [apply slot_not_function|exact Em|].
      apply C26_replace_is_substitution. apply (no_names_same env (slot i) (slot i) m a); [reflexivity|exact Em].
    + apply RW_parts.
      * intro K. apply has_head_iff in K. congruence.
      * apply M; [exact C|]. intro K. apply ex_eqb_eq in K. congruence.
      * assert (CC : forall x, In x l -> collision_free (sys "Slot" :: EInt i :: slot i :: subterms x)).
        { intros x Hx. eapply collision_sub; [|exact C]. intros y [Hy|[Hy|[Hy|Hy]]]; cbn [In]; auto.
          right; right; right. eapply subterms_part; eauto. }
        clear - IH CC. induction IH as [|x l Ha _ IHl]; [constructor|]. cbn [map]. constructor; [apply Ha, CC; left; reflexivity|].
        apply IHl. intros y Hy. apply CC. right; exact Hy.
Qed.

Lemma slot1_absent i a e : ~ In (slot i) (subterms e) -> slot1 i a e = e.
Proof.
  induction e as [s|s|z|n d|f|a1 a2 _ _|l IH] using ex_ind'; intro N; try reflexivity.
  cbn [slot1]. destruct (has_head (EExpr l) (sysname "Function")); [reflexivity|].
  destruct (ex_eqb (EExpr l) (slot i)) eqn:Q.
  - apply ex_eqb_eq in Q. exfalso. apply N. rewrite Q. apply subterms_self.
  - f_equal. rewrite Forall_forall in IH. rewrite <- (map_id l) at 2. apply map_ext_in. intros x Hx. apply IH; [exact Hx|].
    intro K. apply N. eapply subterms_part; eauto.
Qed.

Lemma slot_case s z (args : list ex) : (String.eqb s (sysname "Slot") && (1 <=? z)%Z && (z <=? Z.of_nat (length args))%Z)%bool = true ->
  s = sysname "Slot" /\ (1 <= z <= Z.of_nat (length args))%Z.
Proof. rewrite !andb_true_iff, String.eqb_eq, !Z.leb_le. tauto. Qed.

(* adding one more argument *)
Lemma slot_subst_nil e : slot_subst [] e = e.
Proof.
  induction e as [s|s|z|n d|f|a1 a2 _ _|l IH] using ex_ind'; try reflexivity.
  cbn [slot_subst]. destruct (has_head (EExpr l) (sysname "Function")); [reflexivity|].
  assert (E : EExpr (map (slot_subst []) l) = EExpr l).
  { f_equal. rewrite Forall_forall in IH. rewrite <- (map_id l) at 2. apply map_ext_in. intros x Hx. apply IH, Hx. }
  destruct l as [|[s| | | | | |] [|[s2| | z| | | |] [|]]]; try exact E.
  destruct (String.eqb s (sysname "Slot") && (1 <=? z)%Z && (z <=? Z.of_nat (@length ex []))%Z)%bool eqn:Q; [|reflexivity].
  apply slot_case in Q as [_ Q]. cbn in Q. lia.
Qed.
Lemma slot_subst_add args a body : slots_proper body -> ~ In (sys "Function") args -> ~ In (sys "Slot") args ->
  (forall x, In x args -> ~ In (slot (Z.of_nat (length args) + 1)) (subterms x)) ->
  slot1 (Z.of_nat (length args) + 1) a (slot_subst args body) = slot_subst (args ++ [a]) body.
Proof.
  intros Pr Nf Ns Na. induction body as [s|s|z|n d|f|a1 a2 _ _|l IH] using ex_ind'; try reflexivity.
  assert (IH' : Forall (fun e => slot1 (Z.of_nat (length args) + 1) a (slot_subst args e) = slot_subst (args ++ [a]) e) l).
  { rewrite Forall_forall in *. intros x Hx. apply (IH x Hx). intros k Hk. apply Pr. eapply subterms_part; eauto. }
  assert (MM : map (slot1 (Z.of_nat (length args) + 1) a) (map (slot_subst args) l) = map (slot_subst (args ++ [a])) l).
  { rewrite map_map. apply map_ext_in. rewrite Forall_forall in IH'. exact IH'. }
  cbn [slot_subst]. destruct (has_head (EExpr l) (sysname "Function")) eqn:E.
  { cbn [slot1]. rewrite E. reflexivity. }
  assert (Gen : (match l with [ESym _; EInt _] => False | _ => True end) ->
     slot1 (Z.of_nat (length args) + 1) a (EExpr (map (slot_subst args) l)) = EExpr (map (slot_subst (args ++ [a])) l)).
  { intro Hl. cbn [slot1].
    assert (Hd : forall s t, map (slot_subst args) l = ESym s :: t -> In (ESym s) args \/ exists t', l = ESym s :: t').
    { intros s t Em. destruct l as [|h t']; [discriminate Em|]. injection Em as Eh _.
      destruct h as [s'|s'|z|n d|f|b1 b2|lh]; try discriminate Eh.
      - injection Eh as ->. right. eauto.
      - left. cbn [slot_subst] in Eh. destruct (has_head (EExpr lh) (sysname "Function")); [discriminate Eh|].
        destruct lh as [|[s1| | | | | |] [|[s2| | z| | | |] [|]]]; try discriminate Eh.
        destruct (String.eqb s1 (sysname "Slot") && (1 <=? z)%Z && (z <=? Z.of_nat (length args))%Z)%bool eqn:Q; [|discriminate Eh].
        apply slot_case in Q as [_ Q]. rewrite <- Eh. apply nth_In. lia. }
    assert (F : has_head (EExpr (map (slot_subst args) l)) (sysname "Function") = false).
    { apply has_head_not. intros [t K]. injection K as K. destruct (Hd _ _ K) as [I|[t' ->]]; [contradiction|].
      unfold has_head, head_assertion in E. rewrite String.eqb_refl in E. discriminate E. }
    rewrite F. destruct (ex_eqb _ (slot _)) eqn:Q.
    - exfalso. apply ex_eqb_eq in Q. injection Q as Q. destruct (Hd _ _ Q) as [I|[t' ->]]; [contradiction|].
      destruct (Pr t') as [j ->]; [apply subterms_self|]. apply Hl.
    - rewrite MM. reflexivity. }
  destruct l as [|[s| | | | | |] [|[s2| | z| | | |] [|]]]; try (apply Gen; exact Logic.I).
  destruct (String.eqb s (sysname "Slot") && (1 <=? z)%Z && (z <=? Z.of_nat (length args))%Z)%bool eqn:Q.
  - apply slot_case in Q as [-> Q]. rewrite app_length, String.eqb_refl, (proj2 (Z.leb_le 1 z)) by lia.
    rewrite (proj2 (Z.leb_le z _)) by (cbn [length]; lia). cbn [andb]. rewrite app_nth1 by lia. apply slot1_absent, Na, nth_In. lia.
  - cbn [slot1]. rewrite E. destruct (ex_eqb _ (slot _)) eqn:Q2.
    + apply ex_eqb_eq in Q2. injection Q2 as -> ->. rewrite app_length, String.eqb_refl, (proj2 (Z.leb_le 1 _)) by lia.
      rewrite (proj2 (Z.leb_le _ _)) by (cbn [length]; lia). cbn [andb]. rewrite app_nth2 by lia.
      replace (Z.to_nat (Z.of_nat (length args) + 1) - 1 - length args) with 0 by lia. reflexivity.
    + destruct (String.eqb s (sysname "Slot") && (1 <=? z)%Z && (z <=? Z.of_nat (length (args ++ [a])))%Z)%bool eqn:Q3; [|reflexivity].
      exfalso. apply slot_case in Q3 as [-> Q3]. rewrite app_length in Q3. cbn [length] in Q3.
      rewrite String.eqb_refl, (proj2 (Z.leb_le 1 z)) in Q by lia. cbn [andb] in Q. apply Z.leb_gt in Q.
      assert (z = Z.of_nat (length args) + 1)%Z by lia. subst z.
      change (ex_eqb (slot (Z.of_nat (length args) + 1)) (slot (Z.of_nat (length args) + 1)) = false) in Q2.
      rewrite (proj2 (ex_eqb_eq _ _) eq_refl) in Q2. discriminate Q2.
Qed.

(* a decision procedure for concrete lists *)
Definition collision_freeb (l : list ex) : bool :=
  let hs := map (fun a => (a, hash a)) l in
  forallb (fun '(a, ha) => forallb (fun '(b, hb) => negb (N.eqb ha hb) || ex_eqb a b) hs) hs.
Lemma collision_freeb_ok l : collision_freeb l = true -> collision_free l.
Proof.
  unfold collision_freeb. cbv zeta. intros H a b Ha Hb E. rewrite forallb_forall in H.
  specialize (H (a, hash a) (in_map (fun a => (a, hash a)) l a Ha)). cbn beta iota in H. rewrite forallb_forall in H.
  specialize (H (b, hash b) (in_map (fun a => (a, hash a)) l b Hb)). cbn beta iota in H.
  rewrite E, N.eqb_refl in H. cbn [negb orb] in H. apply ex_eqb_eq, H.
Qed.
