(* Matching of simple patterns (S_Call.v) is decided exactly. *)
From Verif Require Import M_Syntax M_Hash M_Alloc M_Match S_Alloc S_Match S_Call P_Hash P_Alloc P_MatchFuel P_MatchSound P_MatchComplete.
Open Scope nat_scope.

Scheme fits_ind2 := Induction for fits Sort Prop with fits_list_ind2 := Induction for fits_list Sort Prop.

(* the shapes of simple patterns *)
Inductive shape (env : menv) : ex -> Prop :=
| SH_blank : shape env blank
| SH_blank_of h : shape env (blank_of h)
| SH_var x : shape env (var x)
| SH_var_of x h : shape env (var_of x h)
| SH_atom a : is_expr a = false -> shape env a
| SH_node g ps : ~ In g pattern_heads -> me_flat env g = false -> me_orderless env g = false -> ps <> [] ->
    (forall p, In p ps -> simple env p = true) -> shape env (EExpr (ESym g :: ps)).
Lemma blank1_shape p : is_blank1 p = true -> p = blank \/ exists h, p = blank_of h.
Proof.
  destruct p as [| | | | | |[|[b| | | | | |] [|[h| | | | | |] [|]]]]; try discriminate; cbn; rewrite String.eqb_eq; intros ->; [left; reflexivity|right; exists h; reflexivity].
Qed.
Lemma existsb_eqb s l : existsb (String.eqb s) l = true <-> In s l.
Proof.
  rewrite existsb_exists. split; [intros [x [H E]]; apply String.eqb_eq in E; subst; exact H|].
  intro H. exists s. split; [exact H|apply String.eqb_refl].
Qed.
Lemma simple_shape env p : simple env p = true -> shape env p.
Proof.
  destruct p as [s|s|z|n d|f|a b|[|[s|s|z|n d|f|a b|l'] l]]; intro H; try (apply SH_atom; reflexivity); try discriminate H.
  cbn [simple] in H. apply orb_true_iff in H as [H|H]; [apply orb_true_iff in H as [H|H]|].
  - apply blank1_shape in H as [E|[h E]]; rewrite E; constructor.
  - apply andb_true_iff in H as [H1 H2]. apply String.eqb_eq in H1 as ->. destruct l as [|[x| | | | | |] [|q [|]]]; try discriminate H2.
    apply blank1_shape in H2 as [->|[h ->]]; [apply SH_var|apply SH_var_of].
  - apply andb_true_iff in H as [H H5]. apply andb_true_iff in H as [H H4]. apply andb_true_iff in H as [H H3].
    apply andb_true_iff in H as [H1 H2]. apply negb_true_iff in H1, H2, H3, H4. apply SH_node; auto.
    + intro I. apply existsb_eqb in I. congruence.
    + destruct l; [discriminate H4|discriminate].
    + apply forallb_forall, H5.
Qed.

(* one block per form *)
Lemma lsum_ones sizes : Forall (fun k => k = 1) sizes -> lsum sizes = length sizes.
Proof. induction 1 as [|k l -> _ IH]; [reflexivity|]. cbn [lsum fold_right length]. fold (lsum l). lia. Qed.
Lemma concat_singles (bs : list (list nat)) : Forall (fun b => length b = 1) bs -> bs = map (fun i => [i]) (concat bs).
Proof.
  induction 1 as [|b bs L _ IH]; [reflexivity|]. destruct b as [|i [|]]; try discriminate L. cbn [concat app map]. f_equal. exact IH.
Qed.
Lemma nodup_one {A} (x : A) l : NoDup l -> In x l -> (forall y, In y l -> y = x) -> l = [x].
Proof.
  intros N I H. destruct l as [|a [|b t]]; [destruct I|f_equal; apply H; left; reflexivity|].
  exfalso. inversion N as [|? ? Na _]; subst. apply Na. left. rewrite (H a), (H b); cbn; auto.
Qed.
Definition single_form (f : pform) : Prop := pf_start f = 1 /\ pf_end f = Some 1.
Lemma singles_sizes forms n sizes : Forall single_form forms -> valid_sizes forms n sizes -> Forall (fun k => k = 1) sizes /\ length sizes = length forms.
Proof.
  intros F [H _]. revert F. induction H as [|f k fs ks H _ IH]; intro F; [auto|]. inversion F as [|? ? [S E] F']; subst.
  rewrite S, E in H. destruct (IH F') as [A B]. split; [constructor; [lia|exact A]|cbn; lia].
Qed.
Lemma singles_assignments forms fm n : forms <> [] -> Forall single_form forms ->
  assignments forms fm false n = if Nat.eqb n (length forms) then [map (fun i => [i]) (seq 0 n)] else [].
Proof.
  intros N F. assert (A : forall bs, In bs (assignments forms fm false n) -> n = length forms /\ bs = map (fun i => [i]) (seq 0 n)).
  { intros bs I. apply (ordered_in forms fm n N) in I as [V C]. destruct (singles_sizes _ _ _ F V) as [H1 H2].
    destruct V as [_ L]. rewrite lsum_ones in L by exact H1. split; [lia|]. rewrite <- C. apply concat_singles.
    apply Forall_forall. intros b Hb. rewrite Forall_forall in H1. apply H1. apply in_map, Hb. }
  destruct (Nat.eqb_spec n (length forms)) as [->|Q].
  - apply nodup_one; [apply ordered_nodup, N| |intros y Hy; apply (A y Hy)].
    apply (ordered_in forms fm _ N). unfold valid_split, valid_sizes. rewrite map_map. cbn [length].
    assert (K : forall fs s, Forall single_form fs -> Forall2 (fun f k => pf_start f <= k /\ match pf_end f with None => True | Some m => k <= m end) fs (map (fun _ : nat => 1) (seq s (length fs)))).
    { induction fs as [|f fs IH]; intros s G; [constructor|]. inversion G as [|? ? [S E] G']; subst. cbn [length seq map]. constructor; [rewrite S, E; lia|apply IH, G']. }
    split; [split; [apply K, F|]|].
    + rewrite lsum_ones; [rewrite map_length, seq_length; reflexivity|]. apply Forall_forall. intros k I. apply in_map_iff in I as [? [<- _]]. reflexivity.
    + generalize (seq 0 (length forms)). induction l as [|i l IH]; [reflexivity|]. cbn. f_equal. exact IH.
  - destruct (assignments forms fm false n) as [|bs t] eqn:E; [reflexivity|]. destruct (A bs) as [K _]; [left; reflexivity|]. congruence.
Qed.
Lemma pick_singles comps : map (pick comps) (map (fun i => [i]) (seq 0 (length comps))) = map (fun c => [c]) comps.
Proof.
  rewrite map_map. unfold pick. cbn [map].
  assert (K : forall pre l, map (fun i => [nth i (pre ++ l) (sys "Null")]) (seq (length pre) (length l)) = map (fun c => [c]) l).
  { intros pre l. revert pre. induction l as [|c l IH]; intro pre; [reflexivity|]. cbn [length seq map]. rewrite app_nth2, Nat.sub_diag by lia. cbn [nth]. f_equal.
    specialize (IH (pre ++ [c])). rewrite <- app_assoc in IH. cbn [app] in IH. rewrite app_length in IH. cbn [length] in IH. rewrite Nat.add_1_r in IH. exact IH. }
  exact (K [] comps).
Qed.

(* bindings *)
Lemma pd_set_fresh pm x v : ~ In x (map fst pm) -> pd_set pm x v = pm ++ [(x, v)].
Proof.
  induction pm as [|[k w] t IH]; intro H; [reflexivity|]. cbn [pd_set]. destruct (String.eqb_spec k x) as [->|N]; [exfalso; apply H; left; reflexivity|].
  cbn [app]. f_equal. apply IH. intro K. apply H. right. exact K.
Qed.
Lemma pd_set_same pm x v : nodupk pm -> pd_get pm x = Some v -> pd_set pm x v = pm.
Proof.
  induction pm as [|[k w] t IH]; intros N H; [discriminate H|]. cbn [pd_set pd_get] in *. destruct (String.eqb_spec k x) as [->|Q].
  - injection H as ->. reflexivity.
  - f_equal. apply IH; [|exact H]. inversion N; assumption.
Qed.
Lemma pd_get_in pm x v : nodupk pm -> In (x, v) pm -> pd_get pm x = Some v.
Proof.
  induction pm as [|[k w] t IH]; intros N I; [destruct I|]. cbn [pd_get]. inversion N as [|? ? Nk Nt]; subst.
  destruct I as [E|I]; [injection E as -> ->; rewrite String.eqb_refl; reflexivity|].
  destruct (String.eqb_spec k x) as [->|Q]; [|apply IH; assumption]. exfalso. apply Nk. change x with (fst (x, v)). apply in_map, I.
Qed.
Lemma nodup_app_l {A} (a b : list A) : NoDup (a ++ b) -> NoDup a.
Proof.
  induction a as [|x a IH]; intro H; [constructor|]. inversion H as [|? ? N H']; subst. constructor; [|apply IH, H'].
  intro I. apply N, in_or_app. left. exact I.
Qed.
Lemma nodup_app_r {A} (a b : list A) : NoDup (a ++ b) -> NoDup b.
Proof. induction a as [|x a IH]; intro H; [exact H|]. inversion H; subst. auto. Qed.
Lemma update_old pm old new : nodupk (pm ++ new) -> (forall b, In b old -> In b pm) -> pd_update pm (old ++ new) = pm ++ new.
Proof.
  revert pm new. induction old as [|[k v] t IH]; intros pm new N I.
  - clear I. cbn [app]. revert pm N. induction new as [|[k v] t IH]; intros pm N; [symmetry; apply app_nil_r|].
    rewrite update_cons, pd_set_fresh.
    + rewrite IH; rewrite <- app_assoc; [reflexivity|exact N].
    + intro K. unfold nodupk in N. rewrite map_app in N. apply NoDup_remove_2 in N. apply N, in_or_app. left. exact K.
  - cbn [app]. rewrite update_cons. assert (Np : nodupk pm).
    { unfold nodupk in *. rewrite map_app in N. apply nodup_app_l in N. exact N. }
    rewrite pd_set_same; [apply IH; [exact N|intros b Hb; apply I; right; exact Hb]|exact Np|apply pd_get_in; [exact Np|apply I; left; reflexivity]].
Qed.
Lemma update_self pm new : nodupk (pm ++ new) -> pd_update pm (pm ++ new) = pm ++ new.
Proof. intro N. apply update_old; auto. Qed.

(* a (part of) b, for the purpose of staying without duplicates *)
Definition thin {A} (a b : list A) : Prop := forall pre post, NoDup (pre ++ b ++ post) -> NoDup (pre ++ a ++ post).
Lemma thin_refl {A} (a : list A) : thin a a. Proof. intros pre post H. exact H. Qed.
Lemma thin_nil {A} (b : list A) : thin [] b.
Proof.
  intros pre post. revert pre. induction b as [|x b IH]; intros pre H; [exact H|]. apply IH. apply NoDup_remove_1 in H. exact H.
Qed.
Lemma thin_app {A} (a a' b b' : list A) : thin a b -> thin a' b' -> thin (a ++ a') (b ++ b').
Proof.
  intros H H' pre post N. rewrite <- app_assoc. apply H. rewrite app_assoc. apply H'. rewrite <- !app_assoc in *. exact N.
Qed.
Lemma thin_nodup {A} (a b pre : list A) : thin a b -> NoDup (pre ++ b) -> NoDup (pre ++ a).
Proof. intros H N. specialize (H pre []). rewrite !app_nil_r in H. exact (H N). Qed.

(* the result of matching: no match and nothing fits, or exactly one match *)
Definition decided (pm : pdm) (p e : ex) (r : list pdm * pdm) : Prop :=
  (fst r = [] /\ forall bs, ~ fits p e bs) \/
  exists bs m, fst r = [m] /\ fits p e bs /\ thin (map fst bs) (pattern_names p) /\
     pd_update (snd r) m = pm ++ bs /\ (m = pm ++ bs \/ m = [] /\ bs = []).

(* ---- fits, by the shape of the pattern ---- *)
Lemma ph_in s : In s ["Blank"; "BlankSequence"; "BlankNullSequence"; "Pattern"; "PatternTest"; "Optional"; "Repeated"; "RepeatedNull";
   "Except"; "Alternatives"; "Condition"; "HoldPattern"]%string -> In (sysname s) pattern_heads.
Proof. intro H. unfold pattern_heads. apply in_map, H. Qed.
Ltac inph := apply ph_in; cbn; tauto.
Ltac phs := match goal with N : ~ In (sysname _) pattern_heads |- _ => exfalso; apply N; inph end.
Lemma fits_blank e bs : fits blank e bs -> bs = [].
Proof. inversion 1; subst; try reflexivity; try phs; try discriminate. Qed.
Lemma fits_blank_of h e bs : fits (blank_of h) e bs -> bs = [] /\ head_is e (ESym h).
Proof. inversion 1; subst; try phs; try discriminate. auto. Qed.
Lemma fits_var x e bs : fits (var x) e bs -> bs = [(x, e)].
Proof. inversion 1; subst; try reflexivity; try phs; try discriminate. Qed.
Lemma fits_var_of x h e bs : fits (var_of x h) e bs -> bs = [(x, e)] /\ head_is e (ESym h).
Proof. inversion 1; subst; try phs; try discriminate. auto. Qed.
Lemma fits_atom a e bs : is_expr a = false -> fits a e bs -> bs = [] /\ is_expr e = false /\ is_sameq e a = true.
Proof. intros A H. inversion H; subst; try discriminate A. auto. Qed.
Lemma fits_node g ps e bs : ~ In g pattern_heads -> fits (EExpr (ESym g :: ps)) e bs ->
  match e with
  | EExpr [] => False
  | EExpr (h :: es) => (is_expr h = false /\ is_sameq h (ESym g) = true) /\ fits_list ps es bs
  | ERat n d => fits (EExpr (ESym g :: ps)) (EExpr [sys "Rational"; EInt n; EInt d]) bs
  | ECplx re im => fits (EExpr (ESym g :: ps)) (EExpr [sys "Complex"; re; im]) bs
  | _ => bs = [] /\ is_sameq e (EExpr (ESym g :: ps)) = true
  end.
Proof.
  intros N H. inversion H; subst; try (exfalso; apply N; inph); try discriminate; auto.
  destruct e; try discriminate; auto.
Qed.

(* ---- matching, by the shape of the pattern ---- *)
Lemma match_blank env e l pm : (l = [] \/ exists h, l = [ESym h]) ->
  match_iter env e (EExpr (sys "Blank" :: l)) pm = (if blank_head_ok l (head_ex e) then [pm] else [], pm).
Proof.
  intro H. rewrite match_iter_eq, mi_step_normal by (intros s args E; injection E as <- _; reflexivity).
  unfold match_normal.
  assert (V : verbatim_op e (EExpr (sys "Blank" :: l)) = None) by (destruct e as [| | | | | |[|]]; reflexivity).
  rewrite V. destruct H as [->|[h ->]]; cbn [is_blank_type_only]; 
    match goal with |- context [is_blank_type_only ?b] => change (is_blank_type_only b) with true end; cbv iota;
    unfold blank_capture; match goal with |- context [args_of ?b nPattern] => change (args_of b nPattern) with (@None (list ex)) end; cbv iota;
    match goal with |- context [blank_like ?b] => first [change (blank_like b) with (Some (@nil ex))|change (blank_like b) with (Some [ESym h])] end; cbv iota;
    destruct (blank_head_ok _ _); reflexivity.
Qed.
Lemma match_var env e x l pm : (l = [] \/ exists h, l = [ESym h]) -> ~ In x (map fst pm) ->
  match_iter env e (EExpr [sys "Pattern"; ESym x; EExpr (sys "Blank" :: l)]) pm =
  if blank_head_ok l (head_ex e) then ([pm ++ [(x, e)]], pm ++ [(x, e)]) else ([], pm).
Proof.
  intros H F. rewrite match_iter_eq, mi_step_normal by (intros s args E; injection E as <- _; reflexivity).
  unfold match_normal.
  assert (V : verbatim_op e (EExpr [sys "Pattern"; ESym x; EExpr (sys "Blank" :: l)]) = None) by (destruct e as [| | | | | |[|]]; reflexivity).
  rewrite V.
  assert (B : is_blank_type_only (EExpr [sys "Pattern"; ESym x; EExpr (sys "Blank" :: l)]) = true) by (destruct H as [->|[h ->]]; reflexivity).
  rewrite B. unfold blank_capture.
  change (args_of (EExpr [sys "Pattern"; ESym x; EExpr (sys "Blank" :: l)]) nPattern) with (Some [ESym x; EExpr (sys "Blank" :: l)]). cbv iota.
  assert (L : blank_like (EExpr (sys "Blank" :: l)) = Some l) by reflexivity. rewrite L.
  destruct (blank_head_ok l (head_ex e)); [|reflexivity].
  rewrite (proj2 (pd_get_none pm x) F), sameq_refl, pd_set_fresh by exact F. reflexivity.
Qed.
Lemma match_atom env e a pm : is_expr a = false ->
  match_iter env e a pm = (if negb (is_expr e) && is_sameq e a then [[]] else [], pm).
Proof.
  intro A. rewrite match_iter_eq, mi_step_normal by (intros s args ->; discriminate A). unfold match_normal.
  assert (V : verbatim_op e a = None) by (destruct a; try discriminate A; destruct e as [| | | | | |[|]]; reflexivity). rewrite V.
  assert (B : is_blank_type_only a = false) by (destruct a; try discriminate A; reflexivity). rewrite B.
  assert (An : assume_head env e a = None) by (destruct a; try discriminate A; reflexivity).
  destruct a; try discriminate A; destruct e; rewrite ?An; cbn [is_expr negb andb]; reflexivity.
Qed.

Lemma simple_not_headed env p s l : simple env p = true -> p = EExpr (ESym s :: l) ->
  In s (map sysname ["PatternTest"; "Optional"; "BlankSequence"; "BlankNullSequence"; "Repeated"; "RepeatedNull"; "Except"; "Alternatives"; "Condition"; "HoldPattern"]%string) -> False.
Proof.
  intros H E I. destruct (simple_shape env p H) as [|h|x|x h|a A|g ps N _ _ _ _]; try (injection E as <- _; cbn in I; repeat (destruct I as [I|I]; [discriminate I|]); exact I).
  - subst a. discriminate A.
  - injection E as -> _. apply N. unfold pattern_heads. cbn [map] in *. cbn in I |- *. tauto.
Qed.
Lemma no_optional env ps : (forall p, In p ps -> simple env p = true) -> has_optional ps = false.
Proof.
  intro H. unfold has_optional. destruct (existsb _ ps) eqn:E; [|reflexivity]. apply existsb_exists in E as [p [I Q]]. exfalso.
  unfold has_head, head_assertion in Q. destruct p as [| | | | | |[|[s| | | | | |] l]]; try discriminate Q.
  destruct (String.eqb_spec s nOptional) as [->|]; [|discriminate Q].
  apply (simple_not_headed env _ nOptional l (H _ I) eq_refl). cbn. tauto.
Qed.

(* an argument pattern: its form *)
Lemma arg_form env p sh : simple env p = true ->
  let f := parse_form p false sh (me_default env sh) in
  single_form f /\
  ((pf_pat f = None /\ pf_form f = p /\ forall x l, p <> EExpr (sys "Pattern" :: ESym x :: l)) \/
   exists x l, (l = [] \/ exists h, l = [ESym h]) /\ p = EExpr [sys "Pattern"; ESym x; EExpr (sys "Blank" :: l)] /\ pf_pat f = Some x /\
     pf_form f = EExpr (sys "Blank" :: l) /\ pf_isblank f = true).
Proof.
  intro H. cbv zeta. rewrite parse_form_view.
  destruct (simple_shape env p H) as [|h|x|x h|a A|g ps N _ _ _ _].
  - split; [split; reflexivity|]. left. repeat split. discriminate.
  - split; [split; reflexivity|]. left. repeat split. discriminate.
  - split; [split; reflexivity|]. right. exists x, []. repeat split. left; reflexivity.
  - split; [split; reflexivity|]. right. exists x, [ESym h]. repeat split. right; exists h; reflexivity.
  - assert (V : view a = CView None None None a) by (destruct a; try discriminate A; reflexivity). rewrite V.
    assert (C : core_spec false sh a = (1, Some 1, a)) by (destruct a; try discriminate A; reflexivity).
    unfold single_form, pform_of, bounds, element_pattern. cbn [cv_opt cv_test cv_name cv_core pf_start pf_end pf_pat pf_form]. rewrite C.
    split; [split; reflexivity|]. left. repeat split. intros x l ->. discriminate A.
  - assert (P1 : forall t, In t pattern_heads -> String.eqb g t = false) by (intros t I; apply String.eqb_neq; intros ->; contradiction).
    assert (V : view (EExpr (ESym g :: ps)) = CView None None None (EExpr (ESym g :: ps))).
    { rewrite view_peel. unfold peel_opt, peel_test, peel_name. cbv zeta. rewrite !args_of_expr.
      rewrite (P1 nOptional), ?args_of_expr by inph. rewrite (P1 nPatTest), ?args_of_expr by inph. rewrite (P1 nPattern) by inph. reflexivity. }
    rewrite V.
    assert (C : core_spec false sh (EExpr (ESym g :: ps)) = (1, Some 1, EExpr (ESym g :: ps))).
    { cbn [core_spec]. rewrite (P1 nBNS), (P1 nBS), (P1 nBlank), (P1 nRepeated), (P1 nRepeatedNull) by inph. reflexivity. }
    unfold single_form, pform_of, bounds, element_pattern. cbn [cv_opt cv_test cv_name cv_core pf_start pf_end pf_pat pf_form]. rewrite C.
    split; [split; reflexivity|]. left. repeat split. intros x l E. injection E as -> _. apply N. inph.
Qed.

Lemma head_fits1 l e : (l = [] \/ exists h, l = [ESym h]) -> blank_head_ok l (head_ex e) = true <-> match l with [] => True | h :: _ => head_is e h end.
Proof. intro H. rewrite head_fits_spec. destruct l; reflexivity. Qed.
Lemma fits_var_l l x e bs : (l = [] \/ exists h, l = [ESym h]) -> fits (EExpr [sys "Pattern"; ESym x; EExpr (sys "Blank" :: l)]) e bs ->
  bs = [(x, e)] /\ blank_head_ok l (head_ex e) = true.
Proof.
  intros [->|[h ->]] F.
  - apply (fits_var x e) in F. auto.
  - apply (fits_var_of x h e) in F as [-> K]. split; [reflexivity|exact K].
Qed.
Lemma var_fits_l l x e : (l = [] \/ exists h, l = [ESym h]) -> blank_head_ok l (head_ex e) = true ->
  fits (EExpr [sys "Pattern"; ESym x; EExpr (sys "Blank" :: l)]) e [(x, e)].
Proof. intros [->|[h ->]] K; [apply F_var|apply F_var_of, K]. Qed.

Section nodes.
  Variable env : menv.
  Notation M := (match_iter env).
  Definition ok_at (p : ex) : Prop := forall e pm, NoDup (map fst pm ++ pattern_names p) -> decided pm p e (M e p pm).

  (* one argument, followed by anything *)
  Lemma arg_step p c sh pm (k : pdm -> list pdm) : simple env p = true -> ok_at p -> NoDup (map fst pm ++ pattern_names p) ->
    let f := parse_form p false sh (me_default env sh) in
    let r := flat_map (fun pm1 => match define_sequence env f [c] sh pm1 with Some pm2 => k pm2 | None => [] end)
               (ami_comps M (pf_form f) [c] pm) in
    (r = [] /\ forall bs, ~ fits p c bs) \/ exists bs, fits p c bs /\ thin (map fst bs) (pattern_names p) /\ r = k (pm ++ bs).
  Proof.
    intros Hs Hok N f r. destruct (arg_form env p sh Hs) as [_ [[Hn [Hf _]]|[x [l [Hl [-> [Hn [Hf Hb]]]]]]]]; fold f in Hn, Hf.
    - subst r. rewrite Hf. destruct (Hok c pm N) as [[E F]|[bs [m [E [F [Hk [U _]]]]]]].
      + left. split; [|exact F]. cbn [ami_comps]. destruct (M c p pm) as [ms pm1]. cbn [fst] in E. subst ms. reflexivity.
      + right. exists bs. split; [exact F|]. split; [exact Hk|]. cbn [ami_comps]. destruct (M c p pm) as [ms pm1]. cbn [fst snd] in *. subst ms.
        cbn [flat_map app]. unfold define_sequence. rewrite Hn, U. apply app_nil_r.
    - fold f in Hb. assert (Nx : ~ In x (map fst pm)).
      { intro I. assert (In x (pattern_names (EExpr [sys "Pattern"; ESym x; EExpr (sys "Blank" :: l)]))) by (left; reflexivity).
        apply in_split in H as [a [b E]]. rewrite E, app_assoc in N. apply NoDup_remove_2 in N. apply N.
        apply in_or_app. left. apply in_or_app. left. exact I. }
      subst r. rewrite Hf. cbn [ami_comps]. rewrite match_blank by exact Hl. destruct (blank_head_ok l (head_ex c)) eqn:K.
      + right. exists [(x, c)]. split; [apply var_fits_l; assumption|]. split; [destruct Hl as [->|[h ->]]; apply thin_refl|].
        cbn [flat_map app]. unfold define_sequence. rewrite Hn.
        assert (U : pd_update pm pm = pm).
        { pose proof (update_self pm []) as Q. rewrite app_nil_r in Q. apply Q. unfold nodupk. apply nodup_app_l in N. exact N. }
        rewrite U, (proj2 (pd_get_none pm x) Nx). unfold seq_value. rewrite Hb. cbn [orb]. rewrite pd_set_fresh by exact Nx. apply app_nil_r.
      + left. split; [reflexivity|]. intros bs F. destruct (fits_var_l l x c bs Hl F) as [_ G]. rewrite K in G. discriminate G.
  Qed.

  Definition forms_of (sh : string) (ps : list ex) := map (fun p => parse_form p false sh (me_default env sh)) ps.
  Lemma args_step sh : forall ps comps pm, length comps = length ps -> (forall p, In p ps -> simple env p = true /\ ok_at p) ->
    NoDup (map fst pm ++ flat_map pattern_names ps) ->
    let r := ami_forms M env sh (combine (forms_of sh ps) (map (fun c => [c]) comps)) pm in
    (r = [] /\ forall bs, ~ fits_list ps comps bs) \/
    exists bs, fits_list ps comps bs /\ thin (map fst bs) (flat_map pattern_names ps) /\ r = [pm ++ bs].
  Proof.
    induction ps as [|p ps IH]; intros [|c comps] pm L H N r; try discriminate L.
    - right. exists []. split; [constructor|]. split; [apply thin_refl|]. subst r. cbn. rewrite app_nil_r. reflexivity.
    - cbn [flat_map] in N. destruct (H p (or_introl eq_refl)) as [Hs Hok].
      subst r. cbn [forms_of map combine ami_forms]. fold (forms_of sh ps).
      destruct (arg_step p c sh pm (ami_forms M env sh (combine (forms_of sh ps) (map (fun c => [c]) comps))) Hs Hok) as [[E F]|[bs [F [Hk E]]]].
      + rewrite app_assoc in N. apply nodup_app_l in N. exact N.
      + left. split; [exact E|]. intros bs Q. inversion Q; subst. eapply F; eassumption.
      + destruct (IH comps (pm ++ bs)) as [[E2 F2]|[bs2 [F2 [Hk2 E2]]]].
        * injection L as L. exact L.
        * intros q Hq. apply H. right. exact Hq.
        * rewrite map_app, <- app_assoc. apply (Hk (map fst pm) (flat_map pattern_names ps)). exact N.
        * left. split; [etransitivity; [exact E|exact E2]|]. intros bs' Q. inversion Q; subst. eapply F2; eassumption.
        * right. exists (bs ++ bs2). split; [constructor; assumption|]. split; [rewrite map_app; apply thin_app; assumption|].
          etransitivity; [exact E|]. etransitivity; [exact E2|]. rewrite app_assoc. reflexivity.
  Qed.
  Lemma fits_len ps es bs : fits_list ps es bs -> length es = length ps.
  Proof. induction 1; cbn; congruence. Qed.
  Lemma fits_in ps es bs p : fits_list ps es bs -> In p ps -> exists e bs', In e es /\ fits p e bs'.
  Proof.
    induction 1 as [|q e bs ps es bs' F _ IH]; intro I; [destruct I|]. destruct I as [->|I]; [exists e, bs; split; [left; reflexivity|exact F]|].
    destruct (IH I) as [e' [b [K1 K2]]]. exists e', b. split; [right; exact K1|exact K2].
  Qed.
  Lemma nodup_part {A B} (f : B -> list A) l x : NoDup (flat_map f l) -> In x l -> NoDup (f x).
  Proof.
    induction l as [|y l IH]; intros N I; [destruct I|]. cbn [flat_map] in N. destruct I as [->|I]; [apply nodup_app_l in N; exact N|].
    apply IH; [apply nodup_app_r in N; exact N|exact I].
  Qed.

  Lemma seq_step sh ps comps pm : ps <> [] -> (forall p, In p ps -> simple env p = true /\ ok_at p) ->
    NoDup (map fst pm ++ flat_map pattern_names ps) ->
    let r := seq_match M env comps (forms_of sh ps) false sh pm in
    (r = [] /\ forall bs, ~ fits_list ps comps bs) \/
    exists bs, fits_list ps comps bs /\ thin (map fst bs) (flat_map pattern_names ps) /\ r = [pm ++ bs].
  Proof.
    intros Ne H N r. subst r. unfold seq_match.
    destruct (enough_matches M comps (forms_of sh ps)) eqn:En.
    - assert (Fs : Forall single_form (forms_of sh ps)).
      { apply Forall_forall. intros f I. apply in_map_iff in I as [p [<- Hp]]. apply (arg_form env p sh), H, Hp. }
      rewrite singles_assignments; [|destruct ps; [contradiction|discriminate]|exact Fs].
      replace (length (forms_of sh ps)) with (length ps) by (unfold forms_of; rewrite map_length; reflexivity). destruct (Nat.eqb_spec (length comps) (length ps)) as [L|L].
      + cbn [flat_map]. rewrite app_nil_r, pick_singles. apply args_step; assumption.
      + left. split; [reflexivity|]. intros bs Q. apply L, (fits_len _ _ _ Q).
    - left. split; [reflexivity|]. intros bs Q. unfold enough_matches in En.
      assert (K : forallb (fun f => pf_start f <=? length (filter (fun c => match fst (M c (pf_form f) []) with [] => false | _ => true end) comps)) (forms_of sh ps) = true); [|congruence].
      apply forallb_forall. intros f I. apply in_map_iff in I as [p [<- Hp]]. destruct (H p Hp) as [Hs Hok].
      destruct (arg_form env p sh Hs) as [[St _] C]. rewrite St. apply Nat.leb_le.
      destruct (fits_in _ _ _ p Q Hp) as [e [b [Ie Fe]]].
      assert (G : (match fst (M e (pf_form (parse_form p false sh (me_default env sh))) []) with [] => false | _ => true end) = true).
      { destruct C as [[_ [-> _]]|[x [l [Hl [-> [_ [-> _]]]]]]].
        - destruct (Hok e []) as [[E F]|[bs' [m [E _]]]].
          + cbn [map app]. apply (nodup_part pattern_names ps p); [apply nodup_app_r in N; exact N|exact Hp].
          + exfalso. exact (F _ Fe).
          + rewrite E. reflexivity.
        - rewrite match_blank by exact Hl. destruct (fits_var_l l x e b Hl Fe) as [_ ->]. reflexivity. }
      assert (In e (filter (fun c => match fst (M c (pf_form (parse_form p false sh (me_default env sh))) []) with [] => false | _ => true end) comps)) by (apply filter_In; auto).
      destruct (filter _ comps); [destruct H0|cbn; lia].
  Qed.
End nodes.

Lemma names_node g ps : ~ In g pattern_heads -> pattern_names (EExpr (ESym g :: ps)) = flat_map pattern_names ps.
Proof.
  intro N. cbn [pattern_names flat_map]. destruct ps as [|[x| | | | | |] ps]; try reflexivity.
  assert (E : is_pattern_head (ESym g) = false); [|rewrite E; reflexivity].
  unfold is_pattern_head. change (ex_eqb (ESym g) (EExpr [sys "Verbatim"; sys "Pattern"])) with false. rewrite orb_false_r.
  destruct (ex_eqb (ESym g) (sys "Pattern")) eqn:Q; [|reflexivity]. apply ex_eqb_eq in Q. injection Q as ->. exfalso. apply N. inph.
Qed.

Lemma match_node env e g ps pm : ~ In g pattern_heads -> (forall p, In p ps -> simple env p = true) ->
  match_iter env e (EExpr (ESym g :: ps)) pm =
  match e with
  | ERat n d => let '(ms, pm1) := match_iter env (EExpr [sys "Rational"; EInt n; EInt d]) (EExpr (ESym g :: ps)) pm in
                (match ms with [] => [] | m :: _ => [m] end, pm1)
  | ECplx re im => let '(ms, pm1) := match_iter env (EExpr [sys "Complex"; re; im]) (EExpr (ESym g :: ps)) pm in
                (match ms with [] => [] | m :: _ => [m] end, pm1)
  | EExpr la => (match_parts (match_iter env) env false la (ESym g :: ps) pm, pm)
  | _ => (if is_sameq e (EExpr (ESym g :: ps)) then [[]] else [], pm)
  end.
Proof.
  intros N H. assert (P1 : forall t, In t pattern_heads -> String.eqb g t = false) by (intros t I; apply String.eqb_neq; intros ->; contradiction).
  rewrite match_iter_eq, mi_step_normal.
  2:{ intros s args E. injection E as <- _. cbn [existsb step_heads].
      rewrite (P1 nExcept), (P1 nAlt), (P1 nPatTest), (P1 nCondition), (P1 nOptional), (P1 nHoldPattern) by inph. reflexivity. }
  unfold match_normal.
  assert (V : verbatim_op e (EExpr (ESym g :: ps)) = None) by (destruct e as [| | | | | |[|]]; reflexivity). rewrite V.
  rewrite blank_type_sym.
  2:{ unfold blank_name. rewrite (P1 nBlank), (P1 nBS), (P1 nBNS) by inph. reflexivity. }
  2:{ intros ->. apply N. inph. }
  assert (A : assume_head env e (EExpr (ESym g :: ps)) = None).
  { unfold assume_head. rewrite (no_optional env ps H), andb_false_r. reflexivity. }
  rewrite A. destruct e; reflexivity.
Qed.

Lemma all_ok env : forall n p, ex_size p < n -> simple env p = true -> ok_at env p.
Proof.
  induction n as [|n IH]; intros p L Hs; [lia|]. intros e pm N.
  destruct (simple_shape env p Hs) as [|h|x|x h|a A|g ps Hg Hf Ho Hne Hps].
  - unfold blank. rewrite match_blank by (left; reflexivity). right. exists [], pm. cbn [blank_head_ok fst snd]. rewrite app_nil_r.
    split; [reflexivity|]. split; [apply F_blank|]. split; [apply thin_refl|]. split; [|left; reflexivity].
    pose proof (update_self pm []) as Q. rewrite app_nil_r in Q. apply Q. apply nodup_app_l in N. exact N.
  - unfold blank_of. rewrite match_blank by (right; exists h; reflexivity). cbn [blank_head_ok]. destruct (is_sameq (head_ex e) (ESym h)) eqn:K.
    + right. exists [], pm. cbn [fst snd]. rewrite app_nil_r. split; [reflexivity|]. split; [apply F_blank_of, K|]. split; [apply thin_nil|]. split; [|left; reflexivity].
      pose proof (update_self pm []) as Q. rewrite app_nil_r in Q. apply Q. apply nodup_app_l in N. exact N.
    + left. split; [reflexivity|]. intros bs F. apply fits_blank_of in F as [_ F]. unfold head_is in F. congruence.
  - unfold var, blank. assert (Nx : ~ In x (map fst pm)).
    { intro I. cbn in N. apply NoDup_remove_2 in N. apply N, in_or_app. left; exact I. }
    rewrite match_var by (auto). cbn [blank_head_ok]. right. exists [(x, e)], (pm ++ [(x, e)]). cbn [fst snd].
    split; [reflexivity|]. split; [apply F_var|]. split; [apply thin_refl|]. split; [|left; reflexivity].
    pose proof (update_self (pm ++ [(x, e)]) []) as Q. rewrite app_nil_r in Q. apply Q. unfold nodupk. rewrite map_app. exact N.
  - unfold var_of, blank_of. assert (Nx : ~ In x (map fst pm)).
    { intro I. cbn in N. apply NoDup_remove_2 in N. apply N, in_or_app. left; exact I. }
    rewrite match_var by (eauto). cbn [blank_head_ok]. destruct (is_sameq (head_ex e) (ESym h)) eqn:K.
    + right. exists [(x, e)], (pm ++ [(x, e)]). cbn [fst snd].
      split; [reflexivity|]. split; [apply F_var_of, K|]. split; [apply thin_refl|]. split; [|left; reflexivity].
      pose proof (update_self (pm ++ [(x, e)]) []) as Q. rewrite app_nil_r in Q. apply Q. unfold nodupk. rewrite map_app. exact N.
    + left. split; [reflexivity|]. intros bs F. apply fits_var_of in F as [_ F]. unfold head_is in F. congruence.
  - rewrite match_atom by exact A. destruct (is_expr e) eqn:Ie; [|destruct (is_sameq e a) eqn:K]; cbn [negb andb fst snd].
    + left. split; [reflexivity|]. intros bs F. apply (fits_atom a e bs A) in F as [_ [F _]]. congruence.
    + right. exists [], []. split; [reflexivity|]. split; [apply F_atom; assumption|].
      split; [apply thin_nil|]. cbn [snd pd_update fold_left]. rewrite app_nil_r. auto.
    + left. split; [reflexivity|]. intros bs F. apply (fits_atom a e bs A) in F as [_ [_ F]]. congruence.
  - assert (IH' : forall p, In p ps -> simple env p = true /\ ok_at env p).
    { intros p Hp. split; [apply Hps, Hp|]. apply IH; [|apply Hps, Hp]. pose proof (in_size p (ESym g :: ps) (or_intror Hp)). lia. }
    rewrite names_node in N by exact Hg.
    assert (Node : forall la, decided pm (EExpr (ESym g :: ps)) (EExpr la) (match_iter env (EExpr la) (EExpr (ESym g :: ps)) pm)).
    { intro la. rewrite match_node by assumption. cbv iota.
      assert (Whole : (forall t, la <> ESym g :: t) -> decided pm (EExpr (ESym g :: ps)) (EExpr la)
         (seq_match (match_iter env) env la (forms_of env "Sequence"%string (ESym g :: ps)) false "Sequence"%string pm, pm)).
      { intros _. destruct (seq_step env "Sequence"%string (ESym g :: ps) la pm) as [[E F]|[bs [F [Hk E]]]].
        - discriminate.
        - intros p [<-|Hp]; [|apply IH', Hp]. split; [reflexivity|]. apply IH; [|reflexivity].
          assert (ex_size (ESym g) < ex_size (EExpr (ESym g :: ps))) by (apply in_size; left; reflexivity). lia.
        - cbn [flat_map pattern_names app]. exact N.
        - left. split; [exact E|]. intros bs Q. apply fits_node in Q; [|exact Hg]. destruct la as [|h es]; [exact Q|].
          destruct Q as [[Q1 Q2] Q3]. apply (F ([] ++ bs)). constructor; [apply F_atom; auto|exact Q3].
        - right. exists bs, (pm ++ bs). split; [exact E|]. rewrite names_node by exact Hg. split; [|split; [exact Hk|split; [|left; reflexivity]]].
          + inversion F as [|p e0 b1 ps0 es b2 F1 F2]; subst. apply fits_atom in F1 as [-> [F1 F3]]; [|reflexivity]. apply F_node; assumption.
          + cbn [snd]. apply update_self. unfold nodupk. rewrite map_app. apply (thin_nodup _ _ _ Hk). exact N. }
      unfold match_parts. destruct la as [|h es]; [apply Whole; discriminate|].
      destruct h as [s|s|z|n0 d0|f0|r0 i0|l0]; try (apply Whole; discriminate).
      destruct (String.eqb_spec s g) as [->|Ns]; [|apply Whole; intros t E; injection E; congruence].
      rewrite Hf, Ho. cbn [negb andb].
      destruct (seq_step env g ps es pm Hne IH' N) as [[E F]|[bs [F [Hk E]]]].
      - left. split; [exact E|]. intros bs Q. apply fits_node in Q; [|exact Hg]. destruct Q as [_ Q]. exact (F bs Q).
      - right. exists bs, (pm ++ bs). split; [exact E|]. rewrite names_node by exact Hg. split; [|split; [exact Hk|split; [|left; reflexivity]]].
        + apply F_node; [exact Hg|reflexivity|apply sameq_refl|exact F].
        + cbn [snd]. apply update_self. unfold nodupk. rewrite map_app. apply (thin_nodup _ _ _ Hk). exact N. }
    destruct e as [s|s|z|n0 d0|f0|r0 i0|l0].
    7: apply Node.
    4: { rewrite match_node by assumption. cbv iota. specialize (Node [sys "Rational"; EInt n0; EInt d0]).
         destruct (match_iter env (EExpr [sys "Rational"; EInt n0; EInt d0]) (EExpr (ESym g :: ps)) pm) as [ms pm1].
         destruct Node as [[E F]|[bs [m [E [F K]]]]]; cbn [fst snd] in E; subst ms.
         - left. split; [reflexivity|]. intros bs Q. apply fits_node in Q; [|exact Hg]. exact (F bs Q).
         - right. exists bs, m. split; [reflexivity|]. split; [apply F_rat; assumption|exact K]. }
    5: { rewrite match_node by assumption. cbv iota. specialize (Node [sys "Complex"; r0; i0]).
         destruct (match_iter env (EExpr [sys "Complex"; r0; i0]) (EExpr (ESym g :: ps)) pm) as [ms pm1].
         destruct Node as [[E F]|[bs [m [E [F K]]]]]; cbn [fst snd] in E; subst ms.
         - left. split; [reflexivity|]. intros bs Q. apply fits_node in Q; [|exact Hg]. exact (F bs Q).
         - right. exists bs, m. split; [reflexivity|]. split; [apply F_cplx; assumption|exact K]. }
    all: rewrite match_node by assumption; cbv iota;
      match goal with |- decided _ _ ?x _ => destruct (is_sameq x (EExpr (ESym g :: ps))) eqn:K end; 
      [|left; split; [reflexivity|]; intros bs Q; apply fits_node in Q; [|exact Hg]; destruct Q as [_ Q]; congruence].
    all: right; exists [], []; (split; [reflexivity|]); (split; [apply F_clash; auto|]); (split; [apply thin_nil|]);
      cbn [snd pd_update fold_left]; rewrite app_nil_r; auto.
Qed.

(* matching a simple pattern: no match if nothing fits, otherwise exactly one
   match, with the bindings of the instance *)
Lemma match_simple env p e : simple env p = true -> NoDup (pattern_names p) ->
  (fst (match_iter env e p []) = [] /\ forall bs, ~ fits p e bs) \/
  exists bs, fst (match_iter env e p []) = [bs] /\ fits p e bs.
Proof.
  intros H N. destruct (all_ok env (S (ex_size p)) p (Nat.lt_succ_diag_r _) H e []) as [K|[bs [m [E [F [_ [_ D]]]]]]]; [exact N|left; exact K|].
  right. exists bs. split; [|exact F]. destruct D as [->|[-> ->]]; exact E.
Qed.

(* the bindings are determined by the instance *)
Lemma fits_fun : forall p e bs, fits p e bs -> forall bs', fits p e bs' -> bs' = bs.
Proof.
  intros p e bs H. induction H using fits_ind2 with (P0 := fun ps es bs _ => forall bs', fits_list ps es bs' -> bs' = bs); intros b0 Q.
  - apply fits_blank in Q. exact Q.
  - apply fits_blank_of in Q. tauto.
  - apply fits_var in Q. exact Q.
  - apply fits_var_of in Q. tauto.
  - apply fits_atom in Q; tauto.
  - apply fits_node in Q; [|assumption]. destruct e; try discriminate; tauto.
  - apply fits_node in Q; [|assumption]. apply IHfits, Q.
  - apply fits_node in Q; [|assumption]. apply IHfits, Q.
  - apply fits_node in Q; [|assumption]. apply IHfits, Q.
  - inversion Q. reflexivity.
  - inversion Q; subst. f_equal; auto.
Qed.
