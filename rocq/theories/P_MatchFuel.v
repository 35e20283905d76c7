(* parse_form against the specification's view of a pattern, and the recursion
   of the matcher: enough fuel makes match_iter satisfy the recursive equation
   of NewMatchIter. *)
From Verif Require Import M_Syntax M_Hash M_Alloc M_Match S_Match.
Open Scope nat_scope.

Lemma args_of_some e h l : args_of e h = Some l -> e = EExpr (ESym h :: l).
Proof.
  unfold args_of, head_assertion. destruct e as [| | | | | |[|[s| | | | | |] t]]; try discriminate.
  destruct (String.eqb_spec s h); [|discriminate]. intro E; injection E as ->. congruence.
Qed.
Lemma args_of_expr s l h : args_of (EExpr (ESym s :: l)) h = if String.eqb s h then Some l else None.
Proof. unfold args_of, head_assertion. destruct (String.eqb s h); reflexivity. Qed.

Lemma size_cons x l : ex_size (EExpr (x :: l)) = ex_size x + ex_size (EExpr l).
Proof. rewrite !ex_size_expr. unfold list_size. cbn. lia. Qed.
Lemma size_nil : ex_size (EExpr []) = 1. Proof. reflexivity. Qed.
Lemma size_sym s : ex_size (ESym s) = 1. Proof. reflexivity. Qed.
Lemma size_sys s : ex_size (sys s) = 1. Proof. reflexivity. Qed.
Ltac sizes := repeat rewrite ?size_cons, ?size_nil, ?size_sym, ?size_sys in *.

(* ---- parse_form = view ---- *)
Definition peel_opt (p : ex) := match args_of p nOptional with Some (q :: r) => Some (q, r) | _ => None end.
Definition peel_test (p : ex) := match args_of p nPatTest with Some (q :: t :: _) => Some (q, t) | _ => None end.
Definition peel_name (p : ex) := match args_of p nPattern with Some (ESym s :: q :: _) => Some (s, q) | _ => None end.

Definition or_else {A B} (o : option A) (f : A -> B) (d : B) : B := match o with Some x => f x | None => d end.
Lemma view_peel p : view p =
  let p1 := match peel_opt p with Some (q, _) => q | None => p end in
  let p2 := match peel_test p1 with Some (q, _) => q | None => p1 end in
  let p3 := match peel_name p2 with Some (_, q) => q | None => p2 end in
  CView (match peel_opt p with Some (_, r) => Some (hd_error r) | None => None end)
        (match peel_test p1 with Some (_, t) => Some t | None => None end)
        (match peel_name p2 with Some (x, _) => Some x | None => None end) p3.
Proof.
  unfold view.
  assert (A1 : match p with EExpr (ESym h :: q :: r) => if String.eqb h nOptional then (q, Some (hd_error r)) else (p, None) | _ => (p, None) end
     = (match peel_opt p with Some (q, _) => q | None => p end, match peel_opt p with Some (_, r) => Some (hd_error r) | None => None end)).
  { unfold peel_opt. destruct p as [| | | | | |[|[h| | | | | |] [|q r]]]; try reflexivity; rewrite args_of_expr; destruct (String.eqb h nOptional); reflexivity. }
  rewrite A1. cbv zeta. generalize (match peel_opt p with Some (q, _) => q | None => p end). intro p1.
  assert (A2 : match p1 with EExpr (ESym h :: q :: t :: _) => if String.eqb h nPatTest then (q, Some t) else (p1, None) | _ => (p1, None) end
     = (match peel_test p1 with Some (q, _) => q | None => p1 end, match peel_test p1 with Some (_, t) => Some t | None => None end)).
  { unfold peel_test. destruct p1 as [| | | | | |[|[h| | | | | |] [|q [|t r]]]]; try reflexivity; rewrite args_of_expr; destruct (String.eqb h nPatTest); reflexivity. }
  rewrite A2. generalize (match peel_test p1 with Some (q, _) => q | None => p1 end). intro p2.
  assert (A3 : match p2 with EExpr (ESym h :: ESym x :: q :: _) => if String.eqb h nPattern then (q, Some x) else (p2, None) | _ => (p2, None) end
     = (match peel_name p2 with Some (_, q) => q | None => p2 end, match peel_name p2 with Some (x, _) => Some x | None => None end)).
  { unfold peel_name. destruct p2 as [| | | | | |[|[h| | | | | |] [|q [|t r]]]]; try reflexivity; rewrite args_of_expr; destruct (String.eqb h nPattern); try reflexivity;
      destruct q; reflexivity. }
  rewrite A3. reflexivity.
Qed.

Lemma to_blank_spec l : to_blank l = EExpr (sys "Blank" :: firstn 1 l).
Proof. destruct l; reflexivity. Qed.

Lemma repeated_spec core l fl sh : core = EExpr (ESym nRepeated :: l) ->
  core_spec fl sh core =
  match parse_repeated l with
  | Some (p, None) => (1, None, p)
  | Some (p, Some (lo, hi)) => (lo, Some hi, p)
  | None => (1, Some 1, core)
  end.
Proof.
  intros ->. cbn [core_spec].
  change (String.eqb nRepeated nBNS) with false. change (String.eqb nRepeated nBS) with false.
  change (String.eqb nRepeated nBlank) with false. change (String.eqb nRepeated nRepeated) with true. cbv iota.
  unfold parse_repeated. destruct l as [|q [|sp r]]; try reflexivity.
  destruct sp as [| | | | | |[|[lst| | | | | |] sl]]; try reflexivity.
  rewrite args_of_expr. destruct sl as [|x [|y sl]].
  - destruct (String.eqb lst nList); reflexivity.
  - destruct x; destruct (String.eqb lst nList); try reflexivity.
    destruct (Z.eqb val (-1)); [reflexivity|]. destruct (Z.ltb val 0); reflexivity.
  - destruct x; destruct (String.eqb lst nList); reflexivity.
Qed.

Definition pform_of (env : menv) (flat : bool) (f : string) (v : cview) : pform :=
  PForm (fst (bounds env flat f v)) (snd (bounds env flat f v)) (element_pattern flat f v)
        (single_blank flat (cv_core v)) (flat_blank flat (cv_core v))
        (match cv_opt v with Some _ => true | None => false end) (opt_default env f v) (cv_name v).

Lemma args_of_neq s l h : s <> h -> args_of (EExpr (ESym s :: l)) h = None.
Proof. intro N. rewrite args_of_expr. destruct (String.eqb_spec s h); [contradiction|reflexivity]. Qed.
Lemma args_of_eq s l : args_of (EExpr (ESym s :: l)) s = Some l.
Proof. rewrite args_of_expr, String.eqb_refl. reflexivity. Qed.

Lemma blank_args core : match args_of core nBlank with Some _ => true | None => false end =
  match core with EExpr (ESym h :: _) => String.eqb h nBlank | _ => false end.
Proof. destruct core as [| | | | | |[|[h| | | | | |] l]]; try reflexivity. rewrite args_of_expr. destruct (String.eqb h nBlank); reflexivity. Qed.
Lemma flat_blank_eq fl core : match args_of core nBlank with Some _ => true | None => false end && fl = flat_blank fl core.
Proof. rewrite blank_args. destruct core as [| | | | | |[|[h| | | | | |] l]]; reflexivity. Qed.
Lemma single_blank_eq fl core : match args_of core nBlank with Some _ => true | None => false end && negb (flat_blank fl core) = single_blank fl core.
Proof. rewrite blank_args. destruct core as [| | | | | |[|[h| | | | | |] l]]; try reflexivity. unfold flat_blank, single_blank. destruct (String.eqb h nBlank), fl; reflexivity. Qed.

Lemma parse_form_view env lhs fl sh : parse_form lhs fl sh (me_default env sh) = pform_of env fl sh (view lhs).
Proof.
  rewrite view_peel. unfold parse_form. fold (peel_opt lhs).
  destruct (peel_opt lhs) as [[p r]|] eqn:Eo; cbv zeta.
  - fold (peel_test p). destruct (peel_test p) as [[p2 t]|] eqn:Et.
    + fold (peel_name p2). destruct (peel_name p2) as [[x q]|] eqn:En; rewrite flat_blank_eq, single_blank_eq; unfold pform_of, bounds, opt_default, element_pattern;
        cbn [cv_opt cv_test cv_name cv_core]; rewrite andb_false_r; destruct r; cbn [hd_error]; try reflexivity;
        destruct (flat_blank _ _); try destruct (me_default env sh); reflexivity.
    + fold (peel_name p). destruct (peel_name p) as [[x q]|] eqn:En; rewrite flat_blank_eq, single_blank_eq; unfold pform_of, bounds, opt_default, element_pattern;
        cbn [cv_opt cv_test cv_name cv_core]; rewrite andb_true_r; destruct r; cbn [hd_error]; try reflexivity;
        destruct (flat_blank _ _); try destruct (me_default env sh); reflexivity.
  - fold (peel_test lhs).
    set (p2 := match peel_test lhs with Some (q, _) => q | None => lhs end). fold (peel_name p2).
    set (core := match peel_name p2 with Some (_, q) => q | None => p2 end).
    assert (W : forall f, match peel_test lhs with Some (_, t) => EExpr [sys "PatternTest"; f; t] | None => f end =
                 match (match peel_test lhs with Some (_, t) => Some t | None => None end) with Some t => EExpr [sys "PatternTest"; f; t] | None => f end).
    { intro. destruct (peel_test lhs) as [[? ?]|]; reflexivity. }
    unfold pform_of, bounds, opt_default, element_pattern. cbn [cv_opt cv_test cv_name cv_core].
    rewrite !(flat_blank_eq fl core), !(single_blank_eq fl core).
    generalize (match peel_name p2 with Some (x, _) => Some x | None => None end). intro pn.
    clearbody core. clear p2.
    destruct (args_of core nBNS) as [l|] eqn:E1.
    { apply args_of_some in E1 as ->. rewrite W, to_blank_spec. reflexivity. }
    destruct (args_of core nBlank) as [l|] eqn:E2.
    { apply args_of_some in E2 as ->. cbn [core_spec flat_blank single_blank].
      change (String.eqb nBlank nBNS) with false. change (String.eqb nBlank nBS) with false.
      change (String.eqb nBlank nBlank) with true. cbv iota. rewrite !andb_true_l.
      destruct fl; rewrite !W; [|reflexivity].
      destruct l as [|[g| | | | | |] t]; cbn [fst snd]; try reflexivity.
      destruct (String.eqb g sh); reflexivity. }
    destruct (args_of core nRepeated) as [l|] eqn:E3.
    { pose proof (args_of_some _ _ _ E3) as C. pose proof (repeated_spec core l fl sh C) as Q.
      rewrite Q. destruct (parse_repeated l) as [[p [[lo hi]|]]|]; rewrite !W; reflexivity. }
    destruct (args_of core nRepeatedNull) as [l|] eqn:E4.
    { apply args_of_some in E4 as ->. destruct l as [|p [|p' l]]; rewrite !W; reflexivity. }
    destruct (args_of core nBS) as [l|] eqn:E5.
    { apply args_of_some in E5 as ->. rewrite W, to_blank_spec. reflexivity. }
    rewrite W.
    assert (Q : core_spec fl sh core = (1, Some 1, core)).
    { destruct core as [| | | | | |[|[h| | | | | |] l]]; try reflexivity.
      rewrite args_of_expr in E1, E2, E3, E4, E5. cbn [core_spec].
      destruct (String.eqb h nBNS); [discriminate|]. destruct (String.eqb h nBS); [discriminate|].
      destruct (String.eqb h nBlank); [discriminate|]. destruct (String.eqb h nRepeated); [discriminate|].
      destruct (String.eqb h nRepeatedNull); [discriminate|]. reflexivity. }
    rewrite Q. reflexivity.
Qed.

Lemma seq_value_view env fl sh v s : seq_value env (pform_of env fl sh v) s sh = name_value env fl sh v s.
Proof.
  unfold seq_value, name_value, pform_of. cbn [pf_isblank pf_optional pf_impliedbs pf_default].
  destruct s as [|x [|y t]].
  - unfold opt_default. destruct (cv_opt v) as [[d|]|]; cbn; try reflexivity.
    + destruct (me_default env sh); [reflexivity|]. destruct (flat_blank fl (cv_core v)); reflexivity.
    + destruct (flat_blank fl (cv_core v)); reflexivity.
  - destruct (single_blank fl (cv_core v) || me_oneid env sh || match cv_opt v with Some _ => true | None => false end); [reflexivity|].
    destruct (flat_blank fl (cv_core v)); reflexivity.
  - destruct (cv_opt v), (opt_default env sh v), (flat_blank fl (cv_core v)); reflexivity.
Qed.

(* ---- sizes ---- *)
Lemma core_spec_size fl sh core : ex_size (snd (core_spec fl sh core)) <= ex_size core.
Proof.
  assert (B : forall h l, ex_size (EExpr (sys "Blank" :: firstn 1 l)) <= ex_size (EExpr (ESym h :: l))).
  { intros h [|x t]; cbn [firstn]; sizes; [lia|]. pose proof (ex_size_pos (EExpr t)). lia. }
  unfold core_spec. destruct core as [| | | | | |[|[h| | | | | |] l]]; try reflexivity.
  destruct (String.eqb h nBNS); [apply B|]. destruct (String.eqb h nBS); [apply B|].
  destruct (String.eqb h nBlank).
  { destruct fl; [|reflexivity]. destruct l as [|[g| | | | | |] t]; try reflexivity. destruct (String.eqb g sh); [|reflexivity].
    cbn [snd firstn]. sizes. lia. }
  destruct (String.eqb h nRepeated).
  { destruct l as [|q [|sp r]]; try (cbn [snd]; sizes; lia).
    destruct sp as [| | | | | |[|[lst| | | | | |] [|[| |k| | | |] [|]]]]; try (cbn [snd]; sizes; lia).
    destruct (String.eqb lst nList); [|cbn [snd]; sizes; lia].
    destruct (Z.eqb k (-1)); [cbn [snd]; sizes; lia|]. destruct (Z.ltb k 0); cbn [snd]; sizes; lia. }
  destruct (String.eqb h nRepeatedNull); [|reflexivity].
  destruct l as [|q [|sp r]]; cbn [snd]; sizes; lia.
Qed.

Lemma peel_opt_some p q r : peel_opt p = Some (q, r) -> p = EExpr (ESym nOptional :: q :: r).
Proof. unfold peel_opt. destruct (args_of p nOptional) as [[|x t]|] eqn:A; try discriminate. intro E; injection E as -> ->. apply args_of_some, A. Qed.
Lemma peel_test_some p q t : peel_test p = Some (q, t) -> exists r, p = EExpr (ESym nPatTest :: q :: t :: r).
Proof. unfold peel_test. destruct (args_of p nPatTest) as [[|x [|y z]]|] eqn:A; try discriminate. intro E; injection E as -> ->. exists z. apply args_of_some, A. Qed.
Lemma peel_name_some p x q : peel_name p = Some (x, q) -> exists r, p = EExpr (ESym nPattern :: ESym x :: q :: r).
Proof. unfold peel_name. destruct (args_of p nPattern) as [[|[s| | | | | |] [|y z]]|] eqn:A; try discriminate. intro E; injection E as -> ->. exists z. apply args_of_some, A. Qed.

Lemma element_size fl sh p : ex_size (element_pattern fl sh (view p)) <= ex_size p.
Proof.
  unfold element_pattern. rewrite view_peel. cbv zeta. cbn [cv_opt cv_test cv_core].
  set (p1 := match peel_opt p with Some (q, _) => q | None => p end).
  assert (H1 : ex_size p1 <= ex_size p).
  { subst p1. destruct (peel_opt p) as [[q r]|] eqn:E; [|lia]. apply peel_opt_some in E as ->. sizes. lia. }
  set (p2 := match peel_test p1 with Some (q, _) => q | None => p1 end).
  set (p3 := match peel_name p2 with Some (_, q) => q | None => p2 end).
  assert (H3 : ex_size p3 <= ex_size p2).
  { subst p3. destruct (peel_name p2) as [[x q]|] eqn:E; [|lia]. apply peel_name_some in E as [r ->]. sizes. lia. }
  set (c := match match peel_opt p with Some (_, r) => Some (hd_error r) | None => None end with Some _ => p3 | None => snd (core_spec fl sh p3) end).
  assert (Hc : ex_size c <= ex_size p3).
  { subst c. destruct (peel_opt p) as [[q r]|]; [lia|apply core_spec_size]. }
  clearbody c. clearbody p3. subst p2. destruct (peel_test p1) as [[q t]|] eqn:E.
  - apply peel_test_some in E as [r E]. rewrite E in H1. sizes. pose proof (ex_size_pos (EExpr r)). lia.
  - lia.
Qed.

(* ---- extensionality of the step in the recursive calls ---- *)
Definition agree (n : nat) (M M' : matcher) : Prop := forall c f pm, ex_size f < n -> M c f pm = M' c f pm.

Lemma flat_map_ext' {A B} (f g : A -> list B) l : (forall x, In x l -> f x = g x) -> flat_map f l = flat_map g l.
Proof. intro H. induction l as [|x t IH]; cbn; [reflexivity|]. rewrite (H x (or_introl eq_refl)), IH; [reflexivity|]. intros y Hy. apply H. right. exact Hy. Qed.

Lemma ami_comps_ext n M M' form : agree n M M' -> ex_size form < n -> forall comps pm,
  ami_comps M form comps pm = ami_comps M' form comps pm.
Proof.
  intros A S. induction comps as [|c r IH]; intro pm; cbn [ami_comps]; [reflexivity|].
  rewrite (A c form pm S). destruct (M' c form pm) as [ms pm1]. apply flat_map_ext'. intros m _. apply IH.
Qed.
Lemma ami_forms_ext n M M' env sh : agree n M M' -> forall bl, Forall (fun x => ex_size (pf_form (fst x)) < n) bl -> forall pm,
  ami_forms M env sh bl pm = ami_forms M' env sh bl pm.
Proof.
  intros A bl H. induction H as [|[lhs comps] t Hx Ht IH]; intro pm; cbn [ami_forms]; [reflexivity|].
  cbn [fst] in Hx. rewrite (ami_comps_ext n M M' _ A Hx). apply flat_map_ext'. intros pm1 _.
  destruct (define_sequence env lhs comps sh pm1); [apply IH|reflexivity].
Qed.
Lemma filter_ext' {A} (f g : A -> bool) l : (forall x, f x = g x) -> filter f l = filter g l.
Proof. intro H. induction l as [|x t IH]; cbn; [reflexivity|]. rewrite H, IH. reflexivity. Qed.

Lemma odfs_ext fm fm' idx : (forall i j, fm i j = fm' i j) -> forall st t, odfs fm idx st t = odfs fm' idx st t.
Proof.
  intro H. induction idx as [|f t IH]; intros st tk; cbn [odfs]; [reflexivity|].
  rewrite (filter_ext' _ (fun i => negb (nth i tk false) && fm' f i)) by (intro; rewrite H; reflexivity).
  apply flat_map_ext'. intros i _. rewrite IH. reflexivity.
Qed.
Lemma assignments_ext forms fm fm' o l : (forall i j, fm i j = fm' i j) -> assignments forms fm o l = assignments forms fm' o l.
Proof. intro H. unfold assignments. apply flat_map_ext'. intros al _. destruct o; [|reflexivity]. rewrite (odfs_ext fm fm' _ H). reflexivity. Qed.

Lemma combine_fst_forall {A B} (P : A -> Prop) (l : list A) (l' : list B) : Forall P l -> Forall (fun x => P (fst x)) (combine l l').
Proof. intro H. revert l'. induction H as [|x t Hx Ht IH]; intros [|y l']; cbn; constructor; auto. Qed.

Lemma seq_match_ext n M M' env comps forms o sh pm : agree n M M' -> Forall (fun f => ex_size (pf_form f) < n) forms ->
  seq_match M env comps forms o sh pm = seq_match M' env comps forms o sh pm.
Proof.
  intros A F. unfold seq_match.
  assert (E1 : enough_matches M comps forms = enough_matches M' comps forms).
  { unfold enough_matches. induction F as [|f t Hf Ht IH]; cbn [forallb]; [reflexivity|].
    rewrite IH. f_equal. rewrite (filter_ext' _ (fun c => match fst (M' c (pf_form f) []) with [] => false | _ => true end)); [reflexivity|].
    intro c. rewrite (A c (pf_form f) [] Hf). reflexivity. }
  rewrite E1. destruct (enough_matches M' comps forms); [|reflexivity].
  rewrite (assignments_ext _ (form_match M comps forms) (form_match M' comps forms)).
  - apply flat_map_ext'. intros assn _. apply (ami_forms_ext n); [exact A|]. apply combine_fst_forall with (P := fun f => ex_size (pf_form f) < n). exact F.
  - intros i j. unfold form_match. destruct (nth_error forms i) as [f|] eqn:E; [|reflexivity].
    destruct (nth_error comps j) as [c|]; [|reflexivity].
    apply nth_error_In in E. rewrite Forall_forall in F. rewrite (A c (pf_form f) [] (F f E)). reflexivity.
Qed.

Lemma forms_size n env fl sh lb : (forall p, In p lb -> ex_size p < n) ->
  Forall (fun f => ex_size (pf_form f) < n) (map (fun p => parse_form p fl sh (me_default env sh)) lb).
Proof.
  intro H. apply Forall_forall. intros f Hf. apply in_map_iff in Hf as [p [<- Hp]].
  rewrite parse_form_view. cbn [pform_of pf_form]. specialize (H p Hp). pose proof (element_size fl sh p). lia.
Qed.
Lemma in_size p l : In p l -> ex_size p < ex_size (EExpr l).
Proof. intro H. rewrite ex_size_expr. pose proof (list_size_in p l H). lia. Qed.

Lemma match_parts_ext M M' env fo la lb pm n : agree n M M' -> ex_size (EExpr lb) <= n ->
  match_parts M env fo la lb pm = match_parts M' env fo la lb pm.
Proof.
  intros A S. unfold match_parts.
  assert (Hlb : forall p, In p lb -> ex_size p < n) by (intros p Hp; pose proof (in_size p lb Hp); lia).
  assert (D : seq_match M env la (map (fun p => parse_form p false "Sequence" (me_default env "Sequence")) lb) false "Sequence" pm =
              seq_match M' env la (map (fun p => parse_form p false "Sequence" (me_default env "Sequence")) lb) false "Sequence" pm).
  { apply (seq_match_ext n); [exact A|apply forms_size, Hlb]. }
  destruct la as [|[s| | | | | |] ta]; try exact D. destruct lb as [|[s'| | | | | |] tb]; try exact D.
  destruct (String.eqb s s'); [|exact D].
  apply (seq_match_ext n); [exact A|]. apply forms_size. intros p Hp. apply Hlb. right. exact Hp.
Qed.

(* sizes of the two arguments, for the recursion *)
Definition agree2 (m : nat) (M M' : matcher) : Prop := forall c f pm, pat_fuel c f < m -> M c f pm = M' c f pm.

Lemma agree2_agree m n M M' : agree2 m M M' -> 2 * n <= m -> agree n M M'.
Proof. intros A L c f pm H. apply A. unfold pat_fuel. destruct (is_num_atom c); lia. Qed.

Lemma verbatim_size a b b' : verbatim_op a b = Some b' -> ex_size b' <= ex_size b.
Proof.
  unfold verbatim_op. destruct a as [| | | | | |[|h ta]]; try discriminate.
  destruct b as [| | | | | |[|[| | | | | |[|[s| | | | | |] [|v [|]]]] args]]; try discriminate.
  destruct (String.eqb s nVerbatim && is_sameq h v); [|discriminate]. intro E; injection E as <-. sizes. lia.
Qed.
Lemma verbatim_num a b : is_num_atom a = true -> verbatim_op a b = None.
Proof. destruct a; try discriminate; reflexivity. Qed.

Lemma match_normal_ext M M' env a b pm : agree2 (pat_fuel a b) M M' ->
  match_normal M env a b pm = match_normal M' env a b pm.
Proof.
  intro A. unfold match_normal.
  destruct (verbatim_op a b) as [b'|] eqn:V.
  - pose proof (verbatim_size a b b' V) as Sz.
    assert (N : is_num_atom a = false) by (destruct (is_num_atom a) eqn:Q; [rewrite (verbatim_num a b Q) in V; discriminate|reflexivity]).
    destruct (is_blank_type_only b'); [reflexivity|].
    assert (Ag : agree (ex_size b') M M') by (apply (agree2_agree (pat_fuel a b)); [exact A|unfold pat_fuel; rewrite N; lia]).
    destruct a as [s|s|z|n d|f|r i|la]; try discriminate N.
    all: destruct (assume_head env _ b') as [a'|] eqn:E; [rewrite (match_parts_ext M M' env true _ _ pm _ Ag); [reflexivity|]|].
    all: try (destruct b' as [| | | | | |lb]; cbn in E; try discriminate E; cbn [parts_of]; reflexivity).
    all: destruct b' as [| | | | | |lb]; try reflexivity.
    rewrite (match_parts_ext M M' env true la lb pm _ Ag); reflexivity.
  - destruct (is_blank_type_only b); [reflexivity|].
    assert (Ag : agree (ex_size b) M M') by (apply (agree2_agree (pat_fuel a b)); [exact A|unfold pat_fuel; lia]).
    destruct a as [s|s|z|n d|f|r i|la].
    4,6: destruct b as [| | | | | |lb]; try reflexivity; rewrite A; [reflexivity|unfold pat_fuel; cbn [is_num_atom]; lia].
    all: destruct (assume_head env _ b) as [a'|] eqn:E; [rewrite (match_parts_ext M M' env false _ _ pm _ Ag); [reflexivity|]|].
    all: try (destruct b as [| | | | | |lb]; cbn in E; try discriminate E; cbn [parts_of]; reflexivity).
    all: destruct b as [| | | | | |lb]; try reflexivity.
    rewrite (match_parts_ext M M' env false la lb pm _ Ag); reflexivity.
Qed.

Lemma match_alts_ext M M' a ps : (forall p pm, In p ps -> M a p pm = M' a p pm) -> forall pm, match_alts M a ps pm = match_alts M' a ps pm.
Proof.
  induction ps as [|p t IH]; intros H pm; cbn [match_alts]; [reflexivity|].
  rewrite (H p pm (or_introl eq_refl)). destruct (M' a p pm) as [ms pm1]. destruct ms; [|reflexivity].
  apply IH. intros q qm Hq. apply H. right. exact Hq.
Qed.

Lemma mi_step_ext M M' env a b pm : agree2 (pat_fuel a b) M M' -> mi_step M env a b pm = mi_step M' env a b pm.
Proof.
  intro A.
  assert (N : forall qm, match_normal M env a b qm = match_normal M' env a b qm) by (intro; apply match_normal_ext, A).
  unfold mi_step. destruct b as [| | | | | |[|[s| | | | | |] args]]; try apply N.
  assert (P : forall p qm, In p args -> M a p qm = M' a p qm).
  { intros p qm Hp. apply A. unfold pat_fuel. rewrite size_cons, size_sym. pose proof (in_size p args Hp). lia. }
  destruct (String.eqb s nExcept).
  { destruct args as [|p [|q [|]]]; try apply N.
    - rewrite (P p pm) by (left; reflexivity). reflexivity.
    - rewrite (P p pm) by (left; reflexivity). destruct (M' a p pm) as [ms pm1]. destruct ms; [|reflexivity].
      rewrite (P q pm1) by (right; left; reflexivity). reflexivity. }
  destruct (String.eqb s nAlt); [apply match_alts_ext, P|].
  destruct (String.eqb s nPatTest).
  { destruct args as [|p [|q [|]]]; try apply N. rewrite (P p pm) by (left; reflexivity). reflexivity. }
  destruct (String.eqb s nCondition).
  { destruct args as [|p [|q [|]]]; try apply N. rewrite (P p pm) by (left; reflexivity). destruct (M' a p pm) as [ms pm1].
    destruct (filter _ ms); [apply N|reflexivity]. }
  destruct (String.eqb s nOptional).
  { destruct args as [|p [|q]]; try apply N. rewrite (P p pm) by (left; reflexivity). destruct (M' a p pm) as [ms pm1].
    destruct ms; [apply N|reflexivity]. }
  destruct (String.eqb s nHoldPattern); [|apply N].
  destruct args as [|p [|q]]; try apply N. apply P. left. reflexivity.
Qed.

Lemma mi_fuel env : forall k k' a b pm, pat_fuel a b < k -> pat_fuel a b < k' -> mi k env a b pm = mi k' env a b pm.
Proof.
  induction k as [|k IH]; intros k' a b pm H H'; [lia|]. destruct k' as [|k']; [lia|].
  cbn [mi]. apply mi_step_ext. intros c f qm L. apply IH; lia.
Qed.

(* NewMatchIter satisfies its own recursive equation *)
Lemma match_iter_eq env a b pm : match_iter env a b pm = mi_step (match_iter env) env a b pm.
Proof.
  unfold match_iter at 1. change (mi (S (pat_fuel a b)) env a b pm) with (mi_step (mi (pat_fuel a b) env) env a b pm).
  apply mi_step_ext. intros c f qm L. unfold match_iter. apply mi_fuel; lia.
Qed.
