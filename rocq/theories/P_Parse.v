From Verif Require Import M_Syntax M_Parse S_Matrix P_Matrix S_Parse.
Open Scope nat_scope.

(* strings *)
Lemma app_nil_s s : append s "" = s.
Proof. induction s as [|c s IH]; cbn; [reflexivity|now rewrite IH]. Qed.
Lemma app_assoc_s a b c : append (append a b) c = append a (append b c).
Proof. induction a as [|x a IH]; cbn; [reflexivity|now rewrite IH]. Qed.
Lemma sysname_inj a b : sysname a = sysname b -> a = b.
Proof. unfold sysname. cbn. intros E. now inversion E. Qed.

Lemma has_tick_spec n : has_tick n = true <-> qualified n.
Proof.
  split.
  - induction n as [|c n IH]; cbn; [discriminate|]. destruct (Ascii.eqb_spec c "`") as [->|N]; cbn [orb].
    + intros _. exists EmptyString, n. reflexivity.
    + intros H. destruct (IH H) as (a & b & ->). exists (String c a), b. reflexivity.
  - intros (a & b & ->). induction a as [|c a IH]; [reflexivity|]. cbn [append has_tick] in IH |- *. rewrite IH. apply orb_true_r.
Qed.
Lemma has_tick_false n : has_tick n = false <-> ~ qualified n.
Proof. rewrite <- has_tick_spec. destruct (has_tick n); split; congruence. Qed.
Lemma is_def_spec n d : is_def n d = true <-> In n d.
Proof.
  unfold is_def. rewrite existsb_exists. split.
  - intros (x & Hx & E). apply String.eqb_eq in E. now subst.
  - intros H. exists n. split; [assumption|apply String.eqb_refl].
Qed.
Lemma is_def_false n d : is_def n d = false <-> ~ In n d.
Proof. rewrite <- is_def_spec. destruct (is_def n d); split; congruence. Qed.
Lemma mark_in n d x : In x (mark_seen n d) <-> x = n \/ In x d.
Proof.
  unfold mark_seen. destruct (is_def n d) eqn:E.
  - apply is_def_spec in E. split; [now right|intros [->|H]; assumption].
  - cbn. split; intros [H|H]; auto.
Qed.

Lemma on_path_some path d n r : on_path path d n = Some r ->
  exists pre c post, path = pre ++ c :: post /\ r = append c n /\ In (append c n) d /\ forall c', In c' pre -> ~ In (append c' n) d.
Proof.
  induction path as [|c t IH]; cbn [on_path]; [discriminate|].
  destruct (is_def (append c n) d) eqn:E.
  - intros H. injection H as <-. exists [], c, t. apply is_def_spec in E. split; [reflexivity|]. split; [reflexivity|]. split; [assumption|]. intros c' [].
  - intros H. destruct (IH H) as (pre & c0 & post & -> & -> & Hi & Hn). exists (c :: pre), c0, post.
    split; [reflexivity|]. split; [reflexivity|]. split; [assumption|].
    apply is_def_false in E. intros c' [<-|Hc]; [assumption|]. now apply Hn.
Qed.
Lemma on_path_none path d n : on_path path d n = None <-> forall c, In c path -> ~ In (append c n) d.
Proof.
  induction path as [|c t IH]; cbn [on_path]; [split; [intros _ c []|reflexivity]|].
  destruct (is_def (append c n) d) eqn:E.
  - split; [discriminate|]. intros H. exfalso. apply is_def_spec in E. exact (H c (or_introl eq_refl) E).
  - apply is_def_false in E. rewrite IH. split.
    + intros H c' [<-|Hc]; [assumption|now apply H].
    + intros H c' Hc. apply H. now right.
Qed.
Lemma on_path_ext path d d' n : (forall x, In x d <-> In x d') -> on_path path d n = on_path path d' n.
Proof.
  intros H. induction path as [|c t IH]; cbn [on_path]; [reflexivity|].
  assert (E : is_def (append c n) d = is_def (append c n) d').
  { destruct (is_def (append c n) d) eqn:A, (is_def (append c n) d') eqn:B; try reflexivity.
    - apply is_def_spec in A. apply is_def_false in B. exfalso. apply B, H, A.
    - apply is_def_spec in B. apply is_def_false in A. exfalso. apply A, H, B. }
  rewrite E, IH. reflexivity.
Qed.

Lemma resolve_sym_spec ctx path d n r d' : resolve_sym ctx path d n = (r, d') ->
  names_symbol ctx path d n r /\ forall x, In x d' <-> In x d \/ x = r.
Proof.
  unfold resolve_sym. destruct (has_tick n) eqn:T.
  - intros E. injection E as <- <-. split; [constructor; now apply has_tick_spec|].
    intros x. rewrite mark_in. tauto.
  - apply has_tick_false in T. destruct (on_path path d n) as [r0|] eqn:P.
    + intros E. injection E as <- <-. destruct (on_path_some _ _ _ _ P) as (pre & c & post & -> & -> & Hi & Hn).
      split; [now apply ns_path with pre post|]. intros x. split; [now left|intros [H| ->]; assumption].
    + intros E. injection E as <- <-. split; [constructor; [assumption|now apply on_path_none]|].
      intros x. rewrite mark_in. tauto.
Qed.
Lemma names_symbol_ext ctx path d d' n r : (forall x, In x d <-> In x d') -> names_symbol ctx path d n r -> names_symbol ctx path d' n r.
Proof.
  intros H N. destruct N as [Q|pre c post Q E I N|Q N].
  - now constructor.
  - apply ns_path with pre post; [assumption|assumption|now apply H|]. intros c' Hc Hx. apply (N c' Hc). now apply H.
  - constructor; [assumption|]. intros c Hc Hx. apply (N c Hc). now apply H.
Qed.

Definition resolves (ctx : string) (path : list string) (d : names) (e e' : ex) (d' : names) : Prop :=
  shape e' = shape e /\
  length (symbols e') = length (symbols e) /\
  (forall i n, nth_error (symbols e) i = Some n ->
     exists r, nth_error (symbols e') i = Some r /\ names_symbol ctx path (d ++ firstn i (symbols e')) n r) /\
  (forall x, In x d' <-> In x d \/ In x (symbols e')).

Lemma resolves_app ctx path d s1 s1' s2 s2' d1 :
  length s1' = length s1 -> length s2' = length s2 ->
  (forall x, In x d1 <-> In x d \/ In x s1') ->
  (forall i n, nth_error s1 i = Some n -> exists r, nth_error s1' i = Some r /\ names_symbol ctx path (d ++ firstn i s1') n r) ->
  (forall i n, nth_error s2 i = Some n -> exists r, nth_error s2' i = Some r /\ names_symbol ctx path (d1 ++ firstn i s2') n r) ->
  forall i n, nth_error (s1 ++ s2) i = Some n -> exists r, nth_error (s1' ++ s2') i = Some r /\ names_symbol ctx path (d ++ firstn i (s1' ++ s2')) n r.
Proof.
  intros L1 L2 D H1 H2 i n E. destruct (le_lt_dec (length s1) i) as [G|G].
  - rewrite nth_error_app2 in E by lia. destruct (H2 _ _ E) as (r & Er & N). exists r.
    rewrite nth_error_app2 by lia. rewrite L1. split; [assumption|].
    rewrite firstn_app, firstn_all2 by lia. rewrite L1. eapply names_symbol_ext; [|exact N].
    intros x. rewrite !in_app_iff, D. tauto.
  - rewrite nth_error_app1 in E by lia. destruct (H1 _ _ E) as (r & Er & N). exists r.
    rewrite nth_error_app1 by lia. split; [assumption|].
    rewrite firstn_app. replace (i - length s1') with 0 by lia. cbn [firstn]. rewrite app_nil_r. assumption.
Qed.

Lemma resolve_spec ctx path e : forall d e' d', resolve ctx path d e = (e', d') -> resolves ctx path d e e' d'.
Proof.
  induction e as [s|s|z|n dd|f|a1 a2 _ _|l IH] using ex_ind'; intros d e' d' E.
  - cbn [resolve] in E. destruct (resolve_sym ctx path d s) as [r d1] eqn:S0. injection E as <- <-.
    destruct (resolve_sym_spec _ _ _ _ _ _ S0) as [N D]. repeat split.
    + intros [|[|i]] n H; try discriminate. injection H as <-. exists r. split; [reflexivity|].
      cbn [firstn]. rewrite app_nil_r. assumption.
    + intros H. apply D in H. cbn. destruct H as [H| ->]; auto.
    + cbn. intros [H|[<-|[]]]; apply D; auto.
  - injection E as <- <-. repeat split; cbn; try tauto. intros [|i] n H; discriminate.
  - injection E as <- <-. repeat split; cbn; try tauto. intros [|i] n H; discriminate.
  - injection E as <- <-. repeat split; cbn; try tauto. intros [|i] n0 H; discriminate.
  - injection E as <- <-. repeat split; cbn; try tauto. intros [|i] n H; discriminate.
  - injection E as <- <-. repeat split; cbn; try tauto. intros [|i] n H; discriminate.
  - cbn [resolve] in E.
    match type of E with (let (_, _) := ?go l d in _) = _ => set (G := go) in E end.
    assert (HG : forall l, Forall (fun e => forall d e' d', resolve ctx path d e = (e', d') -> resolves ctx path d e e' d') l ->
      forall d l' d', G l d = (l', d') -> resolves ctx path d (EExpr l) (EExpr l') d').
    { clear. intros l F. induction F as [|x t Hx Ht IH]; intros d l' d' E.
      - injection E as <- <-. repeat split; cbn; try tauto. intros [|i] n H; discriminate.
      - unfold G in E. fold G in E. cbn beta iota in E. destruct (resolve ctx path d x) as [x' d1] eqn:E1.
        destruct (G t d1) as [t' d2] eqn:E2. injection E as <- <-.
        destruct (Hx _ _ _ E1) as (S1 & L1 & N1 & D1). destruct (IH _ _ _ E2) as (S2 & L2 & N2 & D2).
        cbn [symbols] in L2, N2, D2. cbn [shape] in S2. injection S2 as S2.
        split; [cbn [shape map]; rewrite S1, S2; reflexivity|].
        cbn [symbols flat_map]. split; [rewrite !app_length, L1, L2; reflexivity|]. split.
        + apply resolves_app with d1; assumption.
        + intros y. rewrite D2, D1, in_app_iff. tauto. }
    destruct (G l d) as [l' d1] eqn:EG. injection E as <- <-. exact (HG l IH d l' d1 EG).
Qed.

(* contexts *)
Lemma context_split a b n m : ~ qualified n -> ~ qualified m ->
  append (append a "`") n = append (append b "`") m -> a = b /\ n = m.
Proof.
  intros Qn Qm. revert b. induction a as [|c a IH]; intros [|c' b] E; cbn in E.
  - now inversion E.
  - inversion E; subst. exfalso. apply Qn. exists b, m. now rewrite app_assoc_s.
  - inversion E; subst. exfalso. apply Qm. exists a, n. now rewrite app_assoc_s.
  - inversion E; subst. destruct (IH b H1) as [-> ->]. split; reflexivity.
Qed.
Lemma context_unique c c' n m : context_name c -> context_name c' -> ~ qualified n -> ~ qualified m ->
  append c n = append c' m -> c = c' /\ n = m.
Proof.
  intros (a & ->) (b & ->) Qn Qm E. destruct (context_split a b n m Qn Qm E) as [-> ->]. split; reflexivity.
Qed.

Definition goR (ctx : string) (path : list string) : list ex -> names -> list ex * names :=
  fix go (l : list ex) (d : names) : list ex * names :=
         match l with
         | [] => ([], d)
         | x :: t => let (x', d1) := resolve ctx path d x in let (t', d2) := go t d1 in (x' :: t', d2)
         end.
Lemma resolve_expr ctx path d l : resolve ctx path d (EExpr l) = let (l', d') := goR ctx path l d in (EExpr l', d').
Proof. reflexivity. Qed.

(* the symbol a name stands for, computed from one table *)
Definition lookup (ctx : string) (path : list string) (d : names) (n : string) : string := fst (resolve_sym ctx path d n).
(* the tables reached while reading unqualified names: d plus current-context
   symbols that the path did not provide *)
Definition grown (ctx : string) (path : list string) (d d' : names) : Prop :=
  forall x, In x d' <-> In x d \/ (In x d' /\ exists m, x = append ctx m /\ ~ qualified m /\ on_path path d m = None).
Lemma grown_refl ctx path d : grown ctx path d d.
Proof. intros x. tauto. Qed.
Lemma lookup_grown ctx path d d' n : context_name ctx -> Forall context_name path -> ~ qualified n ->
  grown ctx path d d' -> lookup ctx path d' n = lookup ctx path d n.
Proof.
  intros Hc Hp Qn G. unfold lookup, resolve_sym. assert (T := proj2 (has_tick_false n) Qn). rewrite T.
  destruct (on_path path d n) as [r|] eqn:P.
  - (* found in d: the same context is still the first *)
    cbn [fst]. enough (on_path path d' n = Some r) as -> by reflexivity.
    assert (NN : on_path path d n <> None) by congruence.
    revert P. clear NN. induction path as [|c t IH]; cbn [on_path]; [discriminate|].
    inversion Hp as [|c0 t0 Hc1 Ht]; subst.
    assert (G1 : forall x, In x d -> In x d') by (intros x Hx; apply G; now left).
    destruct (is_def (append c n) d) eqn:E.
    + intros X. injection X as <-. apply is_def_spec in E. apply G1 in E. apply is_def_spec in E. now rewrite E.
    + intros X. destruct (is_def (append c n) d') eqn:E'.
      * exfalso. apply is_def_spec in E'. apply G in E'. destruct E' as [E'|(_ & m & Em & Qm & Pm)].
        -- apply is_def_spec in E'. congruence.
        -- destruct (context_unique _ _ _ _ Hc1 Hc Qn Qm Em) as [-> ->].
           cbn [on_path] in Pm. rewrite E in Pm. congruence.
      * apply IH; [assumption| |exact X].
        intros x. split; [|intros [Hx|[Hx _]]; auto].
        intros Hx. destruct (proj1 (G x) Hx) as [Hd|(_ & m & -> & Qm & Pm)]; [now left|]. right. split; [assumption|].
        exists m. repeat split; auto. cbn [on_path] in Pm. destruct (is_def (append c m) d); [discriminate|assumption].
  - destruct (on_path path d' n) as [r|] eqn:P'; [|reflexivity]. cbn [fst].
    destruct (on_path_some _ _ _ _ P') as (pre & c & post & -> & -> & Hi & _).
    assert (Hc1 : context_name c) by (rewrite Forall_forall in Hp; apply Hp, in_or_app; right; now left).
    apply G in Hi. destruct Hi as [Hi|(_ & m & Em & Qm & _)].
    + exfalso. apply (proj1 (on_path_none _ _ _) P c); [apply in_or_app; right; now left|assumption].
    + destruct (context_unique _ _ _ _ Hc1 Hc Qn Qm Em) as [-> _]. reflexivity.
Qed.
Lemma grown_step ctx path d d' n : context_name ctx -> Forall context_name path -> ~ qualified n ->
  grown ctx path d d' -> grown ctx path d (snd (resolve_sym ctx path d' n)).
Proof.
  intros Hc Hp Qn G. unfold resolve_sym. rewrite (proj2 (has_tick_false n) Qn).
  destruct (on_path path d' n) as [r|] eqn:P'; cbn [snd]; [exact G|].
  assert (P : on_path path d n = None).
  { apply on_path_none. intros c Hi Hx. apply (proj1 (on_path_none _ _ _) P' c Hi). apply G. now left. }
  intros x. rewrite mark_in. split.
  - intros [->|Hx].
    + right. split; [now left|]. exists n. auto.
    + destruct (proj1 (G x) Hx) as [Hd|(H1 & H2)]; [now left|right; auto].
  - intros [Hx|[Hx _]]; [right; apply G; now left|assumption].
Qed.
Lemma resolve_grown ctx path d e : context_name ctx -> Forall context_name path ->
  (forall n, In n (symbols e) -> ~ qualified n) ->
  forall d', grown ctx path d d' ->
  exists d'', resolve ctx path d' e = (rename (lookup ctx path d) e, d'') /\ grown ctx path d d''.
Proof.
  intros Hc Hp. induction e as [s|s|z|n dd|f|a1 a2 _ _|l IH] using ex_ind'; intros Q d' G.
  - cbn [resolve rename]. assert (Qs : ~ qualified s) by (apply Q; now left).
    exists (snd (resolve_sym ctx path d' s)). split; [|now apply grown_step].
    rewrite <- (lookup_grown ctx path d d' s Hc Hp Qs G). unfold lookup. destruct (resolve_sym ctx path d' s). reflexivity.
  - exists d'; split; [reflexivity|assumption].
  - exists d'; split; [reflexivity|assumption].
  - exists d'; split; [reflexivity|assumption].
  - exists d'; split; [reflexivity|assumption].
  - exists d'; split; [reflexivity|assumption].
  - rewrite resolve_expr.
    enough (X : exists d'', goR ctx path l d' = (map (rename (lookup ctx path d)) l, d'') /\ grown ctx path d d'').
    { destruct X as (d'' & -> & G'). exists d''. split; [reflexivity|assumption]. }
    revert d' G Q. induction IH as [|x t Hx Ht IHt]; intros d' G Q.
    + exists d'. split; [reflexivity|assumption].
    + destruct (Hx (fun n H => Q n (in_or_app _ _ _ (or_introl H))) d' G) as (d1 & E1 & G1).
      destruct (IHt d1 G1 (fun n H => Q n (in_or_app _ _ _ (or_intror H)))) as (d2 & E2 & G2).
      exists d2. split; [|assumption]. cbn [goR]. rewrite E1. fold (goR ctx path). rewrite E2. reflexivity.
Qed.
Lemma resolve_qualified ctx path e : (forall n, In n (symbols e) -> qualified n) ->
  forall d, exists d', resolve ctx path d e = (e, d').
Proof.
  induction e as [s|s|z|n dd|f|a1 a2 _ _|l IH] using ex_ind'; intros Q d; try (eexists; reflexivity).
  - cbn [resolve]. unfold resolve_sym. rewrite (proj2 (has_tick_spec s)) by (apply Q; now left). eexists. reflexivity.
  - rewrite resolve_expr. enough (X : exists d', goR ctx path l d = (l, d')) by (destruct X as (d' & ->); eexists; reflexivity).
    revert d Q. induction IH as [|x t Hx Ht IHt]; intros d Q; [eexists; reflexivity|].
    destruct (Hx (fun n H => Q n (in_or_app _ _ _ (or_introl H))) d) as (d1 & E1).
    destruct (IHt d1 (fun n H => Q n (in_or_app _ _ _ (or_intror H)))) as (d2 & E2).
    exists d2. cbn [goR]. rewrite E1. fold (goR ctx path). rewrite E2. reflexivity.
Qed.

(* chains *)
Lemma is_ineq_spec op : is_ineq (sysname op) = true <-> In op comparisons.
Proof.
  unfold is_ineq. cbn [existsb]. rewrite !orb_true_iff. split.
  - intros H. unfold comparisons. cbn [In].
    repeat (destruct H as [H|H]; [apply String.eqb_eq, sysname_inj in H; subst; auto 10|]). discriminate.
  - intros H. unfold comparisons in H. cbn [In] in H.
    repeat (destruct H as [<-|H]; [rewrite !String.eqb_refl; auto 10|]). destruct H.
Qed.
Lemma is_ineq_name s : is_ineq s = true -> exists op, s = sysname op /\ In op comparisons.
Proof.
  unfold is_ineq. cbn [existsb]. rewrite !orb_true_iff. intros H.
  repeat (destruct H as [H|H]; [apply String.eqb_eq in H; subst; eexists; split; [reflexivity|unfold comparisons; cbn; auto 10]|]). discriminate.
Qed.
Lemma ineq_not_ineq op : In op comparisons -> sysname op <> nInequality.
Proof. unfold comparisons. cbn [In]. intros H. repeat (destruct H as [<-|H]; [discriminate|]). destruct H. Qed.

Lemma head_assertion_none e op : ~ headed_by [ESym op] e -> head_assertion e op = None.
Proof.
  intros N. destruct e as [| | | | | |[|[s| | | | | |] t]]; try reflexivity. cbn [head_assertion].
  destruct (String.eqb_spec s op) as [->|]; [|reflexivity]. exfalso. apply N. exists (ESym op), t. split; [now left|reflexivity].
Qed.
Lemma fully_assoc_new op a b : ~ headed_by [sys op] a -> (In op comparisons -> ~ headed_by comparison_heads a) ->
  fully_assoc (sysname op) a b = EExpr [sys op; a; b].
Proof.
  intros N1 N2. unfold fully_assoc. rewrite (head_assertion_none a (sysname op) N1).
  destruct (is_ineq (sysname op)) eqn:Q; [|reflexivity]. apply is_ineq_spec in Q. specialize (N2 Q). cbn [andb].
  destruct a as [| | | | | |[|[s| | | | | |] t]]; try reflexivity. cbn [is_expr head_str andb].
  destruct (is_ineq s) eqn:Qs.
  { exfalso. apply N2. destruct (is_ineq_name s Qs) as (o & -> & Ho). exists (sys o), t. split; [|reflexivity].
    right. apply in_map. assumption. }
  destruct (String.eqb_spec s nInequality) as [->|Ns]; [|reflexivity].
  exfalso. apply N2. exists (sys "Inequality"), t. split; [now left|reflexivity].
Qed.
Lemma fully_assoc_same op l b : (In op comparisons \/ ~ In op comparisons) ->
  fully_assoc (sysname op) (EExpr (sys op :: l)) b = EExpr (sys op :: l ++ [b]).
Proof.
  intros _. unfold fully_assoc. cbn [head_str sys is_expr head_assertion]. rewrite String.eqb_refl.
  cbn [negb]. rewrite andb_false_r. reflexivity.
Qed.
Lemma fully_assoc_other op op' l b : In op comparisons -> In op' comparisons -> op <> op' ->
  fully_assoc (sysname op) (EExpr (sys op' :: l)) b = EExpr (sys "Inequality" :: interleave (sys op') l ++ [sys op; b]).
Proof.
  intros H H' N. unfold fully_assoc. cbn [head_str sys is_expr].
  rewrite (proj2 (is_ineq_spec op) H), (proj2 (is_ineq_spec op') H'). cbn [andb orb].
  destruct (String.eqb_spec (sysname op) (sysname op')) as [E|_]; [apply sysname_inj in E; contradiction|]. cbn [negb].
  destruct (String.eqb_spec (sysname op') nInequality) as [E|_]; [elim (ineq_not_ineq op' H' E)|]. reflexivity.
Qed.
Lemma fully_assoc_ineq op l b : In op comparisons ->
  fully_assoc (sysname op) (EExpr (sys "Inequality" :: l)) b = EExpr (sys "Inequality" :: l ++ [sys op; b]).
Proof.
  intros H. unfold fully_assoc. cbn [head_str sys is_expr]. rewrite (proj2 (is_ineq_spec op) H).
  change (String.eqb (sysname "Inequality") nInequality) with true. rewrite orb_true_r. cbn [andb].
  destruct (String.eqb_spec (sysname op) (sysname "Inequality")) as [E|_]; [elim (ineq_not_ineq op H E)|]. reflexivity.
Qed.

Lemma chain_snoc a0 l op b : chain a0 (l ++ [(op, b)]) = PAssoc op (chain a0 l) b.
Proof. unfold chain. rewrite fold_left_app. reflexivity. Qed.

Lemma chain_same nf op a0 l : l <> [] -> ~ headed_by [sys op] (conv nf a0) ->
  (In op comparisons -> ~ headed_by comparison_heads (conv nf a0)) ->
  conv nf (chain a0 (map (fun a => (op, a)) l)) = EExpr (sys op :: conv nf a0 :: map (conv nf) l).
Proof.
  intros NE N1 N2. revert NE. induction l as [|b l IH] using rev_ind; [congruence|]. intros _.
  rewrite map_app. cbn [map]. rewrite chain_snoc. cbn [conv].
  destruct l as [|x t].
  - cbn [map chain fold_left app]. apply fully_assoc_new; assumption.
  - rewrite IH by discriminate. rewrite fully_assoc_same by (destruct (in_dec string_dec op comparisons); auto).
    rewrite map_app. reflexivity.
Qed.

Definition alternating (nf : flt -> flt) (l : list (string * past)) : list ex := flat_map (fun p => [sys (fst p); conv nf (snd p)]) l.
Lemma alternating_same nf op l : (forall p, In p l -> fst p = op) ->
  alternating nf l = flat_map (fun y => [sys op; y]) (map (fun p => conv nf (snd p)) l).
Proof.
  induction l as [|p t IH]; intros H; [reflexivity|]. cbn [alternating flat_map map].
  rewrite (H p (or_introl eq_refl)). cbn [app]. do 2 f_equal. apply IH. intros q Hq. apply H. now right.
Qed.
Lemma chain_mixed nf a0 l : l <> [] -> (forall p, In p l -> In (fst p) comparisons) -> ~ headed_by comparison_heads (conv nf a0) ->
  (exists op, (forall p, In p l -> fst p = op) /\ conv nf (chain a0 l) = EExpr (sys op :: conv nf a0 :: map (fun p => conv nf (snd p)) l)) \/
  ((exists p q, In p l /\ In q l /\ fst p <> fst q) /\ conv nf (chain a0 l) = EExpr (sys "Inequality" :: conv nf a0 :: alternating nf l)).
Proof.
  intros NE HC NH. revert NE HC. induction l as [|[op b] l IH] using rev_ind; [congruence|]. intros _ HC.
  assert (Hop : In op comparisons) by (apply (HC (op, b)), in_or_app; right; now left).
  rewrite chain_snoc. cbn [conv]. destruct l as [|x t].
  - left. exists op. split; [intros p [<-|[]]; reflexivity|]. cbn [chain fold_left app map snd].
    apply fully_assoc_new; [|auto]. intros (h & l & Hh & E). apply NH. exists h, l. split; [|assumption].
    destruct Hh as [<-|[]]. right. apply in_map. assumption.
  - destruct IH as [(o & Ho & E)|[D E]].
    + discriminate.
    + intros p Hp. apply HC, in_or_app. now left.
    + assert (Hoc : In o comparisons) by (rewrite <- (Ho x (or_introl eq_refl)); apply HC, in_or_app; left; now left).
      rewrite E. destruct (string_dec op o) as [->|Nop].
      * left. exists o. split.
        { intros p Hp. apply in_app_or in Hp. destruct Hp as [Hp|[<-|[]]]; [now apply Ho|reflexivity]. }
        rewrite fully_assoc_same by auto. rewrite map_app. reflexivity.
      * right. split.
        { exists x, (op, b). split; [now left|]. split; [apply in_or_app; right; now left|].
          cbn [fst]. rewrite (Ho x (or_introl eq_refl)). congruence. }
        rewrite fully_assoc_other by assumption. unfold alternating. rewrite flat_map_app. fold (alternating nf (x :: t)).
        rewrite (alternating_same nf o) by assumption. cbn [interleave]. reflexivity.
    + right. split.
      { destruct D as (p & q & Hp & Hq & N). exists p, q. split; [apply in_or_app; now left|]. split; [apply in_or_app; now left|assumption]. }
      rewrite E. rewrite fully_assoc_ineq by assumption. unfold alternating. rewrite flat_map_app. reflexivity.
Qed.

(* parens *)
Lemma unparen_expr s l : s <> ESym nParens -> unparen (EExpr (s :: l)) = EExpr (map unparen (s :: l)).
Proof.
  intros N. destruct s as [s| | | | | |]; try (destruct l; reflexivity). cbn [unparen]. destruct l as [|x t]; [reflexivity|].
  destruct (String.eqb_spec s nParens) as [->|]; [congruence|reflexivity].
Qed.
Lemma unparen_parens e : unparen (EExpr [ESym nParens; e]) = unparen e.
Proof. cbn [unparen]. rewrite String.eqb_refl. reflexivity. Qed.
Lemma unparen_sym e s : unparen e = ESym s -> e = ESym s \/ exists x t, e = EExpr (ESym nParens :: x :: t).
Proof.
  destruct e as [s'| | | | | |l]; cbn [unparen]; try discriminate; [intros E; left; exact E|].
  destruct l as [|[s'| | | | | |] [|x t]]; try discriminate.
  destruct (String.eqb_spec s' nParens) as [->|]; [|discriminate]. intros _. right. eauto.
Qed.

Section PastInd.
  Variable P : past -> Prop.
  Hypothesis Hident : forall s, P (PIdent s).
  Hypothesis Hint : forall z, P (PInt z).
  Hypothesis Hfloat : forall f, P (PFloat f).
  Hypothesis Hstring : forall s, P (PString s).
  Hypothesis Hpattern : forall s, P (PPattern s).
  Hypothesis Hslot : forall z, P (PSlot z).
  Hypothesis Hbin : forall op a b, P a -> P b -> P (PBin op a b).
  Hypothesis Hassoc : forall op a b, P a -> P b -> P (PAssoc op a b).
  Hypothesis Hun : forall op a, P a -> P (PUn op a).
  Hypothesis Hsemi : forall a, P a -> P (PSemi a).
  Hypothesis Hcolon : forall a b, P a -> P b -> P (PColon a b).
  Hypothesis Hmessage : forall s t, P (PMessage s t).
  Hypothesis Hcall : forall f l, P f -> Forall P l -> P (PCall f l).
  Hypothesis Hlist : forall l, Forall P l -> P (PList l).
  Hypothesis Hparen : forall a, P a -> P (PParen a).
  Hypothesis Hpart : forall a l, P a -> Forall P l -> P (PPart a l).
  Hypothesis Hneg : forall a, P a -> P (PNeg a).
  Hypothesis Hdiv : forall a b, P a -> P b -> P (PDiv a b).
  Hypothesis Hsub : forall a b, P a -> P b -> P (PSub a b).
  Hypothesis Hpost : forall a b, P a -> P b -> P (PPost a b).
  Hypothesis Hpre : forall a b, P a -> P b -> P (PPre a b).
  Hypothesis Happly : forall a b, P a -> P b -> P (PApply1 a b).
  Hypothesis Hderiv : forall a, P a -> P (PDeriv a).
  Hypothesis Hsqrt : forall a, P a -> P (PSqrt a).
  Hypothesis Hinfo : forall s b, P (PInfo s b).
  Hypothesis Hout : forall z, P (POut z).
  Fixpoint past_ind' (p : past) : P p :=
    let fix go (l : list past) : Forall P l :=
      match l with [] => Forall_nil P | x :: t => Forall_cons x (past_ind' x) (go t) end in
    match p with
    | PIdent s => Hident s | PInt z => Hint z | PFloat f => Hfloat f | PString s => Hstring s
    | PPattern s => Hpattern s | PSlot z => Hslot z
    | PBin op a b => Hbin op a b (past_ind' a) (past_ind' b)
    | PAssoc op a b => Hassoc op a b (past_ind' a) (past_ind' b)
    | PUn op a => Hun op a (past_ind' a)
    | PSemi a => Hsemi a (past_ind' a)
    | PColon a b => Hcolon a b (past_ind' a) (past_ind' b)
    | PMessage s t => Hmessage s t
    | PCall f l => Hcall f l (past_ind' f) (go l)
    | PList l => Hlist l (go l)
    | PParen a => Hparen a (past_ind' a)
    | PPart a l => Hpart a l (past_ind' a) (go l)
    | PNeg a => Hneg a (past_ind' a)
    | PDiv a b => Hdiv a b (past_ind' a) (past_ind' b)
    | PSub a b => Hsub a b (past_ind' a) (past_ind' b)
    | PPost a b => Hpost a b (past_ind' a) (past_ind' b)
    | PPre a b => Hpre a b (past_ind' a) (past_ind' b)
    | PApply1 a b => Happly a b (past_ind' a) (past_ind' b)
    | PDeriv a => Hderiv a (past_ind' a)
    | PSqrt a => Hsqrt a (past_ind' a)
    | PInfo s b => Hinfo s b
    | POut z => Hout z
    end.
End PastInd.

Lemma sys_not_parens op : sysname op <> nParens.
Proof. unfold sysname, nParens. cbn. discriminate. Qed.
Lemma symbols_app l1 l2 : symbols (EExpr (l1 ++ l2)) = symbols (EExpr l1) ++ symbols (EExpr l2).
Proof. cbn [symbols]. apply flat_map_app. Qed.
Lemma symbols_sys op l x : In x (symbols (unparen (EExpr (sys op :: l)))) <-> x = sysname op \/ exists y, In y l /\ In x (symbols (unparen y)).
Proof.
  rewrite unparen_expr by discriminate. cbn [map symbols flat_map unparen sys app In].
  rewrite in_flat_map. split.
  - intros [H|(y & Hy & Hx)]; [left; auto|]. right. apply in_map_iff in Hy. destruct Hy as (z & <- & Hz). eauto.
  - intros [->|(y & Hy & Hx)]; [now left|]. right. exists (unparen y). split; [now apply in_map|assumption].
Qed.

Definition no_parens (e : ex) : Prop := ~ In nParens (symbols (unparen e)).
Lemma np_sys op l : (forall y, In y l -> no_parens y) -> no_parens (EExpr (sys op :: l)).
Proof. intros H X. apply symbols_sys in X. destruct X as [X|(y & Hy & X)]; [exact (sys_not_parens op (eq_sym X))|exact (H y Hy X)]. Qed.
Lemma np_sys_inv op l y : no_parens (EExpr (sys op :: l)) -> In y l -> no_parens y.
Proof. intros H Hy X. apply H. apply symbols_sys. right. eauto. Qed.
Lemma np_sym op : no_parens (sys op).
Proof. intros [X|[]]. exact (sys_not_parens op X). Qed.
Lemma np_call f l : no_parens f -> (forall y, In y l -> no_parens y) -> no_parens (EExpr (f :: l)).
Proof.
  intros Hf Hl X. rewrite unparen_expr in X by (intros ->; apply Hf; now left).
  cbn [symbols] in X. rewrite in_flat_map in X. destruct X as (y & Hy & X). apply in_map_iff in Hy. destruct Hy as (z & <- & [<-|Hz]).
  - exact (Hf X).
  - exact (Hl z Hz X).
Qed.
Lemma headed_sys s op : s = sysname op -> ESym s = sys op.
Proof. intros ->. reflexivity. Qed.
Lemma np_assoc op a b : no_parens a -> no_parens b -> no_parens (fully_assoc (sysname op) a b).
Proof.
  intros Ha Hb. unfold fully_assoc.
  match goal with |- context [if ?c then _ else _] => destruct c eqn:C end.
  - apply andb_true_iff in C. destruct C as [C _]. apply andb_true_iff in C. destruct C as [C1 C2].
    destruct a as [| | | | | |[|[s| | | | | |] t]]; try (rewrite andb_false_r in C1; discriminate);
      try (cbn [head_str] in C2; discriminate). cbn [head_str parts_of] in *.
    assert (HS : exists o, s = sysname o).
    { apply orb_true_iff in C2. destruct C2 as [C2|C2].
      - destruct (is_ineq_name s C2) as (o & -> & _). eauto.
      - apply String.eqb_eq in C2. exists "Inequality"%string. assumption. }
    destruct HS as (o & ->). assert (Ht : forall y, In y t -> no_parens y) by (intros y Hy; exact (np_sys_inv o t y Ha Hy)).
    destruct (String.eqb (sysname o) nInequality) eqn:Q.
    + change (ESym (sysname o) :: t) with (sys o :: t). cbn [app]. apply np_sys. intros y Hy.
      apply in_app_or in Hy. destruct Hy as [Hy|[<-|[<-|[]]]]; [now apply Ht|apply np_sym|assumption].
    + cbn [to_inequality app]. apply np_sys. intros y Hy. apply in_app_or in Hy.
      destruct Hy as [Hy|[<-|[<-|[]]]]; [|apply np_sym|assumption].
      destruct t as [|x t]; [destruct Hy|]. cbn [interleave] in Hy. destruct Hy as [<-|Hy]; [apply Ht; now left|].
      apply in_flat_map in Hy. destruct Hy as (z & Hz & [<-|[<-|[]]]); [apply np_sym|apply Ht; now right].
  - destruct (head_assertion a (sysname op)) as [parts|] eqn:A.
    + destruct a as [| | | | | |[|[s| | | | | |] t]]; try discriminate. cbn [head_assertion] in A.
      destruct (String.eqb_spec s (sysname op)) as [->|]; [|discriminate]. injection A as <-.
      change (ESym (sysname op) :: t) with (sys op :: t). cbn [app]. apply np_sys. intros y Hy.
      apply in_app_or in Hy. destruct Hy as [Hy|[<-|[]]]; [exact (np_sys_inv op t y Ha Hy)|assumption].
    + apply np_sys. intros y [<-|[<-|[]]]; assumption.
Qed.
Lemma np_atom e : is_expr e = false -> is_sym e = false -> no_parens e.
Proof. destruct e; try discriminate; intros _ _ []. Qed.
Lemma np_int z : no_parens (EInt z).
Proof. intros []. Qed.

Lemma unparen_self e : ~ In nParens (symbols e) -> unparen e = e.
Proof.
  induction e as [s|s|z|n dd|f|a1 a2 _ _|l IH] using ex_ind'; intros H; try reflexivity.
  assert (M : map unparen l = l).
  { cbn [symbols] in H. clear -H IH. induction IH as [|x t Hx Ht IHt]; [reflexivity|]. cbn [map flat_map] in *.
    rewrite Hx, IHt; [reflexivity| |]; intros X; apply H, in_or_app; auto. }
  destruct l as [|h t]; [reflexivity|]. rewrite unparen_expr; [now rewrite M|]. intros ->. apply H. now left.
Qed.
Lemma np_self e : ~ In nParens (symbols e) -> no_parens e.
Proof. intros H. unfold no_parens. now rewrite unparen_self. Qed.
Lemma conv_np nf p : (forall s, In s (idents p) -> s <> nParens) -> no_parens (conv nf p).
Proof.
  induction p using past_ind'; intros HI; cbn [conv]; cbn [idents] in HI.
  - intros [X|[]]. exact (HI _ (or_introl eq_refl) X).
  - apply np_int.
  - intros [].
  - intros [].
  - apply np_self. intros X. exact (HI _ X eq_refl).
  - apply np_sys. intros y [<-|[]]. apply np_int.
  - apply np_sys. intros y [<-|[<-|[]]]; [apply IHp1|apply IHp2]; intros s Hs; apply HI, in_or_app; auto.
  - apply np_assoc; [apply IHp1|apply IHp2]; intros s Hs; apply HI, in_or_app; auto.
  - apply np_sys. intros y [<-|[]]. apply IHp. assumption.
  - apply np_assoc; [apply IHp; assumption|apply np_sym].
  - destruct (has_head (conv nf p1) (sysname "Pattern")); apply np_sys; intros y [<-|[<-|[]]];
      first [apply IHp1|apply IHp2]; intros s Hs; apply HI, in_or_app; auto.
  - apply np_sys. intros y [<-|[<-|[]]]; [|intros []]. intros [X|[]]. exact (HI _ (or_introl eq_refl) X).
  - apply np_call; [apply IHp; intros s Hs; apply HI, in_or_app; auto|]. intros y Hy. apply in_map_iff in Hy.
    destruct Hy as (q & <- & Hq). rewrite Forall_forall in H. apply H; [assumption|].
    intros s Hs. apply HI, in_or_app. right. apply in_flat_map. eauto.
  - apply np_sys. intros y Hy. apply in_map_iff in Hy.
    destruct Hy as (q & <- & Hq). rewrite Forall_forall in H. apply H; [assumption|].
    intros s Hs. apply HI. apply in_flat_map. eauto.
  - unfold no_parens. rewrite unparen_parens. apply IHp. assumption.
  - apply np_sys. intros y [<-|Hy]; [apply IHp; intros s Hs; apply HI, in_or_app; auto|]. apply in_map_iff in Hy.
    destruct Hy as (q & <- & Hq). rewrite Forall_forall in H. apply H; [assumption|].
    intros s Hs. apply HI, in_or_app. right. apply in_flat_map. eauto.
  - specialize (IHp HI). destruct (conv nf p); try (apply np_sys; intros y [<-|[<-|[]]]; [assumption|apply np_int]).
    + apply np_int.
    + intros [].
  - apply np_sys. intros y [<-|[<-|[]]]; [apply IHp1; intros s Hs; apply HI, in_or_app; auto|].
    apply np_sys. intros y [<-|[<-|[]]]; [apply IHp2; intros s Hs; apply HI, in_or_app; auto|apply np_int].
  - apply np_assoc; [apply IHp1; intros s Hs; apply HI, in_or_app; auto|].
    apply np_sys. intros y [<-|[<-|[]]]; [apply IHp2; intros s Hs; apply HI, in_or_app; auto|apply np_int].
  - apply np_call; [apply IHp2|intros y [<-|[]]; apply IHp1]; intros s Hs; apply HI, in_or_app; auto.
  - apply np_call; [apply IHp1|intros y [<-|[]]; apply IHp2]; intros s Hs; apply HI, in_or_app; auto.
  - apply np_sys. intros y [<-|[<-|[<-|[]]]]; [apply IHp1|apply IHp2|apply np_sys; intros y [<-|[]]; apply np_int];
      intros s Hs; apply HI, in_or_app; auto.
  - apply np_call; [apply np_sys; intros y [<-|[]]; apply np_int|]. intros y [<-|[]]. apply IHp. assumption.
  - apply np_sys. intros y [<-|[]]. apply IHp. assumption.
  - apply np_sys. intros y [<-|Hy]; [intros [X|[]]; exact (HI _ (or_introl eq_refl) X)|].
    destruct b; [destruct Hy|]. destruct Hy as [<-|[]]. apply np_sys. intros y [<-|[<-|[]]]; apply np_sym.
  - apply np_sys. intros y [<-|[]]. apply np_sys. intros y [<-|[<-|[]]]; [apply np_sym|apply np_int].
Qed.

(* arithmetic *)
Section Meaning.
Context {R : semiring} (neg_flt : flt -> flt) (inv : R -> R) (v : ex -> R).
Hypothesis Vp : sum_valuation v (sys "Plus").
Hypothesis Vt : product_valuation v (sys "Times").
Hypothesis Vi : forall x, v (EExpr [sys "Power"; x; EInt (-1)]) = inv (v x).
Hypothesis Vz : forall z, v (EInt (- z)) = smul (v (EInt z)) (v (EInt (-1))).
Hypothesis Vf : forall f, v (EFlt (neg_flt f)) = smul (v (EFlt f)) (v (EInt (-1))).

Lemma unparen_sys op l : unparen (EExpr (sys op :: l)) = EExpr (sys op :: map unparen l).
Proof. rewrite unparen_expr by discriminate. reflexivity. Qed.
Lemma ssum2 (x y : R) : ssum [x; y] = sadd x y.
Proof. cbn. now rewrite (sadd_comm _ y), sadd_0. Qed.
Lemma sprod2 (x y : R) : sprod [x; y] = smul x y.
Proof. cbn. now rewrite smul_1_r. Qed.
Lemma not_ineq_assoc op a b : is_ineq (sysname op) = false ->
  fully_assoc (sysname op) a b = match head_assertion a (sysname op) with Some parts => EExpr (parts ++ [b]) | None => EExpr [sys op; a; b] end.
Proof. intros H. unfold fully_assoc. rewrite H. reflexivity. Qed.
Lemma plus_value a b : v (unparen (fully_assoc (sysname "Plus") a b)) = sadd (v (unparen a)) (v (unparen b)).
Proof.
  rewrite not_ineq_assoc by reflexivity. destruct (head_assertion a (sysname "Plus")) as [parts|] eqn:A.
  - destruct a as [| | | | | |[|[s| | | | | |] t]]; try discriminate. cbn [head_assertion] in A.
    destruct (String.eqb_spec s (sysname "Plus")) as [->|]; [|discriminate]. injection A as <-.
    change (ESym (sysname "Plus")) with (sys "Plus"). cbn [app]. rewrite !unparen_sys, !Vp, !map_app, ssum_app.
    cbn [map]. f_equal. cbn. now rewrite (sadd_comm _ (v (unparen b))), sadd_0.
  - rewrite unparen_sys, Vp. cbn [map]. apply ssum2.
Qed.
Lemma times_value a b : v (unparen (fully_assoc (sysname "Times") a b)) = smul (v (unparen a)) (v (unparen b)).
Proof.
  rewrite not_ineq_assoc by reflexivity. destruct (head_assertion a (sysname "Times")) as [parts|] eqn:A.
  - destruct a as [| | | | | |[|[s| | | | | |] t]]; try discriminate. cbn [head_assertion] in A.
    destruct (String.eqb_spec s (sysname "Times")) as [->|]; [|discriminate]. injection A as <-.
    change (ESym (sysname "Times")) with (sys "Times"). cbn [app]. rewrite !unparen_sys, !Vt, !map_app, sprod_app.
    cbn [map]. f_equal. cbn. now rewrite smul_1_r.
  - rewrite unparen_sys, Vt. cbn [map]. apply sprod2.
Qed.
Lemma times2_value a b : v (unparen (EExpr [sys "Times"; a; b])) = smul (v (unparen a)) (v (unparen b)).
Proof. rewrite unparen_sys, Vt. cbn [map]. apply sprod2. Qed.

Lemma conv_meaning p : v (unparen (conv neg_flt p)) = meaning neg_flt inv v p.
Proof.
  induction p as [| | | | | |op a b IHa IHb|op a b IHa IHb|op a IHa|a IHa|a b IHa IHb|s t|f l IHf IHl|l IHl|a IHa|a l IHa IHl|a IHa|a b IHa IHb|a b IHa IHb|a b IHa IHb|a b IHa IHb|a b IHa IHb|a IHa|a IHa| |] using past_ind'; try reflexivity.
  - cbn [meaning]. destruct (String.eqb_spec op "Plus") as [->|_].
    + cbn [conv]. rewrite plus_value, IHa, IHb. reflexivity.
    + destruct (String.eqb_spec op "Times") as [->|_]; [|reflexivity].
      cbn [conv]. rewrite times_value, IHa, IHb. reflexivity.
  - cbn [meaning conv]. rewrite unparen_parens. exact IHa.
  - cbn [meaning conv]. rewrite <- IHa.
    destruct (conv neg_flt a) as [s|s|z|n d|f|r i|l] eqn:E; try apply times2_value.
    + apply Vz.
    + apply Vf.
  - cbn [meaning conv]. rewrite times2_value, IHa. f_equal. rewrite unparen_sys. cbn [map unparen]. rewrite Vi, IHb. reflexivity.
  - cbn [meaning conv]. rewrite plus_value, IHa, times2_value, IHb. reflexivity.
Qed.
End Meaning.

(* patterns *)
Lemma no_under_cons c s : no_under (String c s) -> c <> "_"%char /\ no_under s.
Proof.
  intros H. split.
  - intros ->. apply (H EmptyString s). reflexivity.
  - intros a b ->. apply (H (String c a) b). reflexivity.
Qed.
Lemma prefix_us_cons n c s : c <> "_"%char -> String.prefix (under (S n)) (String c s) = false.
Proof. intros H. cbn [under String.prefix]. destruct (ascii_dec "_" c) as [E|]; [congruence|reflexivity]. Qed.
Lemma contains_skip n a s : no_under a -> contains_us (S n) (append a s) = contains_us (S n) s.
Proof.
  induction a as [|c a IH]; intros H; [reflexivity|]. destruct (no_under_cons _ _ H) as [Hc Ha].
  cbn [append contains_us]. rewrite prefix_us_cons by assumption. cbn [orb]. now apply IH.
Qed.
Lemma contains_none n s : no_under s -> contains_us (S n) s = false.
Proof. intros H. rewrite <- (app_nil_s s), contains_skip by assumption. reflexivity. Qed.
Lemma split_none n cur s : no_under s -> split_us (S n) 0 cur s = [append cur s].
Proof.
  revert cur. induction s as [|c s IH]; intros cur H; [cbn; now rewrite app_nil_s|].
  destruct (no_under_cons _ _ H) as [Hc Hs]. cbn [split_us]. rewrite prefix_us_cons by assumption.
  rewrite IH by assumption. rewrite app_assoc_s. reflexivity.
Qed.
Lemma prefix_app s t : String.prefix s (append s t) = true.
Proof. induction s as [|c s IH]; [now destruct t|]. cbn. destruct (ascii_dec c c); [assumption|congruence]. Qed.
Lemma split_skip n k cur t : split_us n k cur (append (under k) t) = split_us n 0 cur t.
Proof. induction k as [|k IH]; [reflexivity|]. cbn [under append split_us]. exact IH. Qed.
Lemma split_two n cur a b : no_under a -> no_under b -> split_us (S n) 0 cur (append a (append (under (S n)) b)) = [append cur a; b].
Proof.
  revert cur. induction a as [|c a IH]; intros cur Ha Hb.
  - cbn [append]. rewrite app_nil_s. assert (P := prefix_app (under (S n)) b). cbn [under append] in *. cbn [split_us].
    change (String "_" (under n)) with (under (S n)) in *. rewrite P.
    replace (S n - 1) with n by lia. rewrite split_skip, split_none by assumption. reflexivity.
  - destruct (no_under_cons _ _ Ha) as [Hc Ha']. cbn [append split_us]. rewrite prefix_us_cons by assumption.
    rewrite IH by assumption. rewrite app_assoc_s. reflexivity.
Qed.
Lemma contains_run n k b : no_under b -> n < k -> contains_us (S n) (append (under k) b) = true.
Proof.
  intros H L. replace k with (S n + (k - S n)) by lia. generalize (k - S n). intros j.
  assert (U : under (S n + j) = append (under (S n)) (under j)).
  { generalize (S n). intros m. induction m as [|m IH]; [reflexivity|]. cbn. now rewrite <- IH. }
  rewrite U, app_assoc_s. assert (P := prefix_app (under (S n)) (append (under j) b)).
  destruct (append (under (S n)) (append (under j) b)) eqn:E; [exact P|]. cbn [contains_us]. rewrite P. reflexivity.
Qed.
Lemma contains_short n k b : no_under b -> k <= n -> contains_us (S n) (append (under k) b) = false.
Proof.
  intros H. induction k as [|k IH]; intros L; [now apply contains_none|].
  cbn [under append contains_us]. change (String "_" (append (under k) b)) with (append (under (S k)) b).
  rewrite IH by lia. rewrite orb_false_r. revert L. clear -H. generalize (S k). intros m. clear k. revert n.
  induction m as [|m IH]; intros n L; cbn [under append].
  - destruct b as [|c b]; [reflexivity|]. destruct (no_under_cons _ _ H). now apply prefix_us_cons.
  - cbn [String.prefix]. destruct (ascii_dec "_" "_"); [|reflexivity]. destruct n as [|n]; [lia|]. apply IH. lia.
Qed.
