(* Property theorems: rendering of Graphics expressions (C93). *)
From Verif Require Import M_Syntax M_Graphics S_Graphics.
From Coq Require Import List NArith Sorted Lia.
Import ListNotations.
Open Scope nat_scope.

Lemma args_of_eq e h args : args_of e h = Some args <-> e = EExpr (ESym h :: args).
Proof.
  unfold args_of, head_assertion. split.
  - destruct e as [| | | | | |[|[s| | | | | |] l]]; try discriminate. destruct (String.eqb_spec s h); [|discriminate]. intro K. injection K as <-. subst. reflexivity.
  - intros ->. rewrite String.eqb_refl. reflexivity.
Qed.
Lemma args_of_none e h : args_of e h = None <-> forall l, e <> EExpr (ESym h :: l).
Proof.
  destruct (args_of e h) eqn:E; split; intro H; try discriminate; try reflexivity.
  - apply args_of_eq in E. exfalso. exact (H _ E).
  - intros l K. apply (proj2 (args_of_eq e h l)) in K. congruence.
Qed.

Section R.
  Variable byte : flt -> N.
  Notation rp := (render_primitive byte).
  Notation sd := (set_directives byte).

  Fixpoint render_list (l : list ex) (st : style) : option (list series) :=
    match l with
    | [] => Some []
    | x :: t =>
        match rp x st with
        | Some (s1, st1) => match render_list t st1 with Some s2 => Some (s1 ++ s2) | None => None end
        | None => None
        end
    end.
  Lemma rp_list l st : rp (the_list l) st = match render_list l st with Some s => Some (s, st) | None => None end.
  Proof.
    unfold the_list, gfn. change (append "System`" "List") with "System`List"%string. cbn [render_primitive].
    change (("System`List" =? "System`List")%string) with true. cbn iota.
    match goal with |- ?f l st = _ => enough (G : forall l new, f l new = match render_list l new with Some s => Some (s, st) | None => None end) by apply G end.
    clear l. induction l as [|x t IH]; intro new; [reflexivity|]. cbn [render_list].
    destruct (rp x new) as [[s1 st1]|]; [|reflexivity]. rewrite IH. destruct (render_list t st1); reflexivity.
  Qed.
  Lemma rp_directive ds st : rp (gfn "Directive" ds) st = match sd st ds with Some st' => Some ([], st') | None => None end.
  Proof. reflexivity. Qed.
  Lemma rp_line args st : rp (gfn "Line" args) st = match render_line args st with Some s => Some ([s], st) | None => None end.
  Proof. reflexivity. Qed.
  Lemma rp_other e st : (forall l, e <> gfn "Line" l /\ e <> gfn "Directive" l /\ e <> the_list l) -> rp e st = Some ([], st).
  Proof.
    intro H. destruct e as [| | | | | |[|[h| | | | | |] l]]; try reflexivity. cbn [render_primitive].
    destruct (H l) as [H1 [H2 H3]].
    destruct (String.eqb_spec h "System`List"); [subst; exfalso; apply H3; reflexivity|].
    destruct (String.eqb_spec h "System`Directive"); [subst; exfalso; apply H2; reflexivity|].
    destruct (String.eqb_spec h "System`Line"); [subst; exfalso; apply H1; reflexivity|]. reflexivity.
  Qed.
  (* the four cases *)
  Lemma prim_cases e : (exists l, e = gfn "Line" l) \/ (exists l, e = gfn "Directive" l) \/ (exists l, e = the_list l) \/
    (forall l, e <> gfn "Line" l /\ e <> gfn "Directive" l /\ e <> the_list l).
  Proof.
    destruct e as [| | | | | |[|[h| | | | | |] l]]; try (right; right; right; intro; repeat split; discriminate).
    destruct (String.eqb_spec h "System`List"); [subst; right; right; left; exists l; reflexivity|].
    destruct (String.eqb_spec h "System`Directive"); [subst; right; left; exists l; reflexivity|].
    destruct (String.eqb_spec h "System`Line"); [subst; left; exists l; reflexivity|].
    right; right; right. intro l'. repeat split; intro K; injection K; intros; subst; contradiction.
  Qed.
  Lemma sd_app l1 : forall st l2, sd st (l1 ++ l2) = match sd st l1 with Some st' => sd st' l2 | None => None end.
  Proof. induction l1 as [|d t IH]; intros st l2; [reflexivity|]. cbn [set_directives app]. destruct (set_directive byte st d); [apply IH|reflexivity]. Qed.

  (* points *)
  Lemma points_of_ok l ps : points_of l = Some ps <-> l = map (fun '(x, y) => the_list [EFlt x; EFlt y]) ps.
  Proof.
    revert ps. induction l as [|e t IH]; intros ps; cbn [points_of].
    - split; [intro K; injection K as <-; reflexivity|]. destruct ps as [|[x y] ps]; [reflexivity|discriminate].
    - split.
      + unfold list_to_point. destruct (args_of e "System`List") as [[|[| | | |x| |] [|[| | | |y| |] [|]]]|] eqn:E; try discriminate.
        destruct (points_of t) as [qs|] eqn:Q; [|discriminate]. intro K. injection K as <-. cbn [map]. f_equal; [|apply IH; reflexivity].
        apply args_of_eq in E. exact E.
      + destruct ps as [|[x y] ps]; [discriminate|]. cbn [map]. intro K. injection K as -> K. rewrite (proj2 (IH ps) K). reflexivity.
  Qed.
  Lemma line_ok args st s : render_line args st = Some s <-> points args (ser_points s) /\ ser_style s = st.
  Proof.
    unfold render_line, points. split.
    - destruct args as [|a [|]]; try discriminate. destruct (args_of a "System`List") as [l|] eqn:E; [|discriminate].
      destruct (points_of l) as [ps|] eqn:P; [|discriminate]. intro K. injection K as <-. cbn [ser_points ser_style]. split; [|reflexivity].
      apply args_of_eq in E. apply points_of_ok in P. subst. reflexivity.
    - destruct s as [st' ps]. cbn [ser_points ser_style]. intros [-> ->].
      rewrite (proj2 (args_of_eq (the_list (map (fun '(x, y) => the_list [EFlt x; EFlt y]) ps)) "System`List" (map (fun '(x, y) => the_list [EFlt x; EFlt y]) ps)) eq_refl).
      rewrite (proj2 (points_of_ok _ ps) eq_refl). reflexivity.
  Qed.

  (* ---- the lines drawn ---- *)
  Definition ser_ok (e : ex) (st : style) (p : list nat) (s : series) : Prop :=
    exists ds args, line_at e p ds args /\ sd st ds = Some (ser_style s) /\ points args (ser_points s).
  Definition lat (l : list ex) (p : list nat) (ds args : list ex) : Prop := line_at (the_list l) p ds args.
  Lemma line_list l p ds args : line_at (the_list l) p ds args <->
    exists i x q ds', p = i :: q /\ nth_error l i = Some x /\ line_at x q ds' args /\ ds = directives (firstn i l) ++ ds'.
  Proof.
    split.
    - intro H. remember (the_list l) as e eqn:E. destruct H as [a|l0 i x q ds' args' N L]; [discriminate E|]. injection E as ->. exists i, x, q, ds'. auto.
    - intros [i [x [q [ds' [-> [N [L ->]]]]]]]. constructor 2 with (x := x); assumption.
  Qed.
  Definition shift (p : list nat) : list nat := match p with i :: q => S i :: q | [] => [] end.
  Lemma line_cons x t p ds args : line_at (the_list (x :: t)) p ds args <->
    (exists q, p = 0 :: q /\ line_at x q ds args) \/
    (exists q ds', p = shift q /\ line_at (the_list t) q ds' args /\ ds = directives [x] ++ ds').
  Proof.
    rewrite line_list. split.
    - intros [[|i] [y [q [ds' [-> [N [L ->]]]]]]].
      + injection N as ->. left. exists q. split; [reflexivity|exact L].
      + right. exists (i :: q), (directives (firstn i t) ++ ds'). split; [reflexivity|]. split; [apply line_list; exists i, y, q, ds'; auto|].
        cbn [firstn]. unfold directives. cbn [flat_map]. rewrite app_nil_r, app_assoc. reflexivity.
    - intros [[q [-> L]]|[q [ds' [-> [L ->]]]]].
      + exists 0, x, q, ds. auto.
      + apply line_list in L. destruct L as [i [y [q' [ds'' [-> [N [L ->]]]]]]]. exists (S i), y, q', ds''. split; [reflexivity|]. split; [exact N|]. split; [exact L|].
        cbn [firstn]. unfold directives. cbn [flat_map]. rewrite app_nil_r, app_assoc. reflexivity.
  Qed.
  Lemma sorted_app (l1 l2 : list (list nat)) : StronglySorted before l1 -> StronglySorted before l2 ->
    (forall p q, In p l1 -> In q l2 -> before p q) -> StronglySorted before (l1 ++ l2).
  Proof.
    induction 1 as [|a l S1 IH F]; intros S2 H; [exact S2|]. cbn [app]. constructor.
    - apply IH; [exact S2|]. intros; apply H; [right|]; assumption.
    - apply Forall_app. split; [exact F|]. apply Forall_forall. intros q Hq. apply H; [left; reflexivity|exact Hq].
  Qed.
  Lemma sorted_map (f : list nat -> list nat) l : (forall p q, before p q -> before (f p) (f q)) -> StronglySorted before l -> StronglySorted before (map f l).
  Proof.
    intros H. induction 1 as [|a l S1 IH F]; [constructor|]. cbn [map]. constructor; [exact IH|]. rewrite Forall_forall in *.
    intros q Hq. apply in_map_iff in Hq. destruct Hq as [r [<- Hr]]. apply H, F, Hr.
  Qed.
  Lemma before_shift p q : before p q -> before (shift p) (shift q).
  Proof. intros [i j p' q' L|i p' q' L]; cbn [shift]; [apply BF_lt; lia|apply BF_eq; exact L]. Qed.
  Lemma forall2_impl {A B} (R S : A -> B -> Prop) l m : (forall a b, R a b -> S a b) -> Forall2 R l m -> Forall2 S l m.
  Proof. intros H F. induction F; constructor; auto. Qed.
  Lemma forall2_map {A B C} (f : C -> A) (R : A -> B -> Prop) l m : Forall2 (fun c b => R (f c) b) l m -> Forall2 R (map f l) m.
  Proof. induction 1; constructor; auto. Qed.

  Lemma drawn e : forall st s st', rp e st = Some (s, st') ->
    sd st (directives [e]) = Some st' /\
    exists ps, StronglySorted before ps /\ (forall p, In p ps <-> exists ds args, line_at e p ds args) /\ Forall2 (ser_ok e st) ps s.
  Proof.
    assert (A : forall e, (forall l, e <> gfn "Line" l /\ e <> gfn "Directive" l /\ e <> the_list l) -> forall st s st', rp e st = Some (s, st') ->
      sd st (directives [e]) = Some st' /\
      exists ps, StronglySorted before ps /\ (forall p, In p ps <-> exists ds args, line_at e p ds args) /\ Forall2 (ser_ok e st) ps s).
    { intros e0 H st s st' R. rewrite rp_other in R by exact H. injection R as <- <-. split.
      - unfold directives. cbn [flat_map]. rewrite app_nil_r. destruct e0 as [| | | | | |[|[h| | | | | |] l]]; try reflexivity.
        destruct (String.eqb_spec h "System`Directive"); [subst; destruct (H l) as [_ [K _]]; exfalso; apply K; reflexivity|reflexivity].
      - exists []. split; [constructor|]. split; [|constructor]. intro p. split; [intros []|]. intros [ds [args L]].
        destruct L as [a|l i x q ds' args' N L]; [destruct (H a) as [K _]|destruct (H l) as [_ [_ K]]]; apply K; reflexivity. }
    induction e as [s|s|z|n d|f|a1 a2 _ _|l IH] using ex_ind'; try (apply A; intro; repeat split; discriminate).
    destruct (prim_cases (EExpr l)) as [[args ->]|[[ds ->]|[[args E]|H]]]; [| | |apply A, H].
    - intros st s st'. rewrite rp_line. destruct (render_line args st) as [sr|] eqn:R; [|discriminate]. intro K. injection K as <- <-.
      split; [reflexivity|]. exists [[]]. split; [repeat constructor|]. split.
      + intro p. split; [intros [<-|[]]; exists [], args; constructor|]. intros [ds [a L]]. remember (gfn "Line" args) as e0 eqn:E0. destruct L as [|l0 i x q ds' a' N L']; [left; reflexivity|discriminate E0].
      + constructor; [|constructor]. apply line_ok in R. destruct R as [P Q]. exists [], args. split; [constructor|]. split; [cbn; rewrite Q; reflexivity|exact P].
    - intros st s st'. rewrite rp_directive. destruct (sd st ds) as [st1|] eqn:D; [|discriminate]. intro K. injection K as <- <-. split.
      + unfold directives. cbn [flat_map]. rewrite app_nil_r. exact D.
      + exists []. split; [constructor|]. split; [|constructor]. intro p. split; [intros []|]. intros [ds' [args L]].
        remember (gfn "Directive" ds) as e0 eqn:E0. destruct L as [a|l0 i x q ds0 a' N L']; discriminate E0.
    - rewrite E in *. assert (F : Forall (fun x => forall st s st', rp x st = Some (s, st') ->
        sd st (directives [x]) = Some st' /\
        exists ps, StronglySorted before ps /\ (forall p, In p ps <-> exists ds args, line_at x p ds args) /\ Forall2 (ser_ok x st) ps s) args).
      { unfold the_list, gfn in E. injection E as ->. inversion IH; assumption. }
      clear E IH A l. intros st s st'. rewrite rp_list. destruct (render_list args st) as [sl|] eqn:R; [|discriminate]. intro K. injection K as <- <-.
      split; [reflexivity|]. revert st sl R. induction F as [|x t Hx _ IH]; intros st sl R.
      + injection R as <-. exists []. split; [constructor|]. split; [|constructor]. intro p. split; [intros []|]. intros [ds [a L]].
        apply line_list in L. destruct L as [[|i] [y [q [ds' [_ [N _]]]]]]; discriminate N.
      + cbn [render_list] in R. destruct (rp x st) as [[s1 st1]|] eqn:Rx; [|discriminate]. destruct (render_list t st1) as [s2|] eqn:Rt; [|discriminate].
        injection R as <-. destruct (Hx _ _ _ Rx) as [D1 [p1 [S1 [I1 F1]]]]. destruct (IH _ _ Rt) as [p2 [S2 [I2 F2]]].
        assert (NE : forall p, In p p2 -> exists i q, p = i :: q).
        { intros p Hp. apply I2 in Hp. destruct Hp as [ds [a L]]. apply line_list in L. destruct L as [i [y [q [ds' [-> _]]]]]. eauto. }
        exists (map (cons 0) p1 ++ map shift p2). split; [|split].
        * apply sorted_app; [apply sorted_map; [intros; apply BF_eq; assumption|exact S1]|apply sorted_map; [apply before_shift|exact S2]|].
          intros p q Hp Hq. apply in_map_iff in Hp, Hq. destruct Hp as [p' [<- _]]. destruct Hq as [q' [<- Hq]]. destruct (NE _ Hq) as [i [r ->]].
          apply BF_lt. lia.
        * intro p. rewrite in_app_iff, !in_map_iff. split.
          -- intros [[q [<- Hq]]|[q [<- Hq]]].
             ++ apply I1 in Hq. destruct Hq as [ds [a L]]. exists ds, a. apply line_cons. left. eauto.
             ++ apply I2 in Hq. destruct Hq as [ds [a L]]. exists (directives [x] ++ ds), a. apply line_cons. right. eauto.
          -- intros [ds [a L]]. apply line_cons in L. destruct L as [[q [-> L]]|[q [ds' [-> [L ->]]]]].
             ++ left. exists q. split; [reflexivity|]. apply I1. eauto.
             ++ right. exists q. split; [reflexivity|]. apply I2. eauto.
        * apply Forall2_app; apply forall2_map.
          -- eapply forall2_impl; [|exact F1]. intros p sr [ds [a [L [D P]]]]. exists ds, a. split; [apply line_cons; left; eauto|auto].
          -- eapply forall2_impl; [|exact F2]. intros p sr [ds [a [L [D P]]]]. exists (directives [x] ++ ds), a.
             split; [apply line_cons; right; eauto|]. split; [rewrite sd_app, D1; exact D|exact P].
  Qed.

  (* ---- styles ---- *)
  Definition apply_kind (st : style) (k : kind) : style :=
    match k with
    | KColor r g b => Style (byte r) (byte g) (byte b) 255 (sty_width st)
    | KOpacity a => Style (sty_r st) (sty_g st) (sty_b st) (byte a) (sty_width st)
    | KWidth w => Style (sty_r st) (sty_g st) (sty_b st) (sty_a st) (Some w)
    | KOther => st
    end.
  Lemma directive_ok st d st' : set_directive byte st d = Some st' <-> exists k, directive_is d k /\ st' = apply_kind st k.
  Proof.
    unfold set_directive. split.
    - destruct (args_of d "System`RGBColor") as [l|] eqn:E1.
      { apply args_of_eq in E1. subst. destruct l as [|[| | | |r| |] [|[| | | |g| |] [|[| | | |b| |] [|]]]]; try discriminate.
        intro K. injection K as <-. exists (KColor r g b). split; [apply DI_color|reflexivity]. }
      destruct (args_of d "System`Opacity") as [l|] eqn:E2.
      { apply args_of_eq in E2. subst. destruct l as [|[| | | |a| |] [|]]; try discriminate.
        intro K. injection K as <-. exists (KOpacity a). split; [apply DI_opacity|reflexivity]. }
      destruct (args_of d "System`AbsoluteThickness") as [l|] eqn:E3.
      { apply args_of_eq in E3. subst. destruct l as [|[| | | |a| |] [|]]; try discriminate.
        intro K. injection K as <-. exists (KWidth a). split; [apply DI_width|reflexivity]. }
      intro K. injection K as <-. exists KOther. split; [|reflexivity]. apply DI_other. intro l.
      split; [exact (proj1 (args_of_none _ _) E1 l)|]. split; [exact (proj1 (args_of_none _ _) E2 l)|exact (proj1 (args_of_none _ _) E3 l)].
    - intros [k [D ->]]. destruct D as [r g b|a|w|d H]; try reflexivity.
      rewrite (proj2 (args_of_none d "System`RGBColor")) by (intro l; apply (H l)).
      rewrite (proj2 (args_of_none d "System`Opacity")) by (intro l; apply (H l)).
      rewrite (proj2 (args_of_none d "System`AbsoluteThickness")) by (intro l; apply (H l)). reflexivity.
  Qed.
  Lemma directives_ok ds : forall st st', sd st ds = Some st' <-> exists ks, Forall2 directive_is ds ks /\ st' = fold_left apply_kind ks st.
  Proof.
    induction ds as [|d t IH]; intros st st'; cbn [set_directives].
    - split; [intro K; injection K as <-; exists []; split; [constructor|reflexivity]|]. intros [ks [F ->]]. inversion F. reflexivity.
    - split.
      + destruct (set_directive byte st d) as [st1|] eqn:D; [|discriminate]. intro K. apply directive_ok in D. destruct D as [k [D ->]].
        apply IH in K. destruct K as [ks [F ->]]. exists (k :: ks). split; [constructor; assumption|reflexivity].
      + intros [ks [F ->]]. inversion F as [|d' k t' ks' D F']; subst. rewrite (proj2 (directive_ok st d (apply_kind st k))) by eauto.
        apply IH. exists ks'. split; [assumption|reflexivity].
  Qed.
  Lemma last_snoc_yes (P : kind -> Prop) ks k : P k -> last_of P (ks ++ [k]) (Some k).
  Proof. intro H. exists ks, []. repeat split; [exact H|constructor]. Qed.
  Lemma last_snoc_no (P : kind -> Prop) ks k o : ~ P k -> last_of P ks o -> last_of P (ks ++ [k]) o.
  Proof.
    intros H L. destruct o as [o|]; cbn [last_of] in *.
    - destruct L as [a [b [-> [Po F]]]]. exists a, (b ++ [k]). rewrite <- app_assoc. split; [reflexivity|]. split; [exact Po|].
      apply Forall_app. split; [exact F|]. constructor; [exact H|constructor].
    - apply Forall_app. split; [exact L|]. constructor; [exact H|constructor].
  Qed.
  Lemma style_ok ks : style_is byte ks (fold_left apply_kind ks black).
  Proof.
    induction ks as [|k ks IH] using rev_ind.
    - split; [|split]; exists None; (split; [constructor|reflexivity]).
    - rewrite fold_left_app. cbn [fold_left]. destruct IH as [[o1 [L1 E1]] [[o2 [L2 E2]] [o3 [L3 E3]]]].
      set (st := fold_left apply_kind ks black) in *. clearbody st. destruct k as [r g b|a|w|]; cbn [apply_kind]; (split; [|split]); cbn [sty_r sty_g sty_b sty_a sty_width].
      1: exists (Some (KColor r g b)); split; [apply last_snoc_yes; exact I|reflexivity].
      1: exists (Some (KColor r g b)); split; [apply last_snoc_yes; exact I|reflexivity].
      3: exists (Some (KOpacity a)); split; [apply last_snoc_yes; exact I|reflexivity].
      6: exists (Some (KWidth w)); split; [apply last_snoc_yes; exact I|reflexivity].
      all: first [exists o1; split; [apply last_snoc_no; [intros []|exact L1]|exact E1]
                 |exists o2; split; [apply last_snoc_no; [intros []|exact L2]|exact E2]
                 |exists o3; split; [apply last_snoc_no; [intros []|exact L3]|exact E3]].
  Qed.

  Lemma drawable_ok e : forall st, (exists r, rp e st = Some r) <-> drawable e.
  Proof.
    assert (A : forall e, (forall l, e <> gfn "Line" l /\ e <> gfn "Directive" l /\ e <> the_list l) -> forall st, (exists r, rp e st = Some r) <-> drawable e).
    { intros e0 H st. split; [intro; apply DR_other, H|]. intro. rewrite rp_other by exact H. eauto. }
    induction e as [s|s|z|n d|f|a1 a2 _ _|l IH] using ex_ind'; try (apply A; intro; repeat split; discriminate).
    destruct (prim_cases (EExpr l)) as [[args ->]|[[ds ->]|[[args E]|H]]]; [| | |apply A, H]; intro st.
    - rewrite rp_line. split.
      + intros [r R]. destruct (render_line args st) as [s|] eqn:L; [|discriminate]. apply line_ok in L. destruct L as [P _]. rewrite P. apply DR_line.
      + intro D. remember (gfn "Line" args) as e1 eqn:K. destruct D as [ps|ds F|l0 F|e0 H]; try discriminate K; [injection K as <-|subst e0].
        * rewrite (proj2 (line_ok _ st (Series st ps))); [eauto|]. split; reflexivity.
        * destruct (H args) as [X _]. exfalso. apply X. reflexivity.
    - rewrite rp_directive. split.
      + intros [r R]. destruct (sd st ds) as [st'|] eqn:L; [|discriminate]. apply directives_ok in L. destruct L as [ks [F _]]. apply DR_directive.
        clear - F. induction F; constructor; eauto.
      + intro D. remember (gfn "Directive" ds) as e1 eqn:K. destruct D as [ps|ds' F|l0 F|e0 H]; try discriminate K; [injection K as ->|subst e0].
        * assert (G : exists ks, Forall2 directive_is ds ks). { clear - F. induction F as [|d t [k D] _ [ks IH]]; [exists []; constructor|exists (k :: ks); constructor; assumption]. }
          destruct G as [ks G]. rewrite (proj2 (directives_ok ds st (fold_left apply_kind ks st))); eauto.
        * destruct (H ds) as [_ [X _]]. exfalso. apply X. reflexivity.
    - rewrite E in *. rewrite rp_list. assert (F : Forall (fun x => forall st, (exists r, rp x st = Some r) <-> drawable x) args).
      { unfold the_list, gfn in E. injection E as ->. inversion IH; assumption. }
      clear E IH A l.
      assert (G : forall st, (exists r, render_list args st = Some r) <-> Forall drawable args).
      { induction F as [|x t Hx _ IH]; intro st0; [split; [constructor|exists []; reflexivity]|]. cbn [render_list]. split.
        - intros [r R]. destruct (rp x st0) as [[s1 st1]|] eqn:Rx; [|discriminate]. destruct (render_list t st1) as [s2|] eqn:Rt; [|discriminate].
          constructor; [apply (Hx st0); eauto|]. apply (IH st1). eauto.
        - intro D. inversion D as [|? ? Dx Dt]; subst. apply (Hx st0) in Dx. destruct Dx as [[s1 st1] ->]. apply (IH st1) in Dt. destruct Dt as [s2 ->]. eauto. }
      split.
      + intros [r R]. destruct (render_list args st) as [s|] eqn:L; [|discriminate]. apply DR_list. apply (G st). eauto.
      + intro D. remember (the_list args) as e1 eqn:K. destruct D as [ps|ds' F'|l0 F'|e0 H]; try discriminate K; [injection K as ->|subst e0].
        * apply (G st) in F'. destruct F' as [r ->]. eauto.
        * destruct (H args) as [_ [_ X]]. exfalso. apply X. reflexivity.
  Qed.
End R.

(* The series drawn are the Lines of the expression in reading order, each with
   its points and with the style given by the directives before it in its own
   list and in the lists around it. *)
Theorem C93_lines : forall byte p opts out, render byte (gfn "Graphics" (p :: opts)) = Some out ->
  exists ps, StronglySorted before ps /\ (forall q, In q ps <-> exists ds args, line_at p q ds args) /\
    Forall2 (fun q s => exists ds args ks, line_at p q ds args /\ points args (ser_points s) /\
      Forall2 directive_is ds ks /\ style_is byte ks (ser_style s)) ps out.
Proof.
  intros byte p opts out H. unfold render in H. rewrite (proj2 (args_of_eq (gfn "Graphics" (p :: opts)) "System`Graphics" (p :: opts)) eq_refl) in H.
  destruct (render_primitive byte p black) as [[s st]|] eqn:R; [|discriminate]. injection H as <-.
  destruct (drawn byte p black s st R) as [_ [ps [S [I F]]]]. exists ps. split; [exact S|]. split; [exact I|].
  eapply forall2_impl; [|exact F]. intros q sr [ds [args [L [D P]]]]. apply directives_ok in D. destruct D as [ks [D E]].
  exists ds, args, ks. split; [exact L|]. split; [exact P|]. split; [exact D|]. rewrite E. apply style_ok.
Qed.
Print Assumptions C93_lines.

(* rendering succeeds exactly for Graphics[p, ...] in which all lists, lines and
   directives that are reached are well formed *)
Theorem C93_success : forall byte e, (exists out, render byte e = Some out) <-> exists p opts, e = gfn "Graphics" (p :: opts) /\ drawable p.
Proof.
  intros byte e. unfold render. split.
  - intros [out H]. destruct (args_of e "System`Graphics") as [[|p opts]|] eqn:E; try discriminate. apply args_of_eq in E. subst.
    exists p, opts. split; [reflexivity|]. apply (drawable_ok byte p black). destruct (render_primitive byte p black); [eauto|discriminate].
  - intros [p [opts [-> D]]]. rewrite (proj2 (args_of_eq (gfn "Graphics" (p :: opts)) "System`Graphics" (p :: opts)) eq_refl).
    apply (drawable_ok byte p black) in D. destruct D as [[s st] ->]. eauto.
Qed.
Print Assumptions C93_success.

(* directives in a nested list do not affect what follows it: taking the nested
   list away takes its own lines away and leaves the others as they were *)
Theorem C93_scope : forall byte pre l post out, render byte (gfn "Graphics" [the_list (pre ++ the_list l :: post)]) = Some out ->
  exists s1 s2 s3, out = s1 ++ s2 ++ s3 /\ render byte (gfn "Graphics" [the_list (pre ++ post)]) = Some (s1 ++ s3) /\
    (forall l', drawable (the_list l') -> exists s2', render byte (gfn "Graphics" [the_list (pre ++ the_list l' :: post)]) = Some (s1 ++ s2' ++ s3)).
Proof.
  intros byte pre l post out H.
  assert (Rd : forall a, render byte (gfn "Graphics" [the_list a]) = render_list byte a black).
  { intro a. unfold render. rewrite (proj2 (args_of_eq (gfn "Graphics" [the_list a]) "System`Graphics" [the_list a]) eq_refl). rewrite rp_list.
    destruct (render_list byte a black); reflexivity. }
  rewrite Rd in H. setoid_rewrite Rd. clear Rd.
  assert (G : exists s1 st s3, out = s1 ++ match render_list byte l st with Some s => s | None => [] end ++ s3 /\ render_list byte (pre ++ post) black = Some (s1 ++ s3) /\
    (forall l', drawable (the_list l') -> exists s2', render_list byte (pre ++ the_list l' :: post) black = Some (s1 ++ s2' ++ s3))).
  { revert H. generalize black. intro st. revert st out. induction pre as [|x t IH]; intros st out H.
    - cbn [app render_list] in *. rewrite rp_list in H. destruct (render_list byte l st) as [s2|] eqn:L; [|discriminate].
      destruct (render_list byte post st) as [s3|] eqn:P; [|discriminate]. injection H as <-. exists [], st, s3. rewrite L. split; [reflexivity|]. split; [reflexivity|].
      intros l' D. apply (drawable_ok byte _ st) in D. destruct D as [[s2' st'] D]. rewrite D. rewrite rp_list in D.
      destruct (render_list byte l' st); [|discriminate]. injection D as <- <-. exists l0. rewrite P. reflexivity.
    - cbn [app render_list] in *. destruct (render_primitive byte x st) as [[sx st1]|] eqn:X; [|discriminate].
      destruct (render_list byte (t ++ the_list l :: post) st1) as [s|] eqn:T; [|discriminate]. injection H as <-.
      destruct (IH _ _ T) as [s1 [stl [s3 [-> [P Q]]]]]. exists (sx ++ s1), stl, s3. split; [rewrite <- app_assoc; reflexivity|]. rewrite P. split; [rewrite app_assoc; reflexivity|].
      intros l' D. destruct (Q l' D) as [s2' ->]. exists s2'. rewrite <- app_assoc. reflexivity. }
  destruct G as [s1 [st [s3 [-> [P Q]]]]]. exists s1, (match render_list byte l st with Some s => s | None => [] end), s3.
  split; [reflexivity|]. split; [exact P|exact Q].
Qed.
Print Assumptions C93_scope.

(* {Line a, Directive[red], {Directive[Opacity, thick], Line b}, Line c} *)
Definition f1 : flt := FFin false 1 0 0.
Definition f0 : flt := FFin false 0 0 0.
Definition half : flt := FFin false 1 (-1) 0.
Definition byte0 (f : flt) : N := match f with FFin _ 0 _ _ => 0 | FFin _ _ 0%Z _ => 255 | _ => 127 end.
Definition pt (x y : flt) : ex := the_list [EFlt x; EFlt y].
Definition ln (l : list (flt * flt)) : ex := gfn "Line" [the_list (map (fun '(x, y) => the_list [EFlt x; EFlt y]) l)].
Definition red : ex := gfn "RGBColor" [EFlt f1; EFlt f0; EFlt f0].
Definition faint : ex := gfn "Opacity" [EFlt half].
Definition inner : list ex := [gfn "Directive" [faint; gfn "AbsoluteThickness" [EFlt f1]]; ln [(f1, f1); (f0, f0)]].
Definition outer : list ex := [ln [(f0, f1)]; gfn "Directive" [red]; the_list inner; EInt 3; ln [(f1, f0)]].
Definition sample : ex := the_list outer.
Example C93_ex : render byte0 (gfn "Graphics" [sample]) = Some
    [Series black [(f0, f1)]; Series (Style 255 0 0 127 (Some f1)) [(f1, f1); (f0, f0)]; Series (Style 255 0 0 255 None) [(f1, f0)]] /\
  drawable sample /\ line_at sample [2; 1] [red; faint; gfn "AbsoluteThickness" [EFlt f1]] [the_list [pt f1 f1; pt f0 f0]].
Proof.
  split; [reflexivity|]. split.
  - apply (drawable_ok byte0 sample black). eexists. reflexivity.
  - exact (LA_in outer 2 _ [1] _ _ eq_refl (LA_in inner 1 _ [] _ _ eq_refl (LA_here _))).
Qed.

(* As in Mathematica, an opacity and a colour should be independent, a colour may
   stand in a list without Directive, and coordinates may be integers.  None of
   this holds. *)
Theorem C93_opacity_refuted :
  ~ forall byte l out, render byte (gfn "Graphics" [the_list [gfn "Directive" [faint; red]; l]]) = Some out -> Forall (fun s => sty_a (ser_style s) = byte half) out.
Proof.
  intro H. specialize (H byte0 (ln [(f0, f1)]) _ eq_refl). inversion H as [|s t K _]. discriminate K.
Qed.
Print Assumptions C93_opacity_refuted.
Theorem C93_bare_color_refuted : forall byte c l s, c <> gfn "Directive" (match c with EExpr (_ :: a) => a | _ => [] end) ->
  (forall a, c <> gfn "Line" a) -> (forall a, c <> the_list a) ->
  render byte (gfn "Graphics" [the_list [c; ln l]]) = Some s -> map ser_style s = [black].
Proof.
  intros byte c l s H1 H2 H3 H.
  assert (O : forall a, c <> gfn "Line" a /\ c <> gfn "Directive" a /\ c <> the_list a).
  { intro a. split; [apply H2|]. split; [|apply H3]. intros ->. apply H1. reflexivity. }
  unfold render in H. rewrite (proj2 (args_of_eq (gfn "Graphics" [the_list [c; ln l]]) "System`Graphics" [the_list [c; ln l]]) eq_refl) in H.
  rewrite rp_list in H. cbn [render_list] in H. rewrite rp_other in H by exact O. unfold ln in H. rewrite rp_line in H.
  pose proof (proj2 (line_ok _ black (Series black l)) (conj eq_refl eq_refl)) as K. cbn [ser_points] in K. rewrite K in H.
  injection H as <-. reflexivity.
Qed.
Print Assumptions C93_bare_color_refuted.
Example C93_ex_bare : render byte0 (gfn "Graphics" [the_list [red; ln [(f0, f1)]]]) = Some [Series black [(f0, f1)]].
Proof. reflexivity. Qed.
Theorem C93_integer_points_refuted : forall byte x y, render byte (gfn "Graphics" [gfn "Line" [the_list [the_list [EInt x; EInt y]]]]) = None.
Proof. reflexivity. Qed.
Print Assumptions C93_integer_points_refuted.
