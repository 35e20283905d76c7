(* Proofs about the definition store (M_Defs). *)
From Verif Require Import M_Syntax M_Float M_Hash M_Match M_Defs S_Defs P_Hash.
From Coq Require Import Sorted Permutation.
Open Scope nat_scope.

(* ---- association lists *)
Lemma assoc_set_same {A} (l : list (string * A)) n v : assoc (assoc_set l n v) n = Some v.
Proof.
  induction l as [|[k w] t IH]; cbn [assoc_set assoc].
  - now rewrite String.eqb_refl.
  - destruct (String.eqb k n) eqn:E; cbn [assoc]; rewrite E; auto.
Qed.
Lemma assoc_set_other {A} (l : list (string * A)) n v m : m <> n -> assoc (assoc_set l n v) m = assoc l m.
Proof.
  intro N. induction l as [|[k w] t IH]; cbn [assoc_set assoc].
  - destruct (String.eqb_spec n m) as [E|E]; [congruence|reflexivity].
  - destruct (String.eqb_spec k n) as [E|E]; cbn [assoc].
    + subst k. destruct (String.eqb_spec n m) as [E2|E2]; [congruence|reflexivity].
    + destruct (String.eqb k m); auto.
Qed.
Lemma lookup_set_same st n d : lookup (set_def st n d) n = Some d.
Proof. apply assoc_set_same. Qed.
Lemma lookup_set_other st n d m : m <> n -> lookup (set_def st n d) m = lookup st m.
Proof. apply assoc_set_other. Qed.
Lemma frozen_set st n d : st_frozen (set_def st n d) = st_frozen st.
Proof. reflexivity. Qed.
Lemma rules_set_same st n d : rules_of (set_def st n d) n = d_dvs d.
Proof. unfold rules_of. now rewrite lookup_set_same. Qed.
Lemma rules_set_other st n d m : m <> n -> rules_of (set_def st n d) m = rules_of st m.
Proof. intro. unfold rules_of. now rewrite lookup_set_other. Qed.

(* ---- keys *)
Definition key (d : dval) : N * N := (hash (dv_lhs d), hash (mask_non_conditional (dv_rhs d))).
Definition key2 (h r : ex) : N * N := (hash h, hash (mask_non_conditional r)).
Definition key_eqb (a b : N * N) : bool := N.eqb (fst a) (fst b) && N.eqb (snd a) (snd b).
Lemma key_eqb_eq a b : key_eqb a b = true <-> a = b.
Proof.
  destruct a as [a1 a2], b as [b1 b2]. unfold key_eqb; cbn [fst snd].
  rewrite andb_true_iff, !N.eqb_eq. split; [intros [-> ->]; reflexivity|intro E; injection E; auto].
Qed.

Definition not_flt (e : ex) : Prop := match e with EFlt _ => False | _ => True end.
Lemma sameq_not_flt_r a b : not_flt b -> is_sameq a b = N.eqb (hash a) (hash b).
Proof. destruct a, b; cbn [not_flt]; intro H; try contradiction; reflexivity. Qed.
Lemma mask_not_flt e : not_flt (mask_non_conditional e).
Proof.
  destruct e as [s|s|z|n d|f|a b|l]; try exact I.
  destruct l as [|h args]; [exact I|]. destruct h; try exact I. cbn [mask_non_conditional].
  destruct (String.eqb _ _); [exact I|].
  destruct (_ || _); [|exact I].
  destruct args as [|x [|body [|? ?]]]; try exact I. destruct (has_head _ _); exact I.
Qed.
Lemma same_rule_key l r d : not_flt l -> same_rule l r d = key_eqb (key d) (key2 l r).
Proof.
  intro H. unfold same_rule, key_eqb, key, key2. cbn [fst snd].
  now rewrite !sameq_not_flt_r by (auto using mask_not_flt).
Qed.
Lemma held_not_flt l : not_flt (held l). Proof. exact I. Qed.
Lemma keyb_key l1 r1 l2 r2 : keyb (held l1) r1 (held l2) r2 = key_eqb (key2 (held l1) r1) (key2 (held l2) r2).
Proof.
  unfold keyb, key_eqb, key2. cbn [fst snd]. now rewrite !sameq_not_flt_r by (auto using mask_not_flt, held_not_flt).
Qed.
Lemma keyb_spec l1 r1 l2 r2 : keyb (held l1) r1 (held l2) r2 = true <-> same_key (held l1) r1 (held l2) r2.
Proof. unfold keyb, same_key. rewrite andb_true_iff. reflexivity. Qed.

(* ---- overwrite and insertion *)
Lemma overwrite_some h r l l' : overwrite h r l = Some l' ->
  exists a d b, l = a ++ d :: b /\ l' = a ++ DVal (dv_lhs d) r (dv_spec d) :: b /\
    same_rule h r d = true /\ Forall (fun x => same_rule h r x = false) a.
Proof.
  revert l'. induction l as [|d t IH]; intros l' H; [discriminate|]. cbn [overwrite] in H.
  destruct (same_rule h r d) eqn:E.
  - injection H as <-. exists [], d, t. repeat split; auto.
  - destruct (overwrite h r t) as [t'|] eqn:F; [|discriminate]. cbn in H. injection H as <-.
    destruct (IH t' eq_refl) as (a & d' & b & -> & -> & S & A).
    exists (d :: a), d', b. repeat split; auto.
Qed.
Lemma overwrite_none h r l : overwrite h r l = None -> Forall (fun x => same_rule h r x = false) l.
Proof.
  induction l as [|d t IH]; intro H; [constructor|]. cbn [overwrite] in H.
  destruct (same_rule h r d) eqn:E; [discriminate|].
  destruct (overwrite h r t) eqn:F; [discriminate|]. constructor; auto.
Qed.
Lemma insert_shape fl n h r l : exists a b sp, l = a ++ b /\ insert_rule fl n h r l = a ++ DVal h r sp :: b /\
  (sp = 0%Z \/ sp = rule_specificity fl h r n) /\
  Forall (fun d => (rule_specificity fl h r n <= eff_spec fl n d)%Z) a /\
  match b with [] => True | d :: _ => (eff_spec fl n d < rule_specificity fl h r n)%Z end.
Proof.
  induction l as [|d t IH]; cbn [insert_rule].
  - exists [], [], 0%Z. repeat split; auto.
  - destruct (Z.ltb_spec (eff_spec fl n d) (rule_specificity fl h r n)) as [L|L].
    + exists [], (d :: t), (rule_specificity fl h r n). repeat split; auto.
    + destruct IH as (a & b & sp & -> & -> & S & A & B).
      exists (d :: a), b, sp. repeat split; auto.
Qed.

Lemma overwrite_key h r d : not_flt h -> same_rule h r d = true -> key (DVal (dv_lhs d) r (dv_spec d)) = key d.
Proof.
  intros N H. rewrite same_rule_key in H by exact N. apply key_eqb_eq in H.
  unfold key, key2 in *. cbn [dv_lhs dv_rhs] in *. injection H as H1 H2. now rewrite H2.
Qed.

Definition uniq (l : list dval) : Prop := NoDup (map key l).

Lemma define_rule_uniq fl n h r l : not_flt h -> uniq l -> uniq (define_rule fl n h r l).
Proof.
  intros N U. unfold define_rule. destruct (overwrite h r l) as [l'|] eqn:E.
  - apply overwrite_some in E. destruct E as (a & d & b & -> & -> & S & A).
    unfold uniq in *. rewrite map_app in *. cbn [map] in *. now rewrite (overwrite_key h r d N S).
  - apply overwrite_none in E. destruct (insert_shape fl n h r l) as (a & b & sp & -> & -> & _).
    unfold uniq in *. rewrite map_app in *. cbn [map].
    apply NoDup_Add with (a := key (DVal h r sp)) (l := map key a ++ map key b).
    + apply Add_app.
    + split; [exact U|]. rewrite <- map_app. intro I. apply in_map_iff in I. destruct I as (d & K & I).
      rewrite Forall_forall in E. specialize (E d I). rewrite same_rule_key in E by exact N.
      assert (key_eqb (key d) (key2 h r) = true) as T by (apply key_eqb_eq; exact K). congruence.
Qed.

Lemma filter_all {A} (f : A -> bool) l : Forall (fun x => f x = true) l -> filter f l = l.
Proof. induction 1 as [|x t H _ IH]; cbn; [reflexivity|]. now rewrite H, IH. Qed.
Lemma filter_none {A} (f : A -> bool) l : Forall (fun x => f x = false) l -> filter f l = [].
Proof. induction 1 as [|x t H _ IH]; cbn; [reflexivity|]. now rewrite H. Qed.

Lemma uniq_same_once h r a d b : not_flt h -> uniq (a ++ d :: b) -> same_rule h r d = true ->
  Forall (fun x => same_rule h r x = false) (a ++ b).
Proof.
  intros N U S. unfold uniq in U. rewrite map_app in U. cbn [map] in U.
  apply NoDup_remove_2 in U. rewrite <- map_app in U. apply Forall_forall. intros x I.
  destruct (same_rule h r x) eqn:E; [|reflexivity]. exfalso. apply U.
  rewrite same_rule_key in E, S by exact N. apply key_eqb_eq in E, S.
  rewrite S, <- E. now apply in_map.
Qed.

(* what one definition does to a rule list without duplicate keys *)
Lemma define_rule_effect fl n h r l : not_flt h -> uniq l ->
  (exists d, filter (same_rule h r) (define_rule fl n h r l) = [d] /\ dv_rhs d = r /\ is_sameq (dv_lhs d) h = true) /\
  filter (fun d => negb (same_rule h r d)) (define_rule fl n h r l) = filter (fun d => negb (same_rule h r d)) l.
Proof.
  intros N U. unfold define_rule. destruct (overwrite h r l) as [l'|] eqn:E.
  - apply overwrite_some in E. destruct E as (a & d & b & -> & -> & S & _).
    pose proof (uniq_same_once h r a d b N U S) as F. apply Forall_app in F. destruct F as [Fa Fb].
    assert (same_rule h r (DVal (dv_lhs d) r (dv_spec d)) = true) as S'.
    { rewrite same_rule_key by exact N. rewrite (overwrite_key h r d N S). now rewrite <- same_rule_key. }
    split.
    + exists (DVal (dv_lhs d) r (dv_spec d)). rewrite filter_app. cbn [filter]. rewrite S'.
      rewrite !filter_none by assumption. repeat split. cbn [dv_lhs]. unfold same_rule in S.
      apply andb_true_iff in S. apply S.
    + rewrite !filter_app. cbn [filter]. now rewrite S', S.
  - apply overwrite_none in E. destruct (insert_shape fl n h r l) as (a & b & sp & -> & -> & _).
    apply Forall_app in E. destruct E as [Ea Eb].
    assert (same_rule h r (DVal h r sp) = true) as S'.
    { rewrite same_rule_key by exact N. now apply key_eqb_eq. }
    split.
    + exists (DVal h r sp). rewrite filter_app. cbn [filter]. rewrite S', !filter_none by assumption.
      repeat split. cbn [dv_lhs]. apply sameq_refl.
    + rewrite !filter_app. cbn [filter]. now rewrite S'.
Qed.

(* ---- Define at state level *)
Definition fresh_def (lhs rhs : ex) : def := Def [DVal (held lhs) rhs 0] no_attrs None false.
Definition new_def fl h lhs rhs (o : option def) : def :=
  match o with
  | None => fresh_def lhs rhs
  | Some d => Def (define_rule fl h (held lhs) rhs (d_dvs d)) (d_attrs d) (d_default d) (d_builtin d)
  end.

Lemma nempty_eqb s : s <> ""%string -> String.eqb s "" = false.
Proof. intro H. destruct (String.eqb_spec s ""); congruence. Qed.

Lemma define_rule_lhs fl st lhs rhs s : st_frozen st = false -> rule_lhs lhs s ->
  define fl st lhs rhs = Some (set_def st s (new_def fl s lhs rhs (lookup st s))).
Proof.
  intros F (T & NA & ND). unfold define. rewrite F.
  destruct T as [s H|s args H HA HD|s|s|s a b H].
  - cbn [lhs_name]. rewrite (nempty_eqb _ H). unfold new_def, fresh_def. reflexivity.
  - destruct (String.eqb_spec s (sysname "Attributes")) as [E|_]; [congruence|].
    destruct (String.eqb_spec s (sysname "DownValues")) as [E|_]; [congruence|].
    rewrite (nempty_eqb _ H). reflexivity.
  - exfalso. now apply (NA s).
  - exfalso. now apply (ND s).
  - change (lhs_name (EExpr (EExpr (sys "Verbatim" :: ESym s :: a) :: b))) with
      (if String.eqb s "" then None else Some s).
    rewrite (nempty_eqb _ H). reflexivity.
Qed.

(* every left-hand side either has a target, is ignored, or aborts *)
Lemma define_cases fl st lhs rhs st' : st_frozen st = false -> define fl st lhs rhs = Some st' ->
  (exists s, rule_lhs lhs s /\ st' = set_def st s (new_def fl s lhs rhs (lookup st s))) \/
  (exists s, lhs = EExpr [sys "Attributes"; ESym s] /\ st' = define_attrs st s rhs) \/
  (exists s, lhs = EExpr [sys "DownValues"; ESym s] /\ st' = define_down_values st s rhs) \/
  (st' = st /\ forall s, ~ target lhs s).
Proof.
  intros F H. unfold define in H. rewrite F in H.
  destruct lhs as [s|s|z|n d|f|a b|l];
    try (cbn [lhs_name verbatim_op_name] in H; discriminate H).
  - cbn [lhs_name] in H. destruct (String.eqb_spec s "") as [E|E]; [discriminate|]. injection H as <-.
    left. exists s. split; [|reflexivity]. split; [now constructor|]. split; intros t X; discriminate X.
  - destruct l as [|h args]; [cbn in H; discriminate H|].
    destruct h as [s|s|z|n d|f|a b|l].
    2-6: cbn [lhs_name verbatim_op_name] in H; discriminate H.
    + destruct (String.eqb_spec s (sysname "Attributes")) as [E|E].
      { subst s. destruct args as [|[s|s|z|n d|f|a b|l] [|? ?]];
          try (injection H as <-; right; right; right; split; [reflexivity|];
               intros u T; inversion T; subst; unfold sys in *; congruence).
        injection H as <-. right; left. exists s. split; reflexivity. }
      destruct (String.eqb_spec s (sysname "DownValues")) as [E2|E2].
      { subst s. destruct args as [|[s|s|z|n d|f|a b|l] [|? ?]];
          try (injection H as <-; right; right; right; split; [reflexivity|];
               intros u T; inversion T; subst; unfold sys in *; congruence).
        injection H as <-. right; right; left. exists s. split; reflexivity. }
      destruct (String.eqb_spec s "") as [E3|E3]; [discriminate|]. injection H as <-.
      left. exists s. split; [|reflexivity]. split; [now constructor|].
      split; intros t X; injection X as X1 X2; congruence.
    + cbn [lhs_name verbatim_op_name] in H.
      destruct l as [|[v|?|?|? ?|?|? ?|?] [|[s|?|?|? ?|?|? ?|?] r]]; try discriminate H.
      destruct (String.eqb_spec v (sysname "Verbatim")) as [E|E]; [|discriminate].
      destruct (String.eqb_spec s "") as [E2|E2]; [discriminate|]. injection H as <-. subst v.
      left. exists s. split; [|reflexivity]. split; [now apply T_verb|].
      split; intros t X; discriminate X.
Qed.

Lemma define_attrs_shape st s rhs : define_attrs st s rhs = st \/
  exists ss, define_attrs st s rhs = set_def st s
    (let d := match lookup st s with Some d => d | None => def0 end in
     Def (d_dvs d) (strings_to_attributes ss) (d_default d) (d_builtin d)).
Proof.
  unfold define_attrs. destruct (head_assertion rhs nList) as [[|x args]|]; auto.
  destruct (attr_strings args) as [ss|]; [right; exists ss; reflexivity|auto].
Qed.
Lemma define_dv_shape st s rhs : define_down_values st s rhs = st \/
  exists dvs, define_down_values st s rhs = set_def st s
    (let d := match lookup st s with Some d => d | None => def0 end in
     Def dvs (d_attrs d) (d_default d) (d_builtin d)).
Proof.
  unfold define_down_values. destruct (head_assertion rhs nList) as [[|x args]|]; auto.
  destruct (as_rules args) as [ss|]; [right; exists ss; reflexivity|auto].
Qed.

Lemma define_frozen fl st lhs rhs : st_frozen st = true -> define fl st lhs rhs = Some st.
Proof. intro H. unfold define. now rewrite H. Qed.

Lemma define_frame fl st lhs rhs st' m : define fl st lhs rhs = Some st' -> ~ target lhs m ->
  lookup st' m = lookup st m.
Proof.
  intros H NT. destruct (st_frozen st) eqn:F.
  { rewrite define_frozen in H by exact F. now injection H as <-. }
  apply define_cases in H; [|exact F].
  destruct H as [(s & R & ->)|[(s & -> & ->)|[(s & -> & ->)|(-> & _)]]].
  - apply lookup_set_other. intros ->. apply NT, R.
  - destruct (define_attrs_shape st s rhs) as [->|(ss & ->)]; [reflexivity|].
    apply lookup_set_other. intros ->. apply NT. constructor.
  - destruct (define_dv_shape st s rhs) as [->|(ss & ->)]; [reflexivity|].
    apply lookup_set_other. intros ->. apply NT. apply T_dv.
  - reflexivity.
Qed.
Lemma define_keeps_frozen fl st lhs rhs st' : define fl st lhs rhs = Some st' -> st_frozen st' = st_frozen st.
Proof.
  intro H. destruct (st_frozen st) eqn:F.
  { rewrite define_frozen in H by exact F. now injection H as <-. }
  rewrite <- F. apply define_cases in H; [|exact F].
  destruct H as [(s & R & ->)|[(s & -> & ->)|[(s & -> & ->)|(-> & _)]]]; try reflexivity.
  - destruct (define_attrs_shape st s rhs) as [->|(ss & ->)]; reflexivity.
  - destruct (define_dv_shape st s rhs) as [->|(ss & ->)]; reflexivity.
Qed.

(* ---- reachable states: unique keys, all left-hand sides held *)
Definition good (l : list dval) : Prop := uniq l /\ Forall (fun d => exists x, dv_lhs d = held x) l.

Lemma define_rule_held fl n x r l : Forall (fun d => exists x, dv_lhs d = held x) l ->
  Forall (fun d => exists x, dv_lhs d = held x) (define_rule fl n (held x) r l).
Proof.
  intro H. unfold define_rule. destruct (overwrite (held x) r l) as [l'|] eqn:E.
  - apply overwrite_some in E. destruct E as (a & d & b & -> & -> & S & A).
    apply Forall_app in H. destruct H as [Ha Hb]. inversion Hb as [|? ? Hd Hb']; subst.
    apply Forall_app. split; [exact Ha|]. constructor; [exact Hd|exact Hb'].
  - destruct (insert_shape fl n (held x) r l) as (a & b & sp & -> & -> & _).
    apply Forall_app in H. destruct H as [Ha Hb].
    apply Forall_app. split; [exact Ha|]. constructor; [now exists x|exact Hb].
Qed.

Lemma good_new fl s lhs rhs st : good (rules_of st s) -> good (d_dvs (new_def fl s lhs rhs (lookup st s))).
Proof.
  unfold rules_of, new_def. destruct (lookup st s) as [d|]; intros [U Hh]; cbn [d_dvs].
  - split; [apply define_rule_uniq; [exact I|exact U]|now apply define_rule_held].
  - unfold fresh_def; cbn [d_dvs]. split.
    + constructor; [intros []|constructor].
    + constructor; [now exists lhs|constructor].
Qed.

Lemma good_nil : good []. Proof. split; constructor. Qed.

Lemma good_set st s d m : good (d_dvs d) -> good (rules_of st m) -> good (rules_of (set_def st s d) m).
Proof.
  intros Hd Hm. destruct (String.eqb_spec m s) as [->|N].
  - now rewrite rules_set_same.
  - now rewrite rules_set_other.
Qed.

Lemma step_good fl st st' : step fl st st' -> (forall s, good (rules_of st s)) -> forall s, good (rules_of st' s).
Proof.
  intros S G m. destruct S as [st lhs rhs st' ND H|st s|st s|st b|st s r L].
  - destruct (st_frozen st) eqn:F.
    { rewrite define_frozen in H by exact F. injection H as <-. apply G. }
    apply define_cases in H; [|exact F].
    destruct H as [(s & R & ->)|[(s & -> & ->)|[(s & -> & ->)|(-> & _)]]].
    + apply good_set; [|apply G]. now apply good_new.
    + destruct (define_attrs_shape st s rhs) as [->|(ss & ->)]; [apply G|].
      apply good_set; [|apply G]. cbn [d_dvs]. specialize (G s). unfold rules_of in G.
      destruct (lookup st s); [exact G|exact good_nil].
    + exfalso. now apply (ND s).
    + apply G.
  - unfold clear. destruct (lookup st s); [|apply G]. apply good_set; [exact good_nil|apply G].
  - unfold mark_seen. destruct (lookup st s); [apply G|]. apply good_set; [exact good_nil|apply G].
  - apply (G m).
  - apply good_set; [|apply G]. cbn [d_dvs]. split.
    + constructor; [intros []|constructor].
    + constructor; [now exists (ESym s)|constructor].
Qed.
Lemma reachable_good fl st : reachable fl st -> forall s, good (rules_of st s).
Proof.
  induction 1 as [st E|st st' R IH S]; intro s.
  - rewrite E. exact good_nil.
  - eapply step_good; eauto.
Qed.

(* ---- C29 *)
Definition dpair (d : dval) : ex * ex := (dv_lhs d, dv_rhs d).
Definition hpair (p : ex * ex) : ex * ex := (held (fst p), snd p).
Definition spec_of fl n (p : ex * ex) : Z := rule_specificity fl (held (fst p)) (snd p) n.

Lemma define_rule_twice fl n h r l : not_flt h -> define_rule fl n h r (define_rule fl n h r l) = define_rule fl n h r l.
Proof.
  intro N. unfold define_rule at 2 3. destruct (overwrite h r l) as [l'|] eqn:E.
  - apply overwrite_some in E. destruct E as (a & d & b & -> & -> & S & A).
    assert (same_rule h r (DVal (dv_lhs d) r (dv_spec d)) = true) as S'.
    { rewrite same_rule_key by exact N. rewrite (overwrite_key h r d N S). now rewrite <- same_rule_key. }
    unfold define_rule. assert (overwrite h r (a ++ DVal (dv_lhs d) r (dv_spec d) :: b) =
      Some (a ++ DVal (dv_lhs d) r (dv_spec d) :: b)) as ->; [|reflexivity].
    induction A as [|x t Hx _ IH]; cbn [app overwrite].
    + now rewrite S'.
    + rewrite Hx, IH. reflexivity.
  - apply overwrite_none in E. destruct (insert_shape fl n h r l) as (a & b & sp & -> & -> & _).
    apply Forall_app in E. destruct E as [A _].
    assert (same_rule h r (DVal h r sp) = true) as S'.
    { rewrite same_rule_key by exact N. now apply key_eqb_eq. }
    unfold define_rule. assert (overwrite h r (a ++ DVal h r sp :: b) = Some (a ++ DVal h r sp :: b)) as ->; [|reflexivity].
    induction A as [|x t Hx _ IH]; cbn [app overwrite].
    + now rewrite S'.
    + rewrite Hx, IH. reflexivity.
Qed.

Lemma remember_spec h l r :
  (exists a l0 r0 b, h = a ++ (l0, r0) :: b /\ remember h l r = a ++ (l0, r) :: b /\
     keyb (held l0) r0 (held l) r = true /\ Forall (fun p => keyb (held (fst p)) (snd p) (held l) r = false) a) \/
  (remember h l r = h ++ [(l, r)] /\ Forall (fun p => keyb (held (fst p)) (snd p) (held l) r = false) h).
Proof.
  induction h as [|[l0 r0] t IH]; cbn [remember].
  - right. split; [reflexivity|constructor].
  - destruct (keyb (held l0) r0 (held l) r) eqn:E.
    + left. exists [], l0, r0, t. repeat split; auto.
    + destruct IH as [(a & l1 & r1 & b & -> & -> & K & A)|(-> & A)].
      * left. exists ((l0, r0) :: a), l1, r1, b. repeat split; auto.
      * right. split; [reflexivity|]. constructor; auto.
Qed.
