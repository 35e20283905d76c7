(* Property theorems: SetAttributes, ClearAttributes, Protect, Unprotect (C112). *)
From Verif Require Import M_Syntax M_Hash M_Sort M_Defs M_List M_Attr S_Syntax S_Order S_SameQ S_Sort S_Comb S_List S_Defs
  P_Order P_Sort P_Hash P_Comb P_List P_Defs P_Defs2 P_Defs3 T_List T_Defs.
From Coq Require Import Lia.

(* the names listed by Attributes[s] *)
Definition has_attribute (st : state) (s a : string) : Prop :=
  exists L, attributes_eval st s = mkList (map sys L) /\ In a L.

Lemma attributes_list st s : exists L, attributes_eval st s = mkList (map sys L) /\ forall a, In a L -> In a known_attributes.
Proof.
  unfold attributes_eval. destruct (lookup st s) as [d|]; [|exists []; split; [reflexivity|intros a []]].
  exists (attrs_to_strings (d_attrs d)). split; [reflexivity|]. intros a H. apply attrs_to_strings_in in H.
  destruct H as (i & I & _). apply names_known. exists i. apply tables_agree, I.
Qed.

Lemma has_iff st s L a : attributes_eval st s = mkList (map sys L) -> (has_attribute st s a <-> In a L).
Proof.
  intro E. split; [|intro H; exists L; auto]. intros (L' & E' & H). rewrite E in E'. injection E' as E'.
  assert (X : In (sys a) (map sys L)) by (rewrite E'; apply in_map, H).
  apply in_map_iff in X. destruct X as (b & Eb & Hb). unfold sys, sysname in Eb. injection Eb as Eb. subst b. exact Hb.
Qed.

Fixpoint distinct (l : list N) : bool :=
  match l with [] => true | x :: t => negb (existsb (N.eqb x) t) && distinct t end.
Lemma distinct_map {A} (f : A -> N) l : distinct (map f l) = true -> forall a b, In a l -> In b l -> f a = f b -> a = b.
Proof.
  induction l as [|x l IH]; intros D a b Ha Hb E; [destruct Ha|]. cbn [map distinct] in D.
  apply andb_prop in D. destruct D as [D1 D2]. apply Bool.negb_true_iff in D1.
  assert (N : forall y, In y l -> f x <> f y).
  { intros y Hy Q. assert (X : existsb (N.eqb (f x)) (map f l) = true); [|congruence].
    apply existsb_exists. exists (f y). split; [apply in_map, Hy|apply N.eqb_eq, Q]. }
  destruct Ha as [<-|Ha], Hb as [<-|Hb]; auto; exfalso; [apply (N b Hb E)|apply (N a Ha (eq_sym E))].
Qed.
Lemma known_hashes : distinct (map (fun a => hash (sys a)) known_attributes) = true.
Proof. vm_compute. reflexivity. Qed.
Lemma known_distinct a b : In a known_attributes -> In b known_attributes -> hash (sys a) = hash (sys b) -> a = b.
Proof. exact (distinct_map (fun a => hash (sys a)) known_attributes known_hashes a b). Qed.

Lemma syms_faithful l : (forall x, In x l -> exists a, x = sys a /\ In a known_attributes) -> hash_faithful l /\ sameq_faithful l.
Proof.
  intro H.
  assert (HF : hash_faithful l).
  { intros x y Hx Hy E. destruct (H x Hx) as (a & -> & Ka). destruct (H y Hy) as (b & -> & Kb).
    f_equal. exact (known_distinct a b Ka Kb E). }
  split; [exact HF|]. intros x y Hx Hy E. destruct (H x Hx) as (a & -> & Ka). destruct (H y Hy) as (b & -> & Kb).
  apply HF; [exact Hx|exact Hy|]. unfold is_sameq, sys in E. apply N.eqb_eq in E. exact E.
Qed.

Lemma define_attributes fl st s names : st_frozen st = false -> exists st',
  define fl st (EExpr [sys "Attributes"; ESym s]) (mkList (map sys names)) = Some st' /\
  (forall m, m <> s -> lookup st' m = lookup st m).
Proof.
  intro F. unfold define. rewrite F. change (String.eqb (sysname "Attributes") (sysname "Attributes")) with true. cbn [sys].
  eexists. split; [reflexivity|]. intros m N. destruct (define_attrs_shape st s (mkList (map sys names))) as [->|(ss & ->)]; [reflexivity|].
  apply lookup_set_other, N.
Qed.

Lemma result_names (r : list ex) (P : string -> Prop) : (forall a, P a -> In a known_attributes) ->
  (forall x, In x r <-> exists a, x = sys a /\ P a) -> exists L, r = map sys L /\ forall a, In a L <-> P a.
Proof.
  intros K H.
  assert (X : exists L, r = map sys L).
  { assert (G : forall x, In x r -> exists a, x = sys a) by (intros x Hx; apply H in Hx; destruct Hx as (a & -> & _); eauto).
    clear H. induction r as [|x r IH]; [exists []; reflexivity|].
    destruct (G x (or_introl eq_refl)) as (a & ->). destruct IH as (L & ->); [intros y Hy; apply G; right; exact Hy|].
    exists (a :: L). reflexivity. }
  destruct X as (L & ->). exists L. split; [reflexivity|]. intro a. split.
  - intro Ha. destruct (proj1 (H (sys a)) (in_map sys _ _ Ha)) as (b & E & Pb). unfold sys, sysname in E. injection E as ->. exact Pb.
  - intro Pa. assert (In (sys a) (map sys L)) as Hin by (apply H; eauto). apply in_map_iff in Hin.
    destruct Hin as (b & E & Hb). unfold sys, sysname in E. injection E as ->. exact Hb.
Qed.

(* ---- C112 ---- *)
(* SetAttributes[s, {a1, ..., an}] adds exactly the ai, keeps all rules, and
   touches no other symbol *)
Theorem C112_set_attributes : forall fl st s names, st_frozen st = false ->
  (forall a, In a names -> In a known_attributes) ->
  exists st', set_attributes fl st s (mkList (map sys names)) = Some st' /\
  (forall a, has_attribute st' s a <-> has_attribute st s a \/ In a names) /\
  (forall m, m <> s -> lookup st' m = lookup st m) /\
  (forall m, rules_of st' m = rules_of st m).
Proof.
  intros fl st s names Fz K. destruct (attributes_list st s) as (L & E & KL). unfold set_attributes. rewrite E.
  assert (All : forall x, In x (concat [map sys L; map sys names]) -> exists a, x = sys a /\ In a known_attributes).
  { intros x Hx. cbn [concat] in Hx. rewrite app_nil_r in Hx. apply in_app_iff in Hx.
    destruct Hx as [Hx|Hx]; apply in_map_iff in Hx; destruct Hx as (a & <- & Ha); eauto. }
  destruct (syms_faithful _ All) as [_ SF].
  destruct (C42_union_partial sList (map sys L) [map sys names]) as (r & U & _ & _ & M); [|exact SF|].
  { intros x Hx. destruct (All x Hx) as (a & -> & _). split; reflexivity. }
  cbn [map] in U. unfold mkList. rewrite U.
  destruct (result_names r (fun a => In a L \/ In a names)) as (R & -> & HR).
  - intros a [H|H]; auto.
  - intro x. rewrite M. split.
    + intros (l' & [<-|[<-|[]]] & Hx); apply in_map_iff in Hx; destruct Hx as (a & <- & Ha); eauto.
    + intros (a & -> & [Ha|Ha]); eexists; (split; [|apply in_map; exact Ha]); cbn; auto.
  - destruct (define_attributes fl st s R Fz) as (st' & D & O). unfold mkList in D. rewrite D. exists st'. split; [reflexivity|].
    split; [|split; [exact O|intro m; exact (C31_setting_attributes_keeps_rules fl st s _ st' m D)]].
    destruct (C31_attributes_round_trip fl st s R st' Fz D) as (L' & E' & _ & M').
    intro a. rewrite (has_iff st' s L' a E'), (has_iff st s L a E), M', HR. split; [tauto|]. intros [H|H]; auto.
Qed.
Print Assumptions C112_set_attributes.

Theorem C112_clear_attributes : forall fl st s names, st_frozen st = false ->
  (forall a, In a names -> In a known_attributes) ->
  exists st', clear_attributes fl st s (mkList (map sys names)) = Some st' /\
  (forall a, has_attribute st' s a <-> has_attribute st s a /\ ~ In a names) /\
  (forall m, m <> s -> lookup st' m = lookup st m) /\
  (forall m, rules_of st' m = rules_of st m).
Proof.
  intros fl st s names Fz K. destruct (attributes_list st s) as (L & E & KL). unfold clear_attributes. rewrite E.
  assert (All : forall x, In x (concat [map sys L; map sys names]) -> exists a, x = sys a /\ In a known_attributes).
  { intros x Hx. cbn [concat] in Hx. rewrite app_nil_r in Hx. apply in_app_iff in Hx.
    destruct Hx as [Hx|Hx]; apply in_map_iff in Hx; destruct Hx as (a & <- & Ha); eauto. }
  destruct (syms_faithful _ All) as [HF _].
  destruct (C42_complement sList (map sys L) [map sys names]) as (r & U & _ & _ & M); [|exact HF|].
  { clear. assert (X : forallb wf (map sys L) = true) by (induction L; [reflexivity|assumption]). cbn. exact X. }
  cbn [map] in U. unfold mkList. rewrite U.
  assert (Inj : forall a l, In (sys a) (map sys l) <-> In a l).
  { intros a l. split; [|apply in_map]. intro H. apply in_map_iff in H. destruct H as (b & Eb & Hb).
    unfold sys, sysname in Eb. injection Eb as ->. exact Hb. }
  destruct (result_names r (fun a => In a L /\ ~ In a names)) as (R & -> & HR).
  - intros a [H _]; auto.
  - intro x. rewrite M. split.
    + intros (Hx & Nx). apply in_map_iff in Hx. destruct Hx as (a & <- & Ha). exists a. split; [reflexivity|].
      split; [exact Ha|]. intro H. apply (Nx (map sys names)); [left; reflexivity|apply in_map, H].
    + intros (a & -> & Ha & Na). split; [apply in_map, Ha|]. intros l' [<-|[]]. rewrite Inj. exact Na.
  - destruct (define_attributes fl st s R Fz) as (st' & D & O). unfold mkList in D. rewrite D. exists st'. split; [reflexivity|].
    split; [|split; [exact O|intro m; exact (C31_setting_attributes_keeps_rules fl st s _ st' m D)]].
    destruct (C31_attributes_round_trip fl st s R st' Fz D) as (L' & E' & _ & M').
    intro a. rewrite (has_iff st' s L' a E'), (has_iff st s L a E), M', HR. split; [tauto|]. intros [H1 H2]; auto.
Qed.
Print Assumptions C112_clear_attributes.

(* Protect and Unprotect *)
Theorem C112_protect : forall fl st s, st_frozen st = false ->
  exists st', protect fl st s = Some st' /\ has_attribute st' s "Protected" /\
  (forall a, a <> "Protected"%string -> (has_attribute st' s a <-> has_attribute st s a)) /\
  (forall m, rules_of st' m = rules_of st m).
Proof.
  intros fl st s Fz. destruct (C112_set_attributes fl st s ["Protected"%string] Fz) as (st' & E & A & _ & R).
  - intros a [<-|[]]. cbn. tauto.
  - exists st'. split; [exact E|]. split; [apply A; right; left; reflexivity|]. split; [|exact R].
    intros a N. rewrite A. cbn. split; [|tauto]. intros [H|[H|[]]]; [exact H|congruence].
Qed.
Print Assumptions C112_protect.

Theorem C112_unprotect : forall fl st s, st_frozen st = false ->
  exists st', unprotect fl st s = Some st' /\ ~ has_attribute st' s "Protected" /\
  (forall a, a <> "Protected"%string -> (has_attribute st' s a <-> has_attribute st s a)) /\
  (forall m, rules_of st' m = rules_of st m).
Proof.
  intros fl st s Fz. destruct (C112_clear_attributes fl st s ["Protected"%string] Fz) as (st' & E & A & _ & R).
  - intros a [<-|[]]. cbn. tauto.
  - exists st'. split; [exact E|]. split; [intro H; apply A in H; apply (proj2 H); left; reflexivity|]. split; [|exact R].
    intros a N. rewrite A. cbn. split; [tauto|]. intro H. split; [exact H|]. intros [H'|[]]. congruence.
Qed.
Print Assumptions C112_unprotect.

Lemma define_attrs_frozen st s rhs : st_frozen (define_attrs st s rhs) = st_frozen st.
Proof. destruct (define_attrs_shape st s rhs) as [->|(ss & ->)]; reflexivity. Qed.
Lemma set_attributes_frozen fl st s attrs st' : set_attributes fl st s attrs = Some st' -> st_frozen st' = st_frozen st.
Proof.
  unfold set_attributes. destruct (union_eval _) as [r|]; [|discriminate]. unfold define.
  destruct (st_frozen st) eqn:F; [intro E; injection E as <-; exact F|].
  change (String.eqb (sysname "Attributes") (sysname "Attributes")) with true. cbn [sys]. intro E. injection E as <-.
  rewrite define_attrs_frozen. exact F.
Qed.

(* SetAttributes[{s1, ..., sk}, {a1, ..., an}] does it for every symbol listed *)
Theorem C112_set_attributes_list : forall fl ss st names, st_frozen st = false ->
  (forall a, In a names -> In a known_attributes) ->
  exists st', set_attributes_all fl st ss (mkList (map sys names)) = Some st' /\
  (forall s a, has_attribute st' s a <-> has_attribute st s a \/ In s ss /\ In a names) /\
  (forall m, rules_of st' m = rules_of st m).
Proof.
  intros fl. unfold set_attributes_all. induction ss as [|s ss IH]; intros st names Fz K; cbn [scan_symbols].
  - exists st. split; [reflexivity|]. split; [|reflexivity]. intros s a. cbn. tauto.
  - destruct (C112_set_attributes fl st s names Fz K) as (st1 & E1 & A1 & O1 & R1). rewrite E1.
    destruct (IH st1 names) as (st' & E & A & R); [rewrite (set_attributes_frozen _ _ _ _ _ E1); exact Fz|exact K|].
    exists st'. split; [exact E|]. split; [|intro m; rewrite R; apply R1].
    intros s' a. rewrite A. destruct (String.eqb_spec s' s) as [->|N].
    + rewrite A1. cbn. tauto.
    + assert (X : has_attribute st1 s' a <-> has_attribute st s' a) by (unfold has_attribute, attributes_eval; rewrite O1 by exact N; tauto).
      rewrite X. cbn. split; [tauto|]. intros [H|[[H|H] H']]; [tauto|congruence|tauto].
Qed.
Print Assumptions C112_set_attributes_list.

Example C112_ex : match set_attributes_all fl0 empty_state ["Global`f"; "Global`g"]%string (mkList [sys "Flat"; sys "Orderless"]) with
  | Some st => match unprotect fl0 st "Global`f" with
    | Some st => match clear_attributes fl0 st "Global`g" (mkList [sys "Flat"]) with
      | Some st => attributes_eval st "Global`f" = mkList [sys "Flat"; sys "Orderless"] /\ attributes_eval st "Global`g" = mkList [sys "Orderless"]
      | None => False end
    | None => False end
  | None => False end.
Proof. vm_compute. split; reflexivity. Qed.
