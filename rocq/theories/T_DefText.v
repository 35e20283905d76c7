(* Property theorems: Definition (C131). *)
From Verif Require Import M_Parse M_OpForm S_Parse S_InputForm S_OpForm P_Parse P_OpForm P_OpForm2 T_OpForm M_DefText.
From Verif Require Import M_Syntax M_Float M_Hash M_Match M_Unique M_Defs S_Defs P_Hash P_Defs P_Defs2 P_Defs3 P_Defs5 T_Defs.
From Coq Require Import String List Sorted Lia.
Import ListNotations.
Open Scope nat_scope.

(* ---- specification ---- *)
(* what the text should say: the attributes (if any), the rules in the order they
   are tried, the default (if any) *)
Inductive says_attrs (st : state) (s : string) : list ex -> Prop :=
| Sa_none : attributes_eval st s = mkList [] -> says_attrs st s []
| Sa_some a : attributes_eval st s = a -> a <> mkList [] -> says_attrs st s [EExpr [sys "Set"; EExpr [sys "Attributes"; ESym s]; a]].
Inductive says_default (st : state) (s : string) : list ex -> Prop :=
| Sd_none : default_fn st [ESym s] = None -> says_default st s []
| Sd_some x : default_fn st [ESym s] = Some x -> says_default st s [EExpr [sys "Set"; EExpr [sys "Default"; ESym s]; x]].
Definition says (st : state) (s : string) (l : list (ex * ex)) (es : list ex) : Prop :=
  exists a d, says_attrs st s a /\ says_default st s d /\
    es = a ++ map (fun p => EExpr [sys "SetDelayed"; fst p; snd p]) l ++ d.
(* the rules of s, left-hand sides as the user wrote them *)
Definition stored (st : state) (s : string) (l : list (ex * ex)) : Prop :=
  map (fun d => (dv_lhs d, dv_rhs d)) (rules_of st s) = map (fun p => (held (fst p), snd p)) l.

Lemma oall_all {A B} (f : A -> option B) l r : Forall2 (fun a b => f a = Some b) l r -> oall (map f l) = Some r.
Proof. intro H. induction H as [|a b l r E _ IH]; cbn [map oall]; [reflexivity|]. rewrite E, IH. reflexivity. Qed.
Lemma rules_said dvs : forall l, map (fun d => (dv_lhs d, dv_rhs d)) dvs = map (fun p => (held (fst p), snd p)) l ->
  oall (map rule_expr dvs) = Some (map (fun p => EExpr [sys "SetDelayed"; fst p; snd p]) l).
Proof.
  induction dvs as [|d t IH]; intros [|[a b] l] H; try discriminate H; [reflexivity|].
  cbn [map fst snd] in H. injection H as H1 H2 H3. cbn [map oall fst snd]. unfold rule_expr at 1. rewrite H1, (IH _ H3), H2. reflexivity.
Qed.
Lemma sym_list_nil a : attrs_to_sym_list a = mkList [] <-> attrs_to_strings a = [].
Proof. unfold attrs_to_sym_list. destruct (attrs_to_strings a); cbn [map]; split; intro H; try reflexivity; discriminate H. Qed.
Lemma definition_said st s d l : lookup st s = Some d -> stored st s l -> exists es, definition_exprs d s = Some es /\ says st s l es.
Proof.
  intros L R. unfold stored, rules_of in R. rewrite L in R. unfold definition_exprs. rewrite (rules_said _ _ R).
  eexists. split; [reflexivity|].
  exists (match attrs_to_strings (d_attrs d) with
             | [] => [] | _ => [EExpr [sys "Set"; EExpr [sys "Attributes"; ESym s]; attrs_to_sym_list (d_attrs d)]] end),
    (match d_default d with Some x => [EExpr [sys "Set"; EExpr [sys "Default"; ESym s]; x]] | None => [] end).
  split; [|split].
  - destruct (attrs_to_strings (d_attrs d)) as [|x t] eqn:A.
    + apply Sa_none. unfold attributes_eval. rewrite L. apply sym_list_nil, A.
    + apply Sa_some; [unfold attributes_eval; rewrite L; reflexivity|]. intro H. apply sym_list_nil in H. congruence.
  - destruct (d_default d) as [x|] eqn:D; [apply Sd_some|apply Sd_none]; cbn [default_fn]; rewrite L; exact D.
  - reflexivity.
Qed.

Lemma attr_names st s : exists L, attributes_eval st s = mkList (map sys L) /\ forall a, In a L -> In a known_attributes.
Proof.
  unfold attributes_eval. destruct (lookup st s) as [d|].
  - exists (attrs_to_strings (d_attrs d)). split; [reflexivity|]. intros a H. apply attrs_to_strings_in in H.
    destruct H as (i & H & _). apply names_known. exists i. apply tables_agree, H.
  - exists []. split; [reflexivity|]. intros a [].
Qed.
Lemma plain_sys a : plain_name (sysname a).
Proof. unfold plain_name, sysname. intros [H|[H|[H|[H|[]]]]]; discriminate H. Qed.
Lemma call1_writable h x : In h ["Attributes"; "Default"]%string -> writable x -> writable (EExpr [sys h; x]).
Proof.
  intros Hh W. apply w_closed, c_call.
  - split; [apply plain_sys|]. intros op E. apply sysname_inj in E. subst op.
    destruct Hh as [<-|[<-|[]]]; (split; [intro K; cbn in K; repeat (destruct K as [K|K]; [discriminate K|]); exact K|]);
      (split; [intros _; cbn; lia|]); split; intros K; cbn in K; repeat (destruct K as [K|K]; try discriminate K); try discriminate.
  - constructor; [exact W|constructor].
  - constructor; [|constructor]. intro E. apply sysname_inj in E. destruct Hh as [<-|[<-|[]]]; discriminate E.
Qed.
Lemma list_writable L : writable (mkList (map sys L)).
Proof.
  apply w_closed, c_list. apply Forall_forall. intros x X. apply in_map_iff in X. destruct X as (a & <- & _).
  apply w_closed, c_sym, plain_sys.
Qed.
Lemma assign_writable op a b : In op ["Set"; "SetDelayed"]%string -> writable a -> writable b -> writable (EExpr [sys op; a; b]).
Proof. intros H A B. apply w_binary; auto; destruct H as [<-|[<-|[]]]; cbn; tauto. Qed.

(* ---- C131 ---- *)
(* the text of Definition[s] is one piece for the attributes, one for every rule
   in the order they are tried, and one for the default; each piece is read as
   the assignment it stands for, and as nothing else.  (What can be written and
   read: C102.) *)
Theorem C131_text_reads_partial : forall T nf st s l, sane T -> plain_name s -> lookup st s <> None -> stored st s l ->
  Forall (fun p => writable (fst p) /\ writable (snd p)) l -> (forall x, default_fn st [ESym s] = Some x -> writable x) ->
  exists es pieces, says st s l es /\ definition_text T st [ESym s] = DtPieces pieces /\
    Forall2 (fun ts e => forall e', op_reads T nf ts e' <-> e' = e) pieces es.
Proof.
  intros T nf st s l Sn Ps Df St W Wd. destruct (lookup st s) as [d|] eqn:L; [|congruence]. clear Df.
  destruct (definition_said st s d l L St) as (es & E & Sy). exists es.
  assert (All : Forall writable es).
  { destruct Sy as (a & df & Sa & Sd & ->). apply Forall_app. split; [|apply Forall_app; split].
    - destruct Sa as [_|a' A _]; [constructor|]. constructor; [|constructor]. destruct (attr_names st s) as (N & EN & _). rewrite EN in A. subst a'.
      apply assign_writable; [cbn; tauto|apply call1_writable; [cbn; tauto|apply w_closed, c_sym, Ps]|apply list_writable].
    - apply Forall_forall. intros x X. apply in_map_iff in X. destruct X as ([p q] & <- & I).
      rewrite Forall_forall in W. destruct (W _ I) as [W1 W2]. apply assign_writable; [cbn; tauto|exact W1|exact W2].
    - destruct Sd as [_|x X]; [constructor|]. constructor; [|constructor].
      apply assign_writable; [cbn; tauto|apply call1_writable; [cbn; tauto|apply w_closed, c_sym, Ps]|apply Wd, X]. }
  assert (Ex : exists pieces, Forall2 (fun e ts => op_form T e = Some ts) es pieces /\
     Forall2 (fun ts e => forall e', op_reads T nf ts e' <-> e' = e) pieces es).
  { clear E Sy. induction All as [|e es We _ IH]; [exists []; split; constructor|]. destruct IH as (ps & P1 & P2).
    destruct (C102_read_back_partial T nf e Sn We) as (ts & F & R). exists (ts :: ps). split; constructor; assumption. }
  destruct Ex as (ps & P1 & P2). exists ps. split; [exact Sy|]. split; [|exact P2].
  cbn [definition_text]. rewrite L, E, (oall_all _ _ _ P1). reflexivity.
Qed.
Print Assumptions C131_text_reads_partial.
Theorem C131_undefined : forall T st s, lookup st s = None -> definition_text T st [ESym s] = DtNull.
Proof. intros T st s L. cbn [definition_text]. rewrite L. reflexivity. Qed.
Print Assumptions C131_undefined.

(* ---- evaluating the pieces in a fresh session ---- *)
(* rules in the order of their specificity, no two for the same left-hand side
   and conditions *)
Definition settled (fl : ex -> Z) (s : string) (l : list (ex * ex)) : Prop :=
  StronglySorted (fun p q => (rule_specificity fl (held (fst q)) (snd q) s <= rule_specificity fl (held (fst p)) (snd p) s)%Z) l /\
  ForallOrdPairs (fun p q => keyb (held (fst p)) (snd p) (held (fst q)) (snd q) = false) l.

Lemma define_appends fl n h r l : Forall (fun d => keyb (dv_lhs d) (dv_rhs d) h r = false) l ->
  Forall (fun d => (rule_specificity fl h r n <= eff_spec fl n d)%Z) l -> define_rule fl n h r l = l ++ [DVal h r 0].
Proof.
  intros K S. unfold define_rule.
  assert (overwrite h r l = None) as ->.
  { clear S. induction K as [|d t E _ IH]; [reflexivity|]. cbn [overwrite]. change (same_rule h r d) with (keyb (dv_lhs d) (dv_rhs d) h r).
    rewrite E, IH. reflexivity. }
  clear K. induction S as [|d t E _ IH]; [reflexivity|]. cbn [insert_rule app].
  destruct (Z.ltb_spec (eff_spec fl n d) (rule_specificity fl h r n)); [lia|]. rewrite IH. reflexivity.
Qed.
Definition fresh_rules (l : list (ex * ex)) : list dval := map (fun p => DVal (held (fst p)) (snd p) 0) l.
Lemma ord_app {A} (R : A -> A -> Prop) a x b : ForallOrdPairs R (a ++ x :: b) -> Forall (fun y => R y x) a.
Proof.
  induction a as [|y a IH]; intro H; [constructor|]. cbn [app] in H. inversion H as [|? ? F H']; subst. constructor; [|apply IH, H'].
  rewrite Forall_forall in F. apply F, in_or_app. right. left. reflexivity.
Qed.
Lemma sorted_ord {A} (R : A -> A -> Prop) l : StronglySorted R l -> ForallOrdPairs R l.
Proof. intro H. induction H as [|a l _ IH F]; constructor; assumption. Qed.
Lemma run_rules fl s : forall l done st d, settled fl s (done ++ l) -> Forall (fun p => rule_lhs (fst p) s) l ->
  st_frozen st = false -> lookup st s = Some d -> d_dvs d = fresh_rules done ->
  exists st', run_pieces fl st (map (fun p => EExpr [sys "SetDelayed"; fst p; snd p]) l) = Some st' /\
    st_frozen st' = false /\ lookup st' s = Some (Def (fresh_rules (done ++ l)) (d_attrs d) (d_default d) (d_builtin d)).
Proof.
  induction l as [|[x r] l IH]; intros done st d St Ru Fz L D.
  - exists st. split; [reflexivity|]. split; [exact Fz|]. rewrite app_nil_r, <- D, L. destruct d; reflexivity.
  - apply Forall_cons_iff in Ru. destruct Ru as [Rx Ru]. cbn [map fst snd run_pieces] in *.
    assert (X : run_piece fl st (EExpr [sys "SetDelayed"; x; r]) = define fl st x r) by reflexivity.
    rewrite X, (define_rule_lhs fl st x r s Fz Rx). clear X.
    set (d' := new_def fl s x r (lookup st s)).
    assert (D' : d' = Def (fresh_rules (done ++ [(x, r)])) (d_attrs d) (d_default d) (d_builtin d)).
    { unfold d'. rewrite L. unfold new_def. rewrite D. f_equal. unfold fresh_rules. rewrite map_app. apply define_appends.
      - destruct St as [_ St]. apply ord_app in St. rewrite Forall_map. exact St.
      - destruct St as [St _]. apply sorted_ord, ord_app in St. rewrite Forall_map. exact St. }
    replace (done ++ (x, r) :: l) with ((done ++ [(x, r)]) ++ l) in * by (rewrite <- app_assoc; reflexivity).
    destruct (IH (done ++ [(x, r)]) (set_def st s d') d' St Ru) as (st' & R & Fz' & L').
    + rewrite frozen_set. exact Fz.
    + apply lookup_set_same.
    + rewrite D'. reflexivity.
    + exists st'. split; [exact R|]. split; [exact Fz'|]. rewrite L', D'. reflexivity.
Qed.
Lemma run_app fl st a b : run_pieces fl st (a ++ b) = match run_pieces fl st a with Some st' => run_pieces fl st' b | None => None end.
Proof. revert st. induction a as [|e t IH]; intro st; cbn [app run_pieces]; [reflexivity|]. destruct (run_piece fl st e); [apply IH|reflexivity]. Qed.
Lemma run_snoc_lt (L1 L2 : list string) : StronglySorted str_lt L1 -> StronglySorted str_lt L2 -> (forall a, In a L1 <-> In a L2) -> L1 = L2.
Proof.
  assert (Irr : forall a, ~ str_lt a a).
  { intros a H. unfold str_lt in H. pose proof (String.compare_antisym a a) as E. rewrite H in E. discriminate E. }
  intro S1. revert L2. induction S1 as [|a L1 S1 IH F1]; intros [|b L2] S2 E.
  - reflexivity.
  - destruct (proj2 (E b)). left. reflexivity.
  - destruct (proj1 (E a)). left. reflexivity.
  - inversion S2 as [|? ? S2' F2]; subst. rewrite Forall_forall in F1, F2.
    assert (a = b) as <-.
    { destruct (proj1 (E a) (or_introl eq_refl)) as [Q|Q]; [congruence|]. destruct (proj2 (E b) (or_introl eq_refl)) as [Q'|Q']; [congruence|].
      destruct (Irr a). apply (str_lt_trans a b a); auto. }
    f_equal. apply IH; [exact S2'|]. intro c. split; intro I.
    + destruct (proj1 (E c) (or_intror I)) as [<-|Q]; [destruct (Irr a); auto|exact Q].
    + destruct (proj2 (E c) (or_intror I)) as [<-|Q]; [destruct (Irr a); auto|exact Q].
Qed.
Lemma map_sys_inj : forall L M, map sys L = map sys M -> L = M.
Proof.
  induction L as [|a L IH]; intros [|b M] H; try discriminate H; [reflexivity|]. cbn [map] in H.
  assert (H0 : sys a = sys b) by congruence. assert (H2 : map sys L = map sys M) by congruence.
  assert (H1 : sysname a = sysname b) by (unfold sys in H0; congruence). apply sysname_inj in H1. rewrite H1, (IH _ H2). reflexivity.
Qed.
Lemma run_attrs fl st s st0 L : st_frozen st = false -> attributes_eval st0 s = mkList (map sys L) ->
  exists st', define fl st (EExpr [sys "Attributes"; ESym s]) (mkList (map sys L)) = Some st' /\ st_frozen st' = false /\
    attributes_eval st' s = attributes_eval st0 s /\ rules_of st' s = rules_of st s /\
    default_fn st' [ESym s] = match lookup st s with Some d => d_default d | None => None end /\ exists d, lookup st' s = Some d.
Proof.
  intros Fz A0. destruct (define fl st (EExpr [sys "Attributes"; ESym s]) (mkList (map sys L))) as [st'|] eqn:D.
  2:{ unfold define in D. rewrite Fz in D. cbn in D. discriminate D. }
  exists st'. split; [reflexivity|].
  assert (Sh : exists d, st' = set_def st s d /\ d_default d = match lookup st s with Some d => d_default d | None => None end).
  { unfold define in D. rewrite Fz in D. change (String.eqb (sysname "Attributes") (sysname "Attributes")) with true in D. cbn [sys] in D.
    injection D as <-. unfold define_attrs.
    assert (head_assertion (mkList (map sys L)) nList = Some (sList :: map sys L)) as -> by reflexivity.
    assert (attr_strings (map sys L) = Some L) as ->.
    { clear. induction L as [|a t IH]; [reflexivity|]. change (map sys (a :: t)) with (ESym (sysname a) :: map sys t). cbn [attr_strings]. rewrite IH, drop_sys_sys. reflexivity. }
    eexists. split; [reflexivity|]. destruct (lookup st s); reflexivity. }
  destruct Sh as (d & -> & DD). split; [rewrite frozen_set; exact Fz|]. split; [|split; [|split]].
  - destruct (C31_attributes_round_trip fl st s L _ Fz D) as (L' & E' & S' & I'). rewrite E', A0.
    f_equal. f_equal. apply run_snoc_lt; [exact S'| |].
    + unfold attributes_eval in A0. destruct (lookup st0 s) as [d0|].
      * unfold attrs_to_sym_list in A0. injection A0 as A0.
        assert (attrs_to_strings (d_attrs d0) = L) as <-; [|apply attrs_to_strings_sorted].
        apply map_sys_inj, A0.
      * destruct L; [constructor|discriminate A0].
    + intro a. rewrite I'. split; [tauto|]. intro I. split; [exact I|].
      destruct (attr_names st0 s) as (L0 & E0 & K0). rewrite A0 in E0. apply K0.
      assert (L = L0) as <-; [|exact I]. apply map_sys_inj. unfold mkList in E0. injection E0 as E1. exact E1.
  - apply (C31_setting_attributes_keeps_rules fl st s _ _ s D).
  - cbn [default_fn]. rewrite lookup_set_same. exact DD.
  - exists d. apply lookup_set_same.
Qed.
Lemma run_def fl st n x r : st_frozen st = false -> rule_lhs x n ->
  run_piece fl st (EExpr [sys "SetDelayed"; x; r]) = Some (set_def st n (new_def fl n x r (lookup st n))).
Proof. intros Fz R. change (define fl st x r = Some (set_def st n (new_def fl n x r (lookup st n)))). apply define_rule_lhs; assumption. Qed.
Lemma runs_all fl st st2 s l a : stored st s l -> says_attrs st s a -> settled fl s l -> Forall (fun p => rule_lhs (fst p) s) l ->
  lookup st2 s = None -> st_frozen st2 = false ->
  exists st3, run_pieces fl st2 (a ++ map (fun p => EExpr [sys "SetDelayed"; fst p; snd p]) l) = Some st3 /\ st_frozen st3 = false /\
    rules_of st3 s = fresh_rules l /\ attributes_eval st3 s = attributes_eval st s /\ default_fn st3 [ESym s] = None.
Proof.
  intros St Sa Se Ru L2 Fz. rewrite run_app. destruct Sa as [A|b A _].
  - cbn [run_pieces]. destruct l as [|[x r] l].
    + exists st2. cbn [map run_pieces default_fn]. unfold rules_of, attributes_eval in *. rewrite L2. rewrite A. repeat split; auto.
    + apply Forall_cons_iff in Ru. destruct Ru as [Rx Ru]. cbn [map fst snd run_pieces] in *.
      rewrite (run_def fl st2 s x r Fz Rx), L2.
      destruct (run_rules fl s l [(x, r)] (set_def st2 s (new_def fl s x r None)) (new_def fl s x r None) Se Ru) as (st3 & R & Fz3 & L3).
      * rewrite frozen_set. exact Fz.
      * apply lookup_set_same.
      * reflexivity.
      * exists st3. split; [exact R|]. split; [exact Fz3|]. unfold rules_of, attributes_eval, default_fn in *. rewrite L3, A.
        cbn [d_attrs new_def fresh_def d_dvs d_default]. repeat split; reflexivity.
  - destruct (attr_names st s) as (L & EL & _). rewrite EL in A. subst b.
    destruct (run_attrs fl st2 s st L Fz EL) as (st' & D & Fz' & A' & R' & N' & d' & L').
    assert (X : run_pieces fl st2 [EExpr [sys "Set"; EExpr [sys "Attributes"; ESym s]; mkList (map sys L)]] =
                match define fl st2 (EExpr [sys "Attributes"; ESym s]) (mkList (map sys L)) with Some st' => Some st' | None => None end) by reflexivity.
    rewrite X, D. clear X.
    destruct (run_rules fl s l [] st' d' Se Ru Fz' L') as (st3 & R & Fz3 & L3).
    + unfold rules_of in R'. rewrite L', L2 in R'. exact R'.
    + exists st3. split; [exact R|]. split; [exact Fz3|].
      rewrite <- A'. unfold rules_of, attributes_eval. rewrite L3, L'. cbn [d_dvs d_attrs]. split; [reflexivity|]. split; [reflexivity|].
      cbn [default_fn] in *. rewrite L3. cbn [d_default]. rewrite L' in N'. rewrite N', L2. reflexivity.
Qed.
Lemma default_lhs s : rule_lhs (EExpr [sys "Default"; ESym s]) (sysname "Default").
Proof.
  split; [|split].
  - apply T_fun; intro H; [discriminate H| |]; apply sysname_inj in H; discriminate H.
  - intros t H. assert (E : sysname "Default" = sysname "Attributes") by (assert (X : ESym (sysname "Default") = ESym (sysname "Attributes")) by (unfold sys in H; congruence); congruence). apply sysname_inj in E. discriminate E.
  - intros t H. assert (E : sysname "Default" = sysname "DownValues") by (assert (X : ESym (sysname "Default") = ESym (sysname "DownValues")) by (unfold sys in H; congruence); congruence). apply sysname_inj in E. discriminate E.
Qed.
Lemma runs_pieces fl st st2 s l es : stored st s l -> says st s l es ->
  settled fl s l -> Forall (fun p => rule_lhs (fst p) s) l -> lookup st2 s = None -> st_frozen st2 = false -> s <> sysname "Default" ->
  exists st3, run_pieces fl st2 es = Some st3 /\ attributes_eval st3 s = attributes_eval st s /\
    map (fun d => (dv_lhs d, dv_rhs d)) (rules_of st3 s) = map (fun d => (dv_lhs d, dv_rhs d)) (rules_of st s) /\
    default_fn st3 [ESym s] = None.
Proof.
  intros St (a & df & Sa & Sd & ->) Se Ru L2 Fz Ns. rewrite app_assoc, run_app.
  destruct (runs_all fl st st2 s l a St Sa Se Ru L2 Fz) as (st3 & R & Fz3 & R3 & A3 & D3). rewrite R.
  assert (M : map (fun d => (dv_lhs d, dv_rhs d)) (rules_of st3 s) = map (fun d => (dv_lhs d, dv_rhs d)) (rules_of st s)).
  { unfold stored in St. rewrite St, R3. unfold fresh_rules. rewrite map_map. reflexivity. }
  destruct Sd as [_|x X].
  - exists st3. cbn [run_pieces]. repeat split; assumption.
  - cbn [run_pieces].
    assert (P : run_piece fl st3 (EExpr [sys "Set"; EExpr [sys "Default"; ESym s]; x]) = define fl st3 (EExpr [sys "Default"; ESym s]) x) by reflexivity.
    rewrite P, (define_rule_lhs fl st3 _ x _ Fz3 (default_lhs s)). eexists. split; [reflexivity|].
    unfold attributes_eval, rules_of, default_fn in *. rewrite lookup_set_other by exact Ns. repeat split; assumption.
Qed.
(* evaluating the pieces in a session where s is unknown gives s the same
   attributes and the same rules, tried in the same order *)
Theorem C131_restores : forall fl st st2 s l es, stored st s l -> says st s l es ->
  settled fl s l -> Forall (fun p => rule_lhs (fst p) s) l -> lookup st2 s = None -> st_frozen st2 = false -> s <> sysname "Default" ->
  exists st3, run_pieces fl st2 es = Some st3 /\ attributes_eval st3 s = attributes_eval st s /\
    map (fun d => (dv_lhs d, dv_rhs d)) (rules_of st3 s) = map (fun d => (dv_lhs d, dv_rhs d)) (rules_of st s).
Proof.
  intros fl st st2 s l es St Sy Se Ru L2 Fz Ns. destruct (runs_pieces fl st st2 s l es St Sy Se Ru L2 Fz Ns) as (st3 & R & A & M & _).
  exists st3. repeat split; assumption.
Qed.
Print Assumptions C131_restores.

(* a history of definitions of s, none before it, leaves rules as C131_restores
   wants them *)
Definition key_of := fun d : dval => (dv_lhs d, dv_rhs d).
Lemma settled_history fl n h st st' : st_frozen st = false -> rules_of st n = [] ->
  Forall (fun p => rule_lhs (fst p) n) h ->
  (forall r1 r2, In r1 (map snd h) -> In r2 (map snd h) ->
     is_sameq (mask_non_conditional r1) (mask_non_conditional r2) = true -> (is_cond r1 <-> is_cond r2)) ->
  run fl st h = Some st' ->
  exists l, stored st' n l /\ settled fl n l /\ forall p, In p l -> exists q, In q (replay h) /\ held (fst p) = held (fst q) /\ snd p = snd q.
Proof.
  intros Fz R0 FL CC RUN. destruct (run_inv fl n h st st' Fz R0 FL CC RUN) as (_ & IH & IF & IS & ND & _).
  assert (L : exists l, map dpair (rules_of st' n) = map hpair l).
  { clear - IH. induction IH as [|d t (x & E) _ (l & IL)]; [exists []; reflexivity|]. exists ((x, dv_rhs d) :: l).
    cbn [map]. rewrite IL. unfold dpair at 1, hpair at 1. cbn [fst snd]. rewrite E. reflexivity. }
  destruct L as (l & E). rewrite E in IS, ND. exists l. split; [exact E|]. split; [split|].
  - clear - IS. induction l as [|p l IHl]; [constructor|]. cbn [map] in IS. inversion IS as [|? ? S F]; subst. constructor; [apply IHl, S|].
    rewrite Forall_map in F. exact F.
  - clear - ND. induction l as [|p l IHl]; [constructor|]. cbn [map] in ND. inversion ND as [|? ? N D]; subst. constructor; [|apply IHl, D].
    apply Forall_forall. intros q Q. apply Bool.not_true_is_false. intro K. apply N. rewrite map_map. apply in_map_iff. exists q. split; [|exact Q].
    unfold pkey, hpair. cbn [fst snd]. rewrite keyb_key in K. apply key_eqb_eq in K. symmetry. exact K.
  - intros p P. set (z := pspec fl n (hpair p)).
    assert (In (hpair p) (filter (fun p => Z.eqb (pspec fl n p) z) (map dpair (rules_of st' n)))) as I.
    { apply filter_In. split; [rewrite E; apply in_map, P|apply Z.eqb_refl]. }
    rewrite IF in I. apply filter_In in I. destruct I as [I _]. apply in_map_iff in I. destruct I as (q & Q & I). exists q. split; [exact I|].
    unfold hpair in Q. split; congruence.
Qed.
Lemma replay_lhs h p : In p (replay h) -> In (fst p) (map fst h).
Proof.
  unfold replay. assert (G : forall h m, In p (fold_left (fun m '(l, r) => remember m l r) h m) -> In (fst p) (map fst m) \/ In (fst p) (map fst h)).
  { clear h. induction h as [|[l r] t IH]; intros m H; cbn [fold_left] in H; [left; apply in_map, H|].
    destruct (IH _ H) as [I|I]; [|right; right; exact I]. cbn [map fst].
    assert (K : forall m, In (fst p) (map fst (remember m l r)) -> In (fst p) (map fst m) \/ l = fst p).
    { clear. induction m as [|[a b] m IHm]; cbn [remember map fst In]; [tauto|].
      destruct (keyb _ _ _ _); cbn [map fst In]; tauto. }
    destruct (K _ I) as [?|?]; [left; assumption|right; left; assumption]. }
  intro H. destruct (G h [] H) as [[]|I]. exact I.
Qed.
(* so in every session: define s as often as you like, print it, and evaluate the
   text in a session where s is unknown *)
Theorem C131_history : forall fl n h st st' st2,
  st_frozen st = false -> rules_of st n = [] -> Forall (fun p => rule_lhs (fst p) n) h ->
  (forall r1 r2, In r1 (map snd h) -> In r2 (map snd h) ->
     is_sameq (mask_non_conditional r1) (mask_non_conditional r2) = true -> (is_cond r1 <-> is_cond r2)) ->
  run fl st h = Some st' -> n <> sysname "Default" -> lookup st2 n = None -> st_frozen st2 = false ->
  exists l, stored st' n l /\ forall es, says st' n l es ->
    exists st3, run_pieces fl st2 es = Some st3 /\ attributes_eval st3 n = attributes_eval st' n /\
      map (fun d => (dv_lhs d, dv_rhs d)) (rules_of st3 n) = map (fun d => (dv_lhs d, dv_rhs d)) (rules_of st' n).
Proof.
  intros fl n h st st' st2 Fz R0 FL CC RUN Nn L2 Fz2. destruct (settled_history fl n h st st' Fz R0 FL CC RUN) as (l & St & Se & In_h).
  exists l. split; [exact St|]. intros es Sy. apply (C131_restores fl st' st2 n l es St Sy Se); auto.
  apply Forall_forall. intros p P. destruct (In_h p P) as (q & Q & E & _). apply replay_lhs in Q. apply in_map_iff in Q. destruct Q as (q' & E' & Q).
  rewrite Forall_forall in FL. specialize (FL _ Q). rewrite E' in FL. replace (fst p) with (fst q); [exact FL|]. unfold held in E. congruence.
Qed.
Print Assumptions C131_history.
(* but the default does not come back: its piece, Default[s] = x, gives Default a
   rule, and the default that patterns use stays unset *)
Theorem C131_default_refuted : forall fl st st2 s l es x, stored st s l -> says st s l es ->
  settled fl s l -> Forall (fun p => rule_lhs (fst p) s) l -> lookup st2 s = None -> st_frozen st2 = false -> s <> sysname "Default" ->
  default_fn st [ESym s] = Some x ->
  exists st3, run_pieces fl st2 es = Some st3 /\ default_fn st3 [ESym s] = None.
Proof.
  intros fl st st2 s l es x St Sy Se Ru L2 Fz Ns _. destruct (runs_pieces fl st st2 s l es St Sy Se Ru L2 Fz Ns) as (st3 & R & _ & _ & D).
  exists st3. split; assumption.
Qed.
Print Assumptions C131_default_refuted.

(* f[1] = 10; f[x_] := 20, kept as in gst *)
Definition f_rules : list (ex * ex) := [(fx (EInt 1), EInt 10); (fx xs, EInt 20)].
Example C131_stored : stored gst "Global`f" f_rules.
Proof. reflexivity. Qed.
Example C131_says : says gst "Global`f" f_rules (map (fun p => EExpr [sys "SetDelayed"; fst p; snd p]) f_rules).
Proof. exists [], []. split; [apply Sa_none; reflexivity|]. split; [apply Sd_none; reflexivity|]. reflexivity. Qed.
Example C131_settled : settled fl0 "Global`f" f_rules.
Proof.
  split.
  - repeat constructor. vm_compute. discriminate.
  - repeat constructor.
Qed.
Example C131_lhs : Forall (fun p => rule_lhs (fst p) "Global`f") f_rules.
Proof. repeat constructor; intros; discriminate. Qed.
Example C131_plus_default : (* Default[g] with a default, no rules *)
  says (State [("Global`g", Def [] no_attrs (Some (EInt 0)) false)]%string false) "Global`g" []
    [EExpr [sys "Set"; EExpr [sys "Default"; ESym "Global`g"]; EInt 0]].
Proof. exists [], [EExpr [sys "Set"; EExpr [sys "Default"; ESym "Global`g"]; EInt 0]]. split; [apply Sa_none; reflexivity|]. split; [apply Sd_some; reflexivity|]. reflexivity. Qed.
