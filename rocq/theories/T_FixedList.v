(* Property theorems: FixedPointList (C134). *)
From Verif Require Import M_Syntax M_Float M_Hash M_Order M_Sort M_Num M_Arith M_Compare M_Match M_Defs S_Defs P_Defs P_Defs4 M_Eval M_List S_Match S_Eval S_Iter S_Call M_LibAssign M_Callback M_FixedList
  P_Hash P_MatchFuel P_Eval P_Eval2 P_Eval3 P_Eval4 P_Callback P_Iter P_Call T_Match T_Eval T_Eval2 T_Eval3 T_Eval4 T_Eval5 T_Iter T_Callback T_Call T_Assign T_AppendTo.
Open Scope nat_scope.

(* ---- the list of the values ---- *)
Lemma list_pass_eval c es l r es' : cfg_mono c -> list_head es ->
  evals_args c (fun _ => False) 1 es l r es' -> Forall ordinary_arg r -> (exists names, plain_fn es' nList names) ->
  exists n, forall m, n <= m -> pass c m (run c m None) es (sList :: l) = Ret (inr (mkList r, false), es').
Proof.
  intros Hc (names & P & NV & T & Ha) Ev O [names' P'].
  assert (Hh : forall j, ~ holds names j).
  { intros j [K|[K|[[_ K]|[_ K]]]]; revert K; apply Ha; cbn; tauto. }
  assert (E : evals_args c (holds names) 0 es (sList :: l) (sList :: r) es').
  { apply EA_eval with es; [apply Hh|apply value_sym, NV|exact T|].
    clear - Ev Hh. revert Ev. generalize 1 es l r es'. intros i s a b s' E.
    induction E; [apply EA_nil|contradiction|]. eapply EA_eval; [apply Hh|eassumption|assumption|assumption]. }
  destruct (evals_args_large c _ _ _ _ _ _ Hc E) as [n K]. exists n. intros m Hm.
  change sList with (ESym nList). rewrite (pass_symbol c m (run c m None) es nList names l (ESym nList :: r) es'); try (apply Ha; cbn; tauto).
  - rewrite (plain_apply c m _ es' nList names') by exact P'. reflexivity.
  - apply (plain_attrs _ _ _ P).
  - apply K, Hm.
  - constructor; [apply ordinary_sym|exact O].
  - discriminate.
Qed.

(* ---- what the calls f^k[x] give ---- *)
(* f[f[...[x]]] (k times) has the value y k, and evaluating it changes nothing *)
Definition orbit (c : cfg) (es : estate) (f x : ex) (y : nat -> ex) (n : nat) : Prop :=
  forall k, k <= n -> evals_to c es (applied f x k) (y k) es /\ value c es (y k) /\ ordinary_arg (y k).
(* y n is the first value that is SameQ to the one before it *)
Definition first_repeat (y : nat -> ex) (n : nat) : Prop :=
  (exists k, n = S k /\ is_sameq (y k) (y n) = true) /\ forall k, S k < n -> is_sameq (y k) (y (S k)) = false.

Definition has_unsame (c : cfg) : Prop := builtin_of c (sysname "UnsameQ") = Some (answer_fn unsameq_eval).
Lemma has_unsame_all c : has_unsame c.
Proof. unfold has_unsame, builtin_of. assert (assoc (table c) (sysname "UnsameQ") = Some (answer_fn unsameq_eval)) as -> by reflexivity. reflexivity. Qed.

Lemma unsame_value c es a b : cfg_mono c -> ready es "UnsameQ" prot -> no_value es (sysname "True") -> no_value es (sysname "False") ->
  value c es a -> value c es b -> ordinary_arg a -> ordinary_arg b -> hash_ok (fn "UnsameQ" [a; b]) ->
  evals_to c es (fn "UnsameQ" [a; b]) (if is_sameq a b then sFalse else sTrue) es.
Proof.
  intros Hc (Sy & NR & NV & T) Nt Nf Va Vb Oa Ob Hz.
  apply (evals_next_value c es [sys "UnsameQ"; a; b] _ es Hc Hz); [destruct (is_sameq a b); reflexivity| |].
  - apply (builtin_pass c es (sysname "UnsameQ") prot [a; b] [a; b] (answer_fn unsameq_eval) _ es es Hc Sy (ex_intro _ _ Sy)); try (apply not_prot; cbn; tauto); auto; try apply has_unsame_all.
    + apply head_arg; auto. apply EA_eval with es; [apply prot_free|exact Va|exact T|]. apply EA_eval with es; [apply prot_free|exact Vb|exact T|apply EA_nil].
    + exists 0. intros m _. eexists. unfold answer_fn. cbn [tl unsameq_eval existsb]. rewrite orb_false_r. destruct (is_sameq a b); reflexivity.
  - destruct (is_sameq a b); apply value_sym; assumption.
Qed.

(* what the statement needs from the interpreter *)
Definition nest_ready (es : estate) : Prop :=
  ready es "NestWhileList" prot /\ ready es "UnsameQ" prot /\ list_head es /\ no_value es (sysname "True") /\ no_value es (sysname "False").
Lemma nests_orbit c es f x y n : cfg_mono c -> nest_ready es -> orbit c es f x y n -> first_repeat y n ->
  (forall k, k < n -> hash_ok (fn "UnsameQ" [y k; y (S k)])) ->
  forall d k, n = k + S d -> nests c f x (sys "UnsameQ") (Some 2) None k (map y (seq 0 (S k))) es n es.
Proof.
  intros Hc (RN & RU & LH & Nt & Nf) O [[n' [En Sn]] L] Hz.
  assert (P : forall k, k < n -> evals_to c es (fn "UnsameQ" [y k; y (S k)]) (if is_sameq (y k) (y (S k)) then sFalse else sTrue) es).
  { intros k Hk. destruct (O k ltac:(lia)) as (_ & V1 & O1). destruct (O (S k) ltac:(lia)) as (_ & V2 & O2). apply unsame_value; auto. }
  assert (Sp : forall k, map y (seq 0 (S k)) ++ [y (S k)] = map y (seq 0 k) ++ [y k; y (S k)]).
  { intro k. rewrite seq_S, map_app, <- app_assoc. reflexivity. }
  induction d as [|d IH]; intros k E.
  - assert (n = S k) as -> by lia. assert (n' = k) as -> by lia.
    apply (NE_stop c f x _ _ _ k _ es (y (S k)) es false es); [apply (O (S k)); lia| |left; reflexivity].
    rewrite Sp. eapply PA_last; [reflexivity|reflexivity|reflexivity|apply (P k); lia|]. rewrite Sn. split; discriminate.
  - apply (NE_next c f x _ _ _ k _ es (y (S k)) es es n es); [apply (O (S k)); lia| |exact Logic.I|].
    + rewrite Sp. eapply PA_last; [reflexivity|reflexivity|reflexivity|apply (P k); lia|]. rewrite L by lia. split; reflexivity.
    + replace (map y (seq 0 (S k)) ++ [y (S k)]) with (map y (seq 0 (S (S k)))) by (rewrite (seq_S (S k)), map_app; reflexivity).
      apply IH. lia.
Qed.

Definition calls (f x : ex) (n : nat) : ex := mkList (map (applied f x) (seq 0 (S n))).
Definition values (y : nat -> ex) (n : nat) : ex := mkList (map y (seq 0 (S n))).
(* accidents of the hash that must not happen *)
Definition fixed_hashes (args : list ex) (f x : ex) (y : nat -> ex) (n : nat) : Prop :=
  let N := fixed_list_rhs f x in
  hash_ok (fn "FixedPointList" args) /\ no_clash (fn "FixedPointList" args) N /\ no_clash N (calls f x n) /\
  no_clash (calls f x n) (values y n) /\ forall k, k < n -> hash_ok (fn "UnsameQ" [y k; y (S k)]).

Lemma orbit_args c es f x y n : es_thrown es = None -> orbit c es f x y n -> forall d k i, k + d = S n ->
  evals_args c (fun _ => False) i es (map (applied f x) (seq k d)) (map y (seq k d)) es.
Proof.
  intros T O. induction d as [|d IH]; intros k i E; [apply EA_nil|]. cbn [seq map].
  apply EA_eval with es; [tauto|apply (O k); lia|exact T|apply IH; lia].
Qed.
Lemma orbit_elements c es f x y n : orbit c es f x y n -> elements c es (map y (seq 0 (S n))).
Proof.
  intro O. split; apply Forall_forall; intros v Hv; apply in_map_iff in Hv; destruct Hv as (k & <- & Hk); apply in_seq in Hk; apply (O k); lia.
Qed.

Lemma reaches_pass c es l x b es1 e' es' : (exists n, forall m, n <= m -> pass c m (run c m None) es l = Ret (inr (x, b), es1)) ->
  reaches c es (EExpr l) e' es' -> e' = EExpr l \/ reaches c es1 x e' es'.
Proof.
  intros P R. inversion R as [|s e e1 s1 e2 s2 K R']; subst; [left; reflexivity|right].
  destruct (pass_steps _ _ _ _ _ _ P _ _ K) as [-> ->]. exact R'.
Qed.

(* ---- C134 ---- *)
(* FixedPointList[f, x] is {x, f[x], f[f[x]], ...}, up to and with the first value
   that is SameQ to the one before it *)
Theorem C134_fixed_point_list : forall c es0 es names a1 a2 f x y n, cfg_mono c -> with_callbacks c ->
  library es0 "FixedPointList" names fixed_list_rules -> library es "FixedPointList" names fixed_list_rules -> nest_ready es ->
  evals_args c (holds names) 1 es0 [a1; a2] [f; x] es -> ordinary_arg f -> ordinary_arg x -> value c es f -> value c es x ->
  orbit c es f x y n -> first_repeat y n -> fixed_hashes [a1; a2] f x y n ->
  evals_to c es0 (fn "FixedPointList" [a1; a2]) (values y n) es.
Proof.
  intros c es0 es names a1 a2 f x y n Hc Hw [U0 D0] [U D] R Ea Of Ox Vf Vx O F (H1 & H2 & H3 & H4 & H5).
  pose proof R as (RN & RU & LH & Nt & Nf). pose proof RN as (SyN & NRN & NVN & T). pose proof RU as (_ & _ & NVU & _).
  pose proof (orbit_elements _ _ _ _ _ _ O) as El.
  assert (Lv : value c es (values y n)) by (apply C113_list_value; assumption).
  assert (Lp : exists m0, forall m, m0 <= m -> pass c m (run c m None) es (sList :: map (applied f x) (seq 0 (S n))) = Ret (inr (values y n, false), es)).
  { apply list_pass_eval; auto; [|apply El|destruct LH as (nm & P & _); exists nm; exact P].
    apply (orbit_args c es f x y n T O). lia. }
  assert (Ec : evals_to c es (calls f x n) (values y n) es).
  { apply (evals_next c es _ (values y n) es (values y n) es Hc (proj1 H3) H4 Lp Lv). }
  destruct F as [[n' [En Sn]] Lt].
  assert (E0 : evals_to c es x (y 0) es) by (apply (O 0); lia).
  assert (NW : exists m0, forall m, m0 <= m -> pass c m (run c m None) es [sys "NestWhileList"; f; x; sys "UnsameQ"; EInt 2] = Ret (inr (calls f x n, false), es)).
  { apply (builtin_pass c es (sysname "NestWhileList") prot [f; x; sys "UnsameQ"; EInt 2] [f; x; sys "UnsameQ"; EInt 2] (nest_while_fn (c_fmt c)) _ es es Hc SyN (ex_intro _ _ SyN));
      try (apply not_prot; cbn; tauto); auto.
    - apply head_arg; auto. apply EA_eval with es; [apply prot_free|exact Vf|exact T|]. apply EA_eval with es; [apply prot_free|exact Vx|exact T|].
      apply EA_eval with es; [apply prot_free|apply value_sym, NVU|exact T|]. apply EA_eval with es; [apply prot_free|apply value_int|exact T|apply EA_nil].
    - constructor; [exact Of|constructor; [exact Ox|constructor; [apply ordinary_sym|constructor; [apply ordinary_atom; reflexivity|constructor]]]].
    - destruct (evals_large c _ _ _ _ Hc E0) as [n1 K1].
      destruct (nests_loop c f x (sys "UnsameQ") (Some 2) None 0 [y 0] es n es (c_fmt c) Hc eq_refl) as [_ [n2 K2]].
      { apply (nests_orbit c es f x y n Hc R O (conj (ex_intro _ n' (conj En Sn)) Lt) H5 n' 0). lia. }
      exists (n1 + n2). intros j Hj. eexists. apply (nest_args_fn _ _ _ _ _ _ _ (Some 2) None 0 [EInt 2] _ (NA_1 (Some 2) (EInt 2) (conj eq_refl eq_refl))).
      rewrite K1 by lia. cbn [obind]. change 2%Z with (Z.of_nat 2). change x with (applied f x 0) at 1. rewrite K2 by lia. cbn [obind].
      rewrite app_nil_r, Nat.sub_0_r. reflexivity. }
  assert (Nf1 : NoDup [lf; lexpr]) by (constructor; [intros [K|[]]; discriminate K|constructor; [intros []|constructor]]).
  apply (C90_call c es0 (sysname "FixedPointList") names [a1; a2] [f; x] es fixed_list_rules (fixed_list_rhs f x) es (values y n) es Hc U0 Ea); auto.
  - unfold fixed_list_rules, rule1. apply SEL_hit with [(lf, f); (lexpr, x)] (fixed_list_rhs f x).
    + split; [|exact Nf1].
      assert (F1 : me_flat (env_of c es) (sysname "FixedPointList") = false).
      { destruct U as [A1 [_ [_ Na]]]. unfold env_of; cbn [me_flat]. rewrite A1. apply (attr_off names aFlat "Flat" (has_flat names)). apply Na. cbn; tauto. }
      assert (F2 : me_orderless (env_of c es) (sysname "FixedPointList") = false).
      { destruct U as [A1 [_ [_ Na]]]. unfold env_of; cbn [me_orderless]. rewrite A1. apply (attr_off names aOrderless "Orderless" (has_orderless names)). apply Na. cbn; tauto. }
      unfold sys. cbn [simple]. rewrite F1, F2. reflexivity.
    + apply F_node; [not_special|reflexivity|apply N.eqb_refl|].
      apply (FL_cons (var lf) f [(lf, f)] _ _ [(lexpr, x)]); [apply F_var|].
      apply (FL_cons (var lexpr) x [(lexpr, x)] [] [] []); [apply F_var|constructor].
    + apply (proj1 (C26_replace_is_substitution _ _ _)). reflexivity.
    + apply G_plain; nh.
  - intros e' es' Re. destruct (reaches_pass _ _ _ _ _ _ _ _ NW Re) as [-> |Re1]; [nh|].
    destruct (reaches_pass _ _ _ _ _ _ _ _ Lp Re1) as [-> |Re2]; [apply list_not_headed; discriminate|].
    rewrite (list_reaches c es _ Hc LH El _ _ Re2). apply list_not_headed; discriminate.
  - apply (evals_next c es _ (calls f x n) es (values y n) es Hc (proj1 H2) H3 NW Ec).
Qed.
Print Assumptions C134_fixed_point_list.

(* The last element is what FixedPoint[f, x] gives - if f sees the value of its
   argument: FixedPoint evaluates f[y k], FixedPointList the nested call. *)
Theorem C134_last_is_fixed_point : forall c es0 es a1 a2 f x y n, cfg_mono c -> with_callbacks c ->
  ready es0 "FixedPoint" prot -> system_fn es (sysname "FixedPoint") prot -> no_rules es (sysname "FixedPoint") ->
  evals_args c (fun _ => False) 1 es0 [a1; a2] [f; x] es -> ordinary_arg f -> ordinary_arg x ->
  orbit c es f x y n -> y 0 = x -> first_repeat y n ->
  (forall k, k < n -> evals_to c es (EExpr [f; y k]) (y (S k)) es) ->
  hash_ok (fn "FixedPoint" [a1; a2]) -> no_clash (fn "FixedPoint" [a1; a2]) (y n) ->
  evals_to c es0 (fn "FixedPoint" [a1; a2]) (y n) es /\ (exists l, values y n = mkList (l ++ [y n])) /\
  exists k, n = S k /\ evals_to c es (EExpr [f; y k]) (y n) es /\ is_sameq (y k) (y n) = true.
Proof.
  intros c es0 es a1 a2 f x y n Hc Hw R S1 NR E Of Ox O Y0 [[n' [En Sn]] Lt] St Hz Nc.
  assert (K : forall d k, n = k + S d -> settles c f es (y k) (y n) es).
  { induction d as [|d IH]; intros k Ek.
    - assert (k = n') as -> by lia. apply ST_here; [rewrite En; apply St; lia|exact Sn].
    - apply ST_next with (y (S k)) es; [apply St; lia|apply Lt; lia|apply IH; lia]. }
  split; [|split].
  - apply (C82_fixed_point c es0 a1 a2 f x es (y n) es (y n) es Hc Hw R S1 NR E); auto.
    + rewrite <- Y0. apply (K n' 0). lia.
    + apply (O n). lia.
  - exists (map y (seq 0 n)). unfold values. rewrite seq_S, map_app. reflexivity.
  - exists n'. split; [exact En|]. split; [rewrite En; apply St; lia|exact Sn].
Qed.
Print Assumptions C134_last_is_fixed_point.

(* ---- the hypotheses are met ---- *)
Definition es_fl : estate := with_entries es0
  [entry "FixedPoint" prot true; entry "NestWhileList" prot true; entry "UnsameQ" prot true; entry "List" ["Locked"; "Protected"]%string false;
   lib "FixedPointList" fixed_list_rules []].
(* q[1] := 2, q[2] := 3, q[3] := 3 *)
Definition es_fq : estate := fold_left run1 [fn "SetDelayed" [uf "q" [EInt 1]; EInt 2]; fn "SetDelayed" [uf "q" [EInt 2]; EInt 3]; fn "SetDelayed" [uf "q" [EInt 3]; EInt 3]] es_fl.
Definition y_q (k : nat) : ex := match k with 0 => EInt 1 | 1 => EInt 2 | _ => EInt 3 end.
Lemma fq_nest : nest_ready es_fq.
Proof.
  split; [rdy|]. split; [rdy|]. split; [|split; vm_compute; reflexivity].
  exists ["Locked"; "Protected"]%string. split; [left; eexists; split; [vm_compute; reflexivity|repeat split]|]. split; [vm_compute; reflexivity|]. split; [reflexivity|].
  intros a I K. cbn in I, K. destruct K as [<-|[<-|[]]]; repeat (destruct I as [I|I]; [discriminate I|]); exact I.
Qed.
Lemma fq_lib : library es_fq "FixedPointList" [] fixed_list_rules.
Proof.
  split; [|vm_compute; split; reflexivity]. split; [vm_compute; reflexivity|]. split; [vm_compute; reflexivity|]. split; [reflexivity|].
  intros a _ [].
Qed.
Example C134_meets : cfg_mono c1 /\ with_callbacks c1 /\ library es_fq "FixedPointList" [] fixed_list_rules /\ nest_ready es_fq /\
  evals_args c1 (holds []) 1 es_fq [gl "q"; EInt 1] [gl "q"; EInt 1] es_fq /\ orbit c1 es_fq (gl "q") (EInt 1) y_q 3 /\ first_repeat y_q 3 /\
  fixed_hashes [gl "q"; EInt 1] (gl "q") (EInt 1) y_q 3 /\
  evals_to c1 es_fq (fn "FixedPointList" [gl "q"; EInt 1]) (mkList [EInt 1; EInt 2; EInt 3; EInt 3]) es_fq.
Proof.
  assert (Ea : evals_args c1 (holds []) 1 es_fq [gl "q"; EInt 1] [gl "q"; EInt 1] es_fq).
  { apply EA_eval with es_fq; [intros [K|[K|[[_ K]|[_ K]]]]; exact K|exists 5; vm_compute; reflexivity|reflexivity|].
    apply EA_eval with es_fq; [intros [K|[K|[[_ K]|[_ K]]]]; exact K|exists 5; vm_compute; reflexivity|reflexivity|apply EA_nil]. }
  assert (O : orbit c1 es_fq (gl "q") (EInt 1) y_q 3).
  { intros k Hk. do 4 (destruct k as [|k]; [split; [exists 20; vm_compute; reflexivity|split; [apply value_int|apply ordinary_atom; reflexivity]]|]). lia. }
  assert (F : first_repeat y_q 3).
  { split; [exists 2; split; reflexivity|]. intros k Hk. do 2 (destruct k as [|k]; [vm_compute; reflexivity|]). lia. }
  assert (H : fixed_hashes [gl "q"; EInt 1] (gl "q") (EInt 1) y_q 3).
  { split; [hok|]. split; [split; hok|]. split; [split; hok|]. split; [split; hok|].
    intros k Hk. do 3 (destruct k as [|k]; [hok|]). lia. }
  split; [exact c1_mono|]. split; [exact c1_with|]. split; [exact fq_lib|]. split; [exact fq_nest|]. split; [exact Ea|]. split; [exact O|]. split; [exact F|]. split; [exact H|].
  apply (C134_fixed_point_list c1 es_fq es_fq [] _ _ (gl "q") (EInt 1) y_q 3 c1_mono c1_with fq_lib fq_lib fq_nest Ea); auto.
  - apply ordinary_atom; reflexivity.
  - apply ordinary_atom; reflexivity.
  - exists 5; vm_compute; reflexivity.
  - apply value_int.
Qed.

(* Refuted: for a function that holds its argument the two disagree.
   Attributes[h] = {HoldAll}; h[1] := 2; h[2] := 2; h[h[1]] := 3; h[h[h[1]]] := 3 *)
Definition es_fh : estate := fold_left run1
  [fn "SetDelayed" [uf "h" [EInt 1]; EInt 2]; fn "SetDelayed" [uf "h" [EInt 2]; EInt 2];
   fn "SetDelayed" [uf "h" [uf "h" [EInt 1]]; EInt 3]; fn "SetDelayed" [uf "h" [uf "h" [uf "h" [EInt 1]]]; EInt 3]]
  (with_entries es_fl [("Global`h"%string, Def [] (strings_to_attributes ["HoldAll"%string]) None false)]).
Theorem C134_held_refuted : exists c es f x, cfg_mono c /\ with_callbacks c /\ nest_ready es /\
  evals_to c es (fn "FixedPoint" [f; x]) (EInt 2) es /\
  evals_to c es (fn "FixedPointList" [f; x]) (mkList [EInt 1; EInt 2; EInt 3; EInt 3]) es.
Proof.
  exists c1, es_fh, (gl "h"), (EInt 1). split; [exact c1_mono|]. split; [exact c1_with|]. split; [|split].
  - split; [rdy|]. split; [rdy|]. split; [|split; vm_compute; reflexivity].
    exists ["Locked"; "Protected"]%string. split; [left; eexists; split; [vm_compute; reflexivity|repeat split]|]. split; [vm_compute; reflexivity|]. split; [reflexivity|].
    intros a I K. cbn in I, K. destruct K as [<-|[<-|[]]]; repeat (destruct I as [I|I]; [discriminate I|]); exact I.
  - exists 30; vm_compute; reflexivity.
  - exists 40; vm_compute; reflexivity.
Qed.
Print Assumptions C134_held_refuted.
