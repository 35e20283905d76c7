(* Property theorems: functions that call back into the evaluator (C81, C82). *)
From Verif Require Import M_Syntax M_Float M_Hash M_Sort M_Num M_Arith M_Compare M_Match M_Defs M_Eval M_Callback S_Eval P_Hash P_MatchFuel P_Eval P_Eval2 P_Eval3 P_Eval4 P_List P_Callback T_Eval T_Eval2 T_Eval3 T_Eval4 T_Eval5.
Open Scope nat_scope.

(* an interpreter with these functions *)
Definition with_callbacks (c : cfg) : Prop := forall n b, callbacks (c_fmt c) n = Some b -> builtin_of c n = Some b.
Definition prot : list string := ["Protected"]%string.
Lemma not_prot a : In a ["NumericFunction"; "Flat"; "Orderless"; "Listable"]%string -> ~ In a prot.
Proof. intros I [<-|[]]. repeat (destruct I as [I|I]; [discriminate I|]). exact I. Qed.

(* a call h[args] whose evaluated arguments [args'] the builtin f turns into r *)
Lemma callback_call c es h args args' es1 f r es2 v es3 : cfg_mono c -> with_callbacks c ->
  callbacks (c_fmt c) (sysname h) = Some f ->
  ready es h prot -> system_fn es1 (sysname h) prot -> no_rules es2 (sysname h) ->
  evals_args c (fun _ => False) 1 es args args' es1 -> Forall ordinary_arg args' ->
  (exists n, forall m, n <= m -> exists this, f m (run c m None) es1 (sys h :: args') = Ret (r, this, es2)) ->
  hash_ok (fn h args) -> no_clash (fn h args) r -> evals_to c es2 r v es3 ->
  evals_to c es (fn h args) v es3.
Proof.
  intros Hc Hw B [Sy [NR [NV T]]] S1 NR2 E O F Hz Nc Ev.
  apply (evals_next c es (sys h :: args) r es2 v es3 Hc Hz Nc); [|exact Ev].
  apply (builtin_pass c es (sysname h) prot args args' f r es1 es2 Hc Sy (ex_intro _ _ S1)); try (apply not_prot; cbn; tauto); auto.
  apply head_arg; auto. clear - E. revert E. generalize 1 es args args' es1. intros i s l r s' E.
  induction E; [apply EA_nil|contradiction|]. eapply EA_eval; [apply prot_free|eassumption|assumption|assumption].
Qed.

(* ------------------------------------------------------------------ C81 *)
(* Going through the elements of a list from left to right, f[x] is evaluated
   for each one; those for which it is True are kept.  [Some n]: at most n of
   them, and f is not called any more once they are found. *)
Inductive selects (c : cfg) (f : ex) : option nat -> estate -> list ex -> list ex -> estate -> Prop :=
| SL_nil k es : selects c f k es [] [] es
| SL_enough es l : selects c f (Some 0) es l [] es
| SL_keep_all es x l kept es1 es2 : evals_to c es (EExpr [f; x]) sTrue es1 ->
    selects c f None es1 l kept es2 -> selects c f None es (x :: l) (x :: kept) es2
| SL_keep n es x l kept es1 es2 : evals_to c es (EExpr [f; x]) sTrue es1 ->
    selects c f (Some n) es1 l kept es2 -> selects c f (Some (S n)) es (x :: l) (x :: kept) es2
| SL_drop k es x l kept r es1 es2 : k <> Some 0 -> evals_to c es (EExpr [f; x]) r es1 -> r <> sTrue ->
    selects c f k es1 l kept es2 -> selects c f k es (x :: l) kept es2.

Definition limit_is (k : option nat) (limit added : Z) (l : list ex) : Prop :=
  match k with Some n => limit = (added + Z.of_nat n)%Z | None => (added + Z.of_nat (length l) <= limit)%Z end.
Lemma trueQ_spec r : trueQ r = true <-> r = sTrue.
Proof.
  split; [|intros ->; reflexivity]. destruct r; try discriminate. unfold trueQ. intro K. apply String.eqb_eq in K. subst. reflexivity.
Qed.
Lemma selects_loop c f k es l kept es' : cfg_mono c -> selects c f k es l kept es' -> forall limit,
  exists n, forall m added, n <= m -> limit_is k limit added l -> select_loop (run c m None) f limit es l added = Ret (kept, es').
Proof.
  intros Hc H limit. induction H as [k es|es l|es x l kept es1 es2 E _ [n IH]|k es x l kept es1 es2 E _ [n IH]|k es x l kept r es1 es2 K E N _ [n IH]].
  - exists 0. reflexivity.
  - exists 0. intros m added _ L. cbn in L. destruct l; [reflexivity|]. cbn [select_loop].
    replace (limit <=? added)%Z with true by (symmetry; apply Z.leb_le; lia). reflexivity.
  - destruct (evals_large c _ _ _ _ Hc E) as [n1 K1]. exists (n + n1). intros m added Hm L. cbn [limit_is length] in L. cbn [select_loop].
    replace (limit <=? added)%Z with false by (symmetry; apply Z.leb_gt; lia). rewrite K1 by lia. cbn [obind].
    change (trueQ sTrue) with true. cbn iota. rewrite IH; [reflexivity|lia|cbn; lia].
  - destruct (evals_large c _ _ _ _ Hc E) as [n1 K1]. exists (n + n1). intros m added Hm L. cbn [limit_is] in L. cbn [select_loop].
    replace (limit <=? added)%Z with false by (symmetry; apply Z.leb_gt; lia). rewrite K1 by lia. cbn [obind].
    change (trueQ sTrue) with true. cbn iota. rewrite IH; [reflexivity|lia|cbn; lia].
  - destruct (evals_large c _ _ _ _ Hc E) as [n1 K1]. exists (n + n1). intros m added Hm L. cbn [select_loop].
    replace (limit <=? added)%Z with false.
    2:{ symmetry; apply Z.leb_gt. destruct k as [[|k]|]; [congruence| |]; cbn [limit_is length] in L; lia. }
    rewrite K1 by lia. cbn [obind]. destruct (trueQ r) eqn:Q; [apply trueQ_spec in Q; contradiction|]. apply IH; [lia|].
    destruct k as [k|]; cbn [limit_is length] in *; lia.
Qed.

(* Select[h[x1, ..., xn], f] is h of the elements for which f gives True, in their
   order.  A list in memory has fewer than 2^63 elements. *)
Theorem C81_select : forall c es a1 a2 h l f es1 kept es2 v es3, cfg_mono c -> with_callbacks c ->
  ready es "Select" prot -> system_fn es1 (sysname "Select") prot -> no_rules es2 (sysname "Select") ->
  evals_args c (fun _ => False) 1 es [a1; a2] [EExpr (h :: l); f] es1 -> Forall ordinary_arg [EExpr (h :: l); f] ->
  (Z.of_nat (length l) < 2 ^ 63)%Z -> selects c f None es1 l kept es2 ->
  hash_ok (fn "Select" [a1; a2]) -> no_clash (fn "Select" [a1; a2]) (EExpr (h :: kept)) ->
  evals_to c es2 (EExpr (h :: kept)) v es3 -> evals_to c es (fn "Select" [a1; a2]) v es3.
Proof.
  intros c es a1 a2 h l f es1 kept es2 v es3 Hc Hw R S1 NR E O L Sl Hz Nc Ev.
  apply (callback_call c es "Select" _ _ es1 select_fn (EExpr (h :: kept)) es2 v es3 Hc Hw eq_refl R S1 NR E O); auto.
  destruct (selects_loop c f None es1 l kept es2 Hc Sl (2 ^ 63 - 1)%Z) as [n K]. exists n. intros m Hm. eexists.
  unfold select_fn. cbv zeta. rewrite K; [reflexivity|exact Hm|cbn [limit_is]; lia].
Qed.
Print Assumptions C81_select.

(* Select[h[x1, ..., xn], f, k]: the first k of them *)
Theorem C81_select_first : forall c es a1 a2 a3 h l f k es1 kept es2 v es3, cfg_mono c -> with_callbacks c ->
  ready es "Select" prot -> system_fn es1 (sysname "Select") prot -> no_rules es2 (sysname "Select") ->
  evals_args c (fun _ => False) 1 es [a1; a2; a3] [EExpr (h :: l); f; EInt (Z.of_nat k)] es1 ->
  Forall ordinary_arg [EExpr (h :: l); f] -> (Z.of_nat k < 2 ^ 63)%Z ->
  selects c f (Some k) es1 l kept es2 ->
  hash_ok (fn "Select" [a1; a2; a3]) -> no_clash (fn "Select" [a1; a2; a3]) (EExpr (h :: kept)) ->
  evals_to c es2 (EExpr (h :: kept)) v es3 -> evals_to c es (fn "Select" [a1; a2; a3]) v es3.
Proof.
  intros c es a1 a2 a3 h l f k es1 kept es2 v es3 Hc Hw R S1 NR E O L Sl Hz Nc Ev.
  apply (callback_call c es "Select" _ _ es1 select_fn (EExpr (h :: kept)) es2 v es3 Hc Hw eq_refl R S1 NR E); auto.
  { inversion O as [|? ? O1 O2]; subst. inversion O2; subst. repeat constructor; try assumption; try apply O1; try apply H1; intros [t K]; discriminate K. }
  destruct (selects_loop c f (Some k) es1 l kept es2 Hc Sl (Z.of_nat k)) as [n K]. exists n. intros m Hm. eexists.
  unfold select_fn. cbv zeta.
  assert (W : wrap64 (Z.of_nat k) = Z.of_nat k) by (apply wrap64_small; split; lia).
  rewrite W. replace (Z.of_nat k <? 0)%Z with false by (symmetry; apply Z.ltb_ge; lia).
  rewrite K; [reflexivity|exact Hm|reflexivity].
Qed.
Print Assumptions C81_select_first.

(* what [selects] means when f has no side effects: the sublist of the elements
   with f[x] = True *)
Theorem C81_select_pure : forall c es f (good : ex -> bool) l,
  (forall x, In x l -> if good x then evals_to c es (EExpr [f; x]) sTrue es else exists r, r <> sTrue /\ evals_to c es (EExpr [f; x]) r es) ->
  selects c f None es l (filter good l) es.
Proof.
  intros c es f good. induction l as [|x l IH]; intro H; [apply SL_nil|]. cbn [filter].
  pose proof (H x (or_introl eq_refl)) as Hx. destruct (good x).
  - eapply SL_keep_all; [exact Hx|]. apply IH. intros y Hy. apply H. right; exact Hy.
  - destruct Hx as [r [N E]]. eapply SL_drop; [discriminate|exact E|exact N|]. apply IH. intros y Hy. apply H. right; exact Hy.
Qed.
Print Assumptions C81_select_pure.

(* Scan[f, h[x1, ..., xn]]: f[x1], f[x2], ... are evaluated in this order, each
   once; f[x] giving Return[v] ends the traversal with v.  Otherwise it gives Null. *)
Inductive scans (c : cfg) (f : ex) : estate -> list ex -> ex -> estate -> Prop :=
| SC_end es : scans c f es [] sNull es
| SC_next es x l r es1 v es2 : evals_to c es (EExpr [f; x]) r es1 -> es_thrown es1 = None -> ~ headed r (sysname "Return") ->
    scans c f es1 l v es2 -> scans c f es (x :: l) v es2
| SC_return es x l v t es1 : evals_to c es (EExpr [f; x]) (fn "Return" (v :: t)) es1 -> es_thrown es1 = None ->
    scans c f es (x :: l) v es1
| SC_return_null es x l es1 : evals_to c es (EExpr [f; x]) (fn "Return" []) es1 -> es_thrown es1 = None ->
    scans c f es (x :: l) sNull es1
| SC_throw es x l r es1 th : evals_to c es (EExpr [f; x]) r es1 -> es_thrown es1 = Some th ->
    scans c f es (x :: l) th es1.
Lemma scans_loop c f es l v es' : cfg_mono c -> scans c f es l v es' ->
  exists n, forall m, n <= m -> scan_loop (run c m None) f es l = Ret (v, es').
Proof.
  intros Hc H. induction H as [es|es x l r es1 v es2 E T N _ [n IH]|es x l v t es1 E T|es x l es1 E T|es x l r es1 th E T];
    [exists 0; reflexivity| | | |]; destruct (evals_large c _ _ _ _ Hc E) as [n1 K1].
  - exists (n + n1). intros m Hm. cbn [scan_loop]. rewrite K1 by lia. cbn [obind]. rewrite T, not_return by exact N. apply IH. lia.
  - exists n1. intros m Hm. cbn [scan_loop]. rewrite K1 by lia. cbn [obind]. rewrite T. reflexivity.
  - exists n1. intros m Hm. cbn [scan_loop]. rewrite K1 by lia. cbn [obind]. rewrite T. reflexivity.
  - exists n1. intros m Hm. cbn [scan_loop]. rewrite K1 by lia. cbn [obind]. rewrite T. reflexivity.
Qed.
Theorem C81_scan : forall c es a1 a2 f h l es1 r es2 v es3, cfg_mono c -> with_callbacks c ->
  ready es "Scan" prot -> system_fn es1 (sysname "Scan") prot -> no_rules es2 (sysname "Scan") ->
  evals_args c (fun _ => False) 1 es [a1; a2] [f; EExpr (h :: l)] es1 -> Forall ordinary_arg [f; EExpr (h :: l)] ->
  scans c f es1 l r es2 ->
  hash_ok (fn "Scan" [a1; a2]) -> no_clash (fn "Scan" [a1; a2]) r ->
  evals_to c es2 r v es3 -> evals_to c es (fn "Scan" [a1; a2]) v es3.
Proof.
  intros c es a1 a2 f h l es1 r es2 v es3 Hc Hw R S1 NR E O Sc Hz Nc Ev.
  apply (callback_call c es "Scan" _ _ es1 scan_fn r es2 v es3 Hc Hw eq_refl R S1 NR E O); auto.
  destruct (scans_loop c f es1 l r es2 Hc Sc) as [n K]. exists n. intros m Hm. eexists. unfold scan_fn. rewrite K by exact Hm. reflexivity.
Qed.
Print Assumptions C81_scan.

(* {Select, Scan} with a user function: p[2] := True, p[3] := 7 *)
Definition c1 : cfg := Cfg (fun _ => 0%Z) (fun _ => ""%string) (fun _ _ => false) (callbacks (fun _ => ""%string)).
Lemma c1_mono : cfg_mono c1. Proof. exact (callbacks_mono _). Qed.
Lemma c1_with : with_callbacks c1.
Proof.
  intros n b H. unfold builtin_of. replace (assoc (table c1) n) with (@None builtin); [exact H|].
  unfold callbacks in H. repeat match goal with H : context [if (?x =? ?y)%string then _ else _] |- _ => destruct (String.eqb_spec x y); [subst; vm_compute; reflexivity|] end.
  discriminate H.
Qed.
Definition with_entries (es : estate) (l : list (string * def)) : estate :=
  ES (State (l ++ st_defs (es_defs es)) (st_frozen (es_defs es))) (es_thrown es) (es_sown es).
Definition es1 : estate := with_entries es0
  [entry "Select" prot true; entry "Scan" prot true; entry "FixedPoint" prot true; entry "NestWhileList" prot true].
Definition run1 (es : estate) (e : ex) : estate := match eval c1 30 es e with Ret (_, s) => s | _ => es end.
Definition esp : estate := run1 (run1 es1 (fn "SetDelayed" [uf "p" [EInt 2]; sTrue])) (fn "SetDelayed" [uf "p" [EInt 3]; EInt 7]).
Definition l4 : list ex := [EInt 2; EInt 5; EInt 2; EInt 3; EInt 2].
Lemma ready1 h es : (match lookup (es_defs es) (sysname h) with Some d => d_builtin d && match d_dvs d with [] => true | _ => false end | None => false end) = true ->
  (exists d, lookup (es_defs es) (sysname h) = Some d /\ d_attrs d = strings_to_attributes prot) ->
  get_sym_def (es_defs es) (sysname h) = None -> es_thrown es = None -> ready es h prot.
Proof.
  intros B [d [L A]] N T. rewrite L in B. apply andb_true_iff in B. destruct B as [B D].
  split; [exists d; auto|split; [|split; assumption]]. intros d' L'. rewrite L in L'. injection L' as <-. destruct (d_dvs d); [reflexivity|discriminate].
Qed.
Ltac rdy := apply ready1; [vm_compute; reflexivity|eexists; split; [vm_compute; reflexivity|reflexivity]|vm_compute; reflexivity|reflexivity].
Example C81_ex_select :
  ready esp "Select" prot /\
  selects c1 (gl "p") None esp l4 [EInt 2; EInt 2; EInt 2] esp /\ selects c1 (gl "p") (Some 2) esp l4 [EInt 2; EInt 2] esp /\
  scans c1 (gl "p") esp l4 sNull esp /\ scans c1 (sys "Return") esp l4 (EInt 2) esp /\
  evals_to c1 esp (fn "Select" [uf "g" l4; gl "p"]) (uf "g" [EInt 2; EInt 2; EInt 2]) esp /\
  evals_to c1 esp (fn "Select" [uf "g" l4; gl "p"; EInt 2]) (uf "g" [EInt 2; EInt 2]) esp /\
  evals_to c1 esp (fn "Scan" [gl "p"; uf "g" l4]) sNull esp /\
  evals_to c1 esp (fn "Scan" [sys "Return"; uf "g" l4]) (EInt 2) esp.
Proof.
  assert (T : evals_to c1 esp (uf "p" [EInt 2]) sTrue esp) by (exists 10; vm_compute; reflexivity).
  assert (D5 : evals_to c1 esp (uf "p" [EInt 5]) (uf "p" [EInt 5]) esp) by (exists 10; vm_compute; reflexivity).
  assert (D3 : evals_to c1 esp (uf "p" [EInt 3]) (EInt 7) esp) by (exists 10; vm_compute; reflexivity).
  repeat match goal with |- _ /\ _ => split end.
  - rdy.
  - unfold l4. eapply SL_keep_all; [exact T|]. eapply SL_drop; [discriminate|exact D5|discriminate|].
    eapply SL_keep_all; [exact T|]. eapply SL_drop; [discriminate|exact D3|discriminate|].
    eapply SL_keep_all; [exact T|]. apply SL_nil.
  - unfold l4. eapply SL_keep; [exact T|]. eapply SL_drop; [discriminate|exact D5|discriminate|].
    eapply SL_keep; [exact T|]. apply SL_enough.
  - unfold l4. eapply SC_next; [exact T|reflexivity|not_headed|]. eapply SC_next; [exact D5|reflexivity|not_headed|].
    eapply SC_next; [exact T|reflexivity|not_headed|]. eapply SC_next; [exact D3|reflexivity|not_headed|].
    eapply SC_next; [exact T|reflexivity|not_headed|]. apply SC_end.
  - unfold l4. eapply SC_return; [exists 10; vm_compute; reflexivity|reflexivity].
  - exists 20; vm_compute; reflexivity.
  - exists 20; vm_compute; reflexivity.
  - exists 20; vm_compute; reflexivity.
  - exists 20; vm_compute; reflexivity.
Qed.

(* ------------------------------------------------------------------ C82 *)
(* x, f[x], f[f[x]], ...: each obtained by evaluating f[previous], until one is
   SameQ to the one before it *)
Inductive settles (c : cfg) (f : ex) : estate -> ex -> ex -> estate -> Prop :=
| ST_here es x y es1 : evals_to c es (EExpr [f; x]) y es1 -> is_sameq x y = true -> settles c f es x y es1
| ST_next es x y es1 z es2 : evals_to c es (EExpr [f; x]) y es1 -> is_sameq x y = false ->
    settles c f es1 y z es2 -> settles c f es x z es2.
Lemma settles_loop c f es x y es' : cfg_mono c -> settles c f es x y es' ->
  exists n, forall m k, n <= m -> n <= k -> fixed_point_loop k (run c m None) f es x = Ret (y, es').
Proof.
  intros Hc H. induction H as [es x y es1 E Q|es x y es1 z es2 E Q _ [n IH]]; destruct (evals_large c _ _ _ _ Hc E) as [n1 K1].
  - exists (S n1). intros m [|k] Hm Hk; [lia|]. cbn [fixed_point_loop]. rewrite K1 by lia. cbn [obind]. rewrite Q. reflexivity.
  - exists (S (n + n1)). intros m [|k] Hm Hk; [lia|]. cbn [fixed_point_loop]. rewrite K1 by lia. cbn [obind]. rewrite Q. apply IH; lia.
Qed.
Theorem C82_fixed_point : forall c es a1 a2 f x es1 y es2 v es3, cfg_mono c -> with_callbacks c ->
  ready es "FixedPoint" prot -> system_fn es1 (sysname "FixedPoint") prot -> no_rules es2 (sysname "FixedPoint") ->
  evals_args c (fun _ => False) 1 es [a1; a2] [f; x] es1 -> Forall ordinary_arg [f; x] ->
  settles c f es1 x y es2 ->
  hash_ok (fn "FixedPoint" [a1; a2]) -> no_clash (fn "FixedPoint" [a1; a2]) y ->
  evals_to c es2 y v es3 -> evals_to c es (fn "FixedPoint" [a1; a2]) v es3.
Proof.
  intros c es a1 a2 f x es1 y es2 v es3 Hc Hw R S1 NR E O Sc Hz Nc Ev.
  apply (callback_call c es "FixedPoint" _ _ es1 fixed_point_fn y es2 v es3 Hc Hw eq_refl R S1 NR E O); auto.
  destruct (settles_loop c f es1 x y es2 Hc Sc) as [n K]. exists n. intros m Hm. eexists. unfold fixed_point_fn. rewrite K by exact Hm. reflexivity.
Qed.
Print Assumptions C82_fixed_point.
(* the result is a fixed point: it is what f gives for an argument SameQ to it *)
Theorem C82_is_fixed : forall c f es x y es', settles c f es x y es' ->
  exists es1 x', evals_to c es1 (EExpr [f; x']) y es' /\ is_sameq x' y = true.
Proof. intros c f es x y es' H. induction H as [es x y es1 E Q|es x y es1 z es2 E Q _ IH]; [exists es, x; auto|exact IH]. Qed.
Print Assumptions C82_is_fixed.
(* and conversely FixedPoint ends only there: if no f^k[x] repeats, it never
   ends.  [orbit k] is the k-th value. *)
Lemma builtin_diverges c es h names args args' f es1 : cfg_mono c -> hash_ok (EExpr (ESym h :: args)) ->
  system_fn es h names -> (exists nm, system_fn es1 h nm) ->
  ~ In "NumericFunction"%string names -> ~ In "Flat"%string names -> ~ In "Orderless"%string names -> ~ In "Listable"%string names ->
  evals_args c (holds names) 0 es (ESym h :: args) (ESym h :: args') es1 -> Forall ordinary_arg args' ->
  builtin_of c h = Some f ->
  (forall m, f m (run c m None) es1 (ESym h :: args') = More) ->
  diverges c es (EExpr (ESym h :: args)).
Proof.
  intros Hc Hz S0 [nm S1] N1 N2 N3 N4 E O T H.
  destruct (evals_args_large c _ _ _ _ _ _ Hc E) as [n1 K]. apply (diverges_large c es _ (S (S n1)) Hc). intros m Hm.
  destruct m as [|[|m]]; try lia. unfold eval.
  change (run c (S (S m)) None es (EExpr (ESym h :: args))) with (run c (S m) (Some (0%N, false)) es (EExpr (ESym h :: args))).
  rewrite run_expr by exact Hz.
  rewrite (pass_symbol c m (run c m None) es h names args (ESym h :: args') es1); auto.
  - unfold apply_head. destruct S1 as [d [L [B _]]]. rewrite L, B, T, H. reflexivity.
  - apply (system_attrs _ _ _ S0).
  - apply K. lia.
  - constructor; [apply ordinary_sym|exact O].
  - discriminate.
Qed.
Theorem C82_fixed_point_diverges : forall c es a1 a2 f es1 (orbit : nat -> ex) (st : nat -> estate), cfg_mono c -> with_callbacks c ->
  ready es "FixedPoint" prot -> system_fn es1 (sysname "FixedPoint") prot ->
  evals_args c (fun _ => False) 1 es [a1; a2] [f; orbit 0] es1 -> Forall ordinary_arg [f; orbit 0] -> st 0 = es1 ->
  (forall k, evals_to c (st k) (EExpr [f; orbit k]) (orbit (S k)) (st (S k)) /\ is_sameq (orbit k) (orbit (S k)) = false) ->
  hash_ok (fn "FixedPoint" [a1; a2]) ->
  diverges c es (fn "FixedPoint" [a1; a2]).
Proof.
  intros c es a1 a2 f es1 orbit st Hc Hw [Sy [NR [NV T]]] S1 E O Z H Hz.
  apply (builtin_diverges c es (sysname "FixedPoint") prot [a1; a2] [f; orbit 0] fixed_point_fn es1 Hc Hz Sy (ex_intro _ _ S1)); try (apply not_prot; cbn; tauto); auto.
  - apply head_arg; auto. clear - E. revert E. generalize 1 es [a1; a2] [f; orbit 0] es1. intros i s l r s' E.
    induction E; [apply EA_nil|contradiction|]. eapply EA_eval; [apply prot_free|eassumption|assumption|assumption].
  - intro m. unfold fixed_point_fn. replace (fixed_point_loop m (run c m None) f es1 (orbit 0)) with (@More (ex * estate)); [reflexivity|].
    symmetry. rewrite <- Z. generalize m at 1. intro k. generalize 0. induction k as [|k IH]; intro j; [reflexivity|]. cbn [fixed_point_loop].
    destruct (H j) as [Ej Qj]. destruct (eval_or_more c _ _ _ _ m Hc Ej) as [Q|Q]; rewrite Q; [reflexivity|]. cbn [obind]. rewrite Qj. apply IH.
Qed.
Print Assumptions C82_fixed_point_diverges.
(* q[1] := q[2] := 3, q[3] := 3: FixedPoint[q, 1] = 3; FixedPoint[Not, True] never ends *)
Definition esq : estate := fold_left run1 [fn "SetDelayed" [uf "q" [EInt 1]; EInt 2]; fn "SetDelayed" [uf "q" [EInt 2]; EInt 3]; fn "SetDelayed" [uf "q" [EInt 3]; EInt 3]] es1.
Example C82_ex_fixed : ready esq "FixedPoint" prot /\ settles c1 (gl "q") esq (EInt 1) (EInt 3) esq /\
  evals_to c1 esq (fn "FixedPoint" [gl "q"; EInt 1]) (EInt 3) esq /\ diverges c1 es1 (fn "FixedPoint" [sys "Not"; sTrue]).
Proof.
  repeat match goal with |- _ /\ _ => split end.
  - rdy.
  - eapply ST_next; [exists 10; vm_compute; reflexivity|vm_compute; reflexivity|].
    eapply ST_next; [exists 10; vm_compute; reflexivity|vm_compute; reflexivity|].
    eapply ST_here; [exists 10; vm_compute; reflexivity|vm_compute; reflexivity].
  - exists 20; vm_compute; reflexivity.
  - apply (C82_fixed_point_diverges c1 es1 _ _ (sys "Not") es1 (fun k => if Nat.even k then sTrue else sFalse) (fun _ => es1) c1_mono c1_with).
    + rdy.
    + eexists; split; [vm_compute; reflexivity|split; reflexivity].
    + eapply EA_eval; [auto|exists 5; vm_compute; reflexivity|reflexivity|]. eapply EA_eval; [auto|exists 5; vm_compute; reflexivity|reflexivity|]. apply EA_nil.
    + repeat constructor; not_headed.
    + reflexivity.
    + intro k. rewrite Nat.even_succ, <- Nat.negb_even. destruct (Nat.even k); (split; [exists 20; vm_compute; reflexivity|vm_compute; reflexivity]).
    + hok.
Qed.

(* ---- NestWhileList ---- *)
(* f[f[...[e]]], k times *)
Definition applied (f e : ex) (k : nat) : ex := Nat.iter k (fun x => EExpr [f; x]) e.
(* the test is applied to the last m of the values vs; as long as there are not
   m of them, it counts as passed.  [None]: All. *)
Inductive passes (c : cfg) (test : ex) (m : option nat) (vs : list ex) : estate -> bool -> estate -> Prop :=
| PA_short es k : m = Some k -> length vs < k -> passes c test m vs es true es
| PA_all es r es' (b : bool) : m = None -> evals_to c es (EExpr (test :: vs)) r es' -> (b = true <-> r = sTrue) -> passes c test m vs es b es'
| PA_last es k old recent r es' (b : bool) : m = Some k -> vs = old ++ recent -> length recent = k ->
    evals_to c es (EExpr (test :: recent)) r es' -> (b = true <-> r = sTrue) -> passes c test m vs es b es'.
(* f applied [k + 1] times, [k + 2] times, ... until the test is not passed or
   the maximal number of applications is reached; [n] applications in the end *)
Definition below (k : nat) (max : option nat) : Prop := match max with Some x => k < x | None => True end.
Inductive nests (c : cfg) (f e test : ex) (m max : option nat) : nat -> list ex -> estate -> nat -> estate -> Prop :=
| NE_stop k vs es v es1 b es2 : evals_to c es (applied f e (S k)) v es1 ->
    passes c test m (vs ++ [v]) es1 b es2 -> b = false \/ ~ below (S k) max -> nests c f e test m max k vs es (S k) es2
| NE_next k vs es v es1 es2 n es3 : evals_to c es (applied f e (S k)) v es1 ->
    passes c test m (vs ++ [v]) es1 true es2 -> below (S k) max ->
    nests c f e test m max (S k) (vs ++ [v]) es2 n es3 -> nests c f e test m max k vs es n es3.
Definition opt_z (o : option nat) : Z := match o with Some n => Z.of_nat n | None => (-1)%Z end.
Lemma is_equal_true fmt r : is_equal fmt r sTrue = EqTrue <-> r = sTrue.
Proof.
  split; [|intros ->; reflexivity]. destruct r as [s| | | | | |l]; try discriminate.
  - unfold sTrue, sys. cbn [is_equal]. destruct (String.eqb_spec s (sysname "True")); [subst; reflexivity|].
    intro K. exfalso. revert K. repeat match goal with |- context [if ?b then _ else _] => destruct b end; discriminate.
Qed.
Lemma passes_loop c test m vs es b es' fmt : cfg_mono c -> passes c test m vs es b es' ->
  exists n, forall k, n <= k ->
    (if (opt_z m <=? Z.of_nat (length vs))%Z
     then obind (run c k None es (EExpr (test :: window (opt_z m) vs))) (fun '(r, es2) =>
          Ret (match is_equal fmt r sTrue with EqTrue => true | _ => false end, es2))
     else Ret (true, es)) = Ret (b, es').
Proof.
  intros Hc H.
  assert (Q : forall r (b : bool), (b = true <-> r = sTrue) -> match is_equal fmt r sTrue with EqTrue => true | _ => false end = b).
  { intros r b0 I. pose proof (is_equal_true fmt r) as J. destruct b0.
    - rewrite (proj2 J (proj1 I eq_refl)). reflexivity.
    - destruct (is_equal fmt r sTrue) eqn:X; try reflexivity. exfalso. pose proof (proj2 I (proj1 J eq_refl)). discriminate. }
  destruct H as [s k Em L|s r s' b Em E I|s k old recent r s' b Em Ev L E I]; subst m; [| |subst vs].
  - exists 0. intros j _. cbn [opt_z]. replace (Z.of_nat k <=? Z.of_nat (length vs))%Z with false by (symmetry; apply Z.leb_gt; lia). reflexivity.
  - destruct (evals_large c _ _ _ _ Hc E) as [n1 K1]. exists n1. intros k Hk. cbn [opt_z].
    replace (-1 <=? Z.of_nat (length vs))%Z with true by (symmetry; apply Z.leb_le; lia).
    replace (window (-1) vs) with vs by reflexivity. rewrite K1 by exact Hk. cbn [obind]. rewrite (Q r b I). reflexivity.
  - destruct (evals_large c _ _ _ _ Hc E) as [n1 K1]. exists n1. intros j Hj. cbn [opt_z].
    replace (Z.of_nat k <=? Z.of_nat (length (old ++ recent)))%Z with true by (symmetry; apply Z.leb_le; rewrite app_length; lia).
    replace (window (Z.of_nat k) (old ++ recent)) with recent.
    + rewrite K1 by exact Hj. cbn [obind]. rewrite (Q r b I). reflexivity.
    + unfold window. replace (0 <=? Z.of_nat k)%Z with true by (symmetry; apply Z.leb_le; lia).
      rewrite Nat2Z.id, app_length, L. replace (length old + k - k) with (length old + 0) by lia.
      rewrite skipn_app, skipn_all2 by lia. replace (length old + 0 - length old) with 0 by lia. reflexivity.
Qed.
Lemma applied_S f e k : applied f e (S k) = EExpr [f; applied f e k]. Proof. reflexivity. Qed.
Lemma nests_loop c f e test m max k vs es n es' fmt : cfg_mono c -> length vs = S k -> nests c f e test m max k vs es n es' ->
  k < n /\ exists N, forall j fuel, N <= j -> N <= fuel ->
    nest_while_loop fmt fuel (run c j None) f test (opt_z m) (opt_z max) (Z.of_nat (S (S k))) es (applied f e k) vs
    = Ret (map (applied f e) (seq (S k) (n - k)), applied f e n, es').
Proof.
  intros Hc L H. revert L.
  assert (B : forall k, (opt_z max <? Z.of_nat (S (S k)))%Z && negb (opt_z max =? -1)%Z = false <-> below (S k) max).
  { intro i. destruct max as [x|]; cbn [opt_z below].
    - replace (Z.of_nat x =? -1)%Z with false by (symmetry; apply Z.eqb_neq; lia). rewrite andb_true_r, Z.ltb_ge. lia.
    - rewrite Z.eqb_refl, andb_false_r. tauto. }
  induction H as [k vs es v es1 b es2 E P D|k vs es v es1 es2 n es3 E P D _ IH]; intro L;
    destruct (evals_large c _ _ _ _ Hc E) as [n1 K1]; destruct (passes_loop c test m _ _ _ _ fmt Hc P) as [n2 K2];
    assert (L' : length (vs ++ [v]) = S (S k)) by (rewrite app_length; cbn; lia); rewrite L' in K2.
  - split; [lia|]. exists (S (n1 + n2)). intros j [|fuel] Hj Hf; [lia|]. cbn [nest_while_loop]. cbv zeta. rewrite <- applied_S.
    rewrite K1 by lia. cbn [obind]. rewrite K2 by lia. cbn [obind].
    replace (b && _) with false; [replace (S k - k) with 1 by lia; reflexivity|].
    symmetry. destruct D as [->|D]; [reflexivity|]. destruct b; [|reflexivity]. cbn [andb].
    destruct ((opt_z max <? Z.of_nat (S (S k)))%Z && negb (opt_z max =? -1)%Z) eqn:X; [reflexivity|]. exfalso. apply D, B, X.
  - destruct (IH L') as [Lt [N K]]. split; [lia|]. exists (S (n1 + n2 + N)). intros j [|fuel] Hj Hf; [lia|].
    cbn [nest_while_loop]. cbv zeta. rewrite <- applied_S. rewrite K1 by lia. cbn [obind]. rewrite K2 by lia. cbn [obind].
    rewrite (proj2 (B k) D). cbn [andb negb].
    replace (Z.of_nat (S (S k)) + 1)%Z with (Z.of_nat (S (S (S k)))) by lia. rewrite K by lia. cbn [obind].
    replace (n - k) with (S (n - S k)) by lia. reflexivity.
Qed.
Lemma bonus_applied f e k n : bonus f (applied f e k) n = map (applied f e) (seq (S k) n).
Proof. revert k. induction n as [|n IH]; intro k; [reflexivity|]. cbn [bonus seq map]. rewrite <- applied_S, IH. reflexivity. Qed.

(* the arguments m, max and n as written in a call: All, Infinity or a number *)
Definition count_arg (all : string) (o : option nat) (a : ex) : Prop :=
  match o with Some n => a = EInt (Z.of_nat n) /\ (Z.of_nat n < 2 ^ 63)%Z | None => a = sys all end.
Inductive nest_args : option nat -> option nat -> nat -> list ex -> Prop :=
| NA_0 : nest_args (Some 1) None 0 []
| NA_1 m a : count_arg "All" m a -> nest_args m None 0 [a]
| NA_2 m a x b : count_arg "All" m a -> count_arg "Infinity" x b -> nest_args m x 0 [a; b]
| NA_3 m a x b n : count_arg "All" m a -> count_arg "Infinity" x b -> (Z.of_nat n < 2 ^ 63)%Z -> nest_args m x n [a; b; EInt (Z.of_nat n)].
Lemma bound_arg_count all o a : count_arg all o a -> bound_arg all a = Some (opt_z o).
Proof.
  destruct o as [n|]; cbn [count_arg opt_z].
  - intros [-> L]. unfold bound_arg. rewrite wrap64_small by (split; lia).
    replace (Z.of_nat n <? 0)%Z with false by (symmetry; apply Z.ltb_ge; lia). reflexivity.
  - intros ->. unfold bound_arg, sys. rewrite String.eqb_refl. reflexivity.
Qed.
Lemma nest_args_fn fmt k ev es f e test m max b opts r : nest_args m max b opts ->
  obind (ev es e) (fun '(v, es1) =>
    obind (nest_while_loop fmt k ev f test (opt_z m) (opt_z max) 2 es1 e [v]) (fun '(l, last, es2) =>
    Ret (mkList (e :: l ++ bonus f last b), sys "NestWhileList" :: f :: e :: test :: opts, es2))) = r ->
  nest_while_fn fmt k ev es (sys "NestWhileList" :: f :: e :: test :: opts) = r.
Proof.
  intros H <-. destruct H as [|m a A|m a x d A D|m a x d n A D L]; unfold nest_while_fn; cbv zeta; cbn iota; [reflexivity| | |];
    rewrite (bound_arg_count _ _ _ A); try rewrite (bound_arg_count _ _ _ D); try reflexivity.
  unfold bonus_arg. rewrite wrap64_small by (split; lia). rewrite Nat2Z.id. reflexivity.
Qed.

(* NestWhileList[f, e, test, m, max, b] is {e, f[e], f[f[e]], ...}: n + b
   applications, where n is determined by [nests].  The list is then evaluated. *)
Theorem C82_nest_while : forall c es args f e test opts m max b es1 v0 es2 n es3 v es4, cfg_mono c -> with_callbacks c ->
  ready es "NestWhileList" prot -> system_fn es1 (sysname "NestWhileList") prot -> no_rules es3 (sysname "NestWhileList") ->
  evals_args c (fun _ => False) 1 es args (f :: e :: test :: opts) es1 -> Forall ordinary_arg (f :: e :: test :: opts) ->
  nest_args m max b opts ->
  evals_to c es1 e v0 es2 -> nests c f e test m max 0 [v0] es2 n es3 ->
  let result := mkList (map (applied f e) (seq 0 (S (n + b)))) in
  hash_ok (fn "NestWhileList" args) -> no_clash (fn "NestWhileList" args) result ->
  evals_to c es3 result v es4 -> evals_to c es (fn "NestWhileList" args) v es4.
Proof.
  intros c es args f e test opts m max b es1 v0 es2 n es3 v es4 Hc Hw R S1 NR E O NA E0 N result Hz Nc Ev.
  apply (callback_call c es "NestWhileList" _ _ es1 (nest_while_fn (c_fmt c)) result es3 v es4 Hc Hw eq_refl R S1 NR E O); auto.
  destruct (evals_large c _ _ _ _ Hc E0) as [n1 K1].
  destruct (nests_loop c f e test m max 0 [v0] es2 n es3 (c_fmt c) Hc eq_refl N) as [Lt [n2 K2]].
  exists (n1 + n2). intros j Hj. eexists. apply (nest_args_fn _ _ _ _ _ _ _ m max b opts _ NA).
  rewrite K1 by lia. cbn [obind]. change 2%Z with (Z.of_nat 2). change e with (applied f e 0) at 1. rewrite K2 by lia. cbn [obind].
  do 2 f_equal. unfold result. f_equal. change (applied f e 0) with e. rewrite bonus_applied, Nat.sub_0_r, <- map_app, <- seq_app. reflexivity.
Qed.
Print Assumptions C82_nest_while.

(* t[r[1]] := True, t[r[r[1]]] undecided: {1, r[1], r[r[1]]} *)
Definition estt : estate := fold_left run1 [fn "SetDelayed" [uf "t" [uf "r" [EInt 1]]; sTrue]] es1.
Example C82_ex_nest : ready estt "NestWhileList" prot /\
  nests c1 (gl "r") (EInt 1) (gl "t") (Some 1) None 0 [EInt 1] estt 2 estt /\
  nests c1 (gl "r") (EInt 1) (sys "UnsameQ") (Some 2) (Some 1) 0 [EInt 1] estt 1 estt /\
  evals_to c1 estt (fn "NestWhileList" [gl "r"; EInt 1; gl "t"]) (mkList [EInt 1; uf "r" [EInt 1]; uf "r" [uf "r" [EInt 1]]]) estt /\
  evals_to c1 estt (fn "NestWhileList" [gl "r"; EInt 1; gl "t"; EInt 1; EInt 1; EInt 1]) (mkList [EInt 1; uf "r" [EInt 1]; uf "r" [uf "r" [EInt 1]]]) estt.
Proof.
  repeat match goal with |- _ /\ _ => split end.
  - rdy.
  - eapply NE_next; [exists 10; vm_compute; reflexivity| |exact Logic.I|].
    + eapply PA_last; [reflexivity|apply (eq_refl ([EInt 1] ++ [_]))|reflexivity|exists 10; vm_compute; reflexivity|split; reflexivity].
    + eapply NE_stop; [exists 10; vm_compute; reflexivity| |left; reflexivity].
      eapply PA_last; [reflexivity|apply (eq_refl ([EInt 1; _] ++ [_]))|reflexivity|exists 10; vm_compute; reflexivity|split; discriminate].
  - eapply NE_stop; [exists 10; vm_compute; reflexivity| |right; cbn; lia].
    eapply (PA_last _ _ _ _ _ 2 []); [reflexivity|reflexivity|reflexivity|exists 10; vm_compute; reflexivity|].
    instantiate (1 := false). split; discriminate.
  - exists 20; vm_compute; reflexivity.
  - exists 20; vm_compute; reflexivity.
Qed.

(* Against the documentation ("applies f to expr until test does not return
   True", "max denotes the maximum number of applications of f"): the test is
   not applied to the start value, and max = 0 still applies f once.  A function
   with side effects is called again for values already computed. *)
Theorem C82_nest_while_refuted :
  (exists v, evals_to c1 estt (uf "t" [EInt 1]) v estt /\ v <> sTrue /\
     evals_to c1 estt (fn "NestWhileList" [gl "r"; EInt 1; gl "t"]) (mkList [EInt 1; uf "r" [EInt 1]; uf "r" [uf "r" [EInt 1]]]) estt) /\
  evals_to c1 es1 (fn "NestWhileList" [gl "r"; EInt 1; gl "t"; EInt 1; EInt 0]) (mkList [EInt 1; uf "r" [EInt 1]]) es1.
Proof.
  split.
  - exists (uf "t" [EInt 1]). repeat match goal with |- _ /\ _ => split end; [exists 10; vm_compute; reflexivity|discriminate|exists 20; vm_compute; reflexivity].
  - exists 20; vm_compute; reflexivity.
Qed.
Print Assumptions C82_nest_while_refuted.
