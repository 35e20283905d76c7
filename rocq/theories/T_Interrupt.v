(* Property theorems: interrupting an evaluation (C99). *)
From Verif Require Import M_Syntax M_Float M_Hash M_Sort M_Num M_Arith M_Compare M_Match M_Defs M_Eval S_Eval P_Hash P_MatchFuel P_Eval P_Eval2 P_Eval3 P_Eval4 T_Eval T_Eval2 T_Eval3 T_Eval4 T_Eval5 M_Interrupt.
Open Scope nat_scope.

(* e evaluates to v when the flag is set in the states i *)
Definition evals_i (i : estate -> bool) (c : cfg) (es : estate) (e v : ex) (es' : estate) : Prop :=
  exists n, eval_i i c n es e = Ret (v, es').
Definition diverges_i (i : estate -> bool) (c : cfg) (es : estate) (e : ex) : Prop := forall n, eval_i i c n es e = More.
Definition never : estate -> bool := fun _ => false.
Definition always : estate -> bool := fun _ => true.

(* ---- more steps do no harm ---- *)
Lemma while_i_mono i : mono (while_fn_i i).
Proof.
  intros k1 k2 e1 e2 es l Hk He. unfold while_fn_i.
  destruct l as [|h [|cd [|b [|]]]]; try apply ole_refl.
  apply ole_bind; [|intros [r es1]; apply ole_refl].
  revert k2 Hk es. induction k1 as [|k1 IH]; intros k2 Hk es; [apply ole_more|].
  destruct k2 as [|k2]; [lia|]. cbn [while_loop_i].
  apply ole_bind; [apply He|]. intros [r es1]. destruct (is_sameq r sTrue); [|apply ole_refl].
  apply ole_bind; [apply He|]. intros [q es2]. destruct (return_value_i i es2 q); [apply ole_refl|].
  destruct (has_head q _); [apply ole_refl|]. apply IH; lia.
Qed.
Lemma builtin_i_mono i c n b : cfg_mono c -> builtin_of_i i c n = Some b -> mono b.
Proof.
  intros Hc. unfold builtin_of_i. destruct (String.eqb n (sysname "While")); [|apply builtin_mono; exact Hc].
  intro H; injection H as <-. apply while_i_mono.
Qed.
Lemma apply_head_i_mono i c k1 k2 e1 e2 es h x y : cfg_mono c -> k1 <= k2 -> ev_le e1 e2 ->
  ole (apply_head_i i c k1 e1 es h x y) (apply_head_i i c k2 e2 es h x y).
Proof.
  intros Hc Hk He. unfold apply_head_i. apply ole_bind.
  - destruct (lookup (es_defs es) h) as [d|]; [|apply ole_refl].
    destruct (d_builtin d); [|apply ole_refl].
    destruct (builtin_of_i i c h) as [f|] eqn:E; [|apply ole_refl].
    apply ole_bind; [apply (builtin_i_mono i c h f Hc E); assumption|]. intros [[r th] es1]; apply ole_refl.
  - intros [[[r th] u] es1]. destruct u; [|apply ole_refl].
    apply ole_bind; [apply get_def_mono; assumption|]. intros [o es2]; apply ole_refl.
Qed.
Lemma pass_i_mono i c k1 k2 e1 e2 es l : cfg_mono c -> k1 <= k2 -> ev_le e1 e2 ->
  ole (pass_i i c k1 e1 es l) (pass_i i c k2 e2 es l).
Proof.
  intros Hc Hk He. unfold pass_i. cbv zeta.
  match goal with |- context [if ?b then propagate_conditionals _ else None] => destruct (if b then propagate_conditionals l else None) as [p|] end.
  - apply ole_bind; [apply He|]. intros [r es1]; apply ole_refl.
  - apply ole_bind; [apply eval_parts_mono; exact He|]. intros [[th|l1] es1]; [apply ole_refl|].
    apply ole_bind; [apply splice_mono; exact He|]. intros [l2 es2].
    destruct l2 as [|h2 args2]; [apply ole_refl|].
    destruct (match l with ESym s :: _ => Some s | _ => None end) as [s|]; [|apply ole_refl].
    match goal with |- context [flat_sort ?a s ?x] => destruct (flat_sort a s x) as [ce cu] end.
    match goal with |- context [if ?b then thread_expr ?x ?y else None] => destruct (if b then thread_expr x y else None) as [t|] end;
      [apply ole_refl|].
    apply ole_bind; [apply apply_head_i_mono; assumption|]. intros [[r b] es3]; apply ole_refl.
Qed.
Lemma run_i_mono i c n1 n2 : cfg_mono c -> n1 <= n2 -> forall m es e, ole (run_i i c n1 m es e) (run_i i c n2 m es e).
Proof.
  intros Hc. revert n2. induction n1 as [|n1 IH]; intros n2 Hn m es e; [apply ole_more|].
  destruct n2 as [|n2]; [lia|]. assert (Hle : n1 <= n2) by lia.
  assert (He : ev_le (run_i i c n1 None) (run_i i c n2 None)) by (intros es' e'; apply IH; exact Hle).
  cbn [run_i]. cbv zeta. destruct m as [[last inside]|].
  - destruct (N.eqb (hash e) last); [apply ole_refl|]. destruct e; try apply He.
    destruct (if inside then return_value_i i es (EExpr parts) else None); [apply ole_refl|].
    apply ole_bind; [apply pass_i_mono; assumption|]. intros [[v|[e' b]] es1]; [apply ole_refl|].
    apply IH; exact Hle.
  - destruct e as [s|s|z|p q|f|re im|l]; try apply ole_refl.
    + destruct (get_sym_def (es_defs es) s) as [d|]; [|apply ole_refl].
      match goal with |- context [if ?b then _ else _] => destruct b end; [apply ole_refl|].
      apply ole_bind; [apply He|]. intros [r es1]; apply ole_refl.
    + apply ole_bind; [apply He|]. intros [r es1]. apply ole_bind; [apply He|]. intros [q es2]; apply ole_refl.
    + apply IH; exact Hle.
Qed.
Lemma evals_i_large i c es e v es' : cfg_mono c -> evals_i i c es e v es' -> exists n, forall m, n <= m -> run_i i c m None es e = Ret (v, es').
Proof.
  intros Hc [n H]. exists n. intros m Hm. destruct (run_i_mono i c n m Hc Hm None es e) as [K|K]; unfold eval_i in H; congruence.
Qed.

Lemma run_i_expr i c k last ins es parts : hash (EExpr parts) <> last ->
  run_i i c (S k) (Some (last, ins)) es (EExpr parts) =
  match (if ins then return_value_i i es (EExpr parts) else None) with
  | Some v => Ret (v, es)
  | None => obind (pass_i i c k (run_i i c k None) es parts) (fun '(o, es1) =>
              match o with inl v => Ret (v, es1) | inr (e', b) => run_i i c k (Some (hash (EExpr parts), ins || b)) es1 e' end)
  end.
Proof. intro H. cbn [run_i]. rewrite (proj2 (N.eqb_neq _ _) H). reflexivity. Qed.

Lemma run_i_sym i c k x es s : get_sym_def (es_defs es) s = None -> run_i i c (S (S k)) (Some x) es (ESym s) = Ret (ESym s, es).
Proof.
  intro G. destruct x as [last ins]. cbn [run_i]. destruct (N.eqb (hash (ESym s)) last); [reflexivity|]. rewrite G. reflexivity.
Qed.

Lemma pass_to_sym i c es parts s n es1 : hash_ok (EExpr parts) -> get_sym_def (es_defs es1) s = None ->
  (forall m, n <= m -> pass_i i c m (run_i i c m None) es parts = Ret (inr (ESym s, false), es1)) ->
  evals_i i c es (EExpr parts) (ESym s) es1.
Proof.
  intros Hz G K. exists (S (S (S (S n)))). unfold eval_i.
  change (run_i i c (S (S (S (S n)))) None es (EExpr parts)) with (run_i i c (S (S (S n))) (Some (0%N, false)) es (EExpr parts)).
  rewrite run_i_expr by exact Hz. rewrite (K (S (S n))) by lia. cbn [obind orb]. apply run_i_sym. exact G.
Qed.

(* ---- without interrupts nothing changes ---- *)
Lemma ole_antisym {A} (a b : outcome A) : ole a b -> ole b a -> a = b.
Proof. intros [H|H] [K|K]; congruence. Qed.
Lemma while_never k ev es l : while_fn_i never k ev es l = while_fn k ev es l.
Proof.
  unfold while_fn_i, while_fn. destruct l as [|h [|cd [|b [|]]]]; try reflexivity. f_equal. revert es.
  induction k as [|k IH]; intros es; [reflexivity|]. cbn [while_loop_i while_loop].
  destruct (ev es cd) as [[r es1]| |]; cbn [obind]; try reflexivity. destruct (is_sameq r sTrue); [|reflexivity].
  destruct (ev es1 b) as [[q es2]| |]; cbn [obind]; try reflexivity. unfold return_value_i, never.
  destruct (return_value q); [reflexivity|]. destruct (has_head q _); [reflexivity|]. apply IH.
Qed.
Lemma builtin_while c : builtin_of c (sysname "While") = Some while_fn. Proof. reflexivity. Qed.
Lemma head_never c k ev es h x y : apply_head_i never c k ev es h x y = apply_head c k ev es h x y.
Proof.
  unfold apply_head_i, apply_head, builtin_of_i. destruct (String.eqb h (sysname "While")) eqn:E; [|reflexivity].
  apply String.eqb_eq in E. subst h. rewrite builtin_while. destruct (lookup (es_defs es) (sysname "While")) as [d|]; [|reflexivity].
  destruct (d_builtin d); [|reflexivity]. rewrite while_never. reflexivity.
Qed.
Lemma pass_never c k ev es l : pass_i never c k ev es l = pass c k ev es l.
Proof.
  unfold pass_i, pass. cbv zeta.
  match goal with |- context [if ?b then propagate_conditionals _ else None] => destruct (if b then propagate_conditionals l else None) as [p|] end; [reflexivity|].
  match goal with |- context [eval_parts ?a ?b ?c ?d ?e] => destruct (eval_parts a b c d e) as [[[th|l1] es1]| |] end; try reflexivity. cbn [obind].
  match goal with |- context [splice ?a ?b ?c ?d ?e] => destruct (splice a b c d e) as [[l2 es2]| |] end; try reflexivity. cbn [obind].
  destruct l2 as [|h2 args2]; [reflexivity|]. destruct (match l with ESym s :: _ => Some s | _ => None end) as [s|]; [|reflexivity].
  match goal with |- context [flat_sort ?a s ?x] => destruct (flat_sort a s x) as [ce cu] end.
  match goal with |- context [if ?b then thread_expr ?x ?y else None] => destruct (if b then thread_expr x y else None) as [t|] end; [reflexivity|].
  rewrite head_never. reflexivity.
Qed.
Lemma run_never c : cfg_mono c -> forall n m es e, run_i never c n m es e = run c n m es e.
Proof.
  intro Hc. induction n as [|n IH]; intros m es e; [reflexivity|].
  assert (L1 : ev_le (run_i never c n None) (run c n None)) by (intros x y; right; apply IH).
  assert (L2 : ev_le (run c n None) (run_i never c n None)) by (intros x y; right; symmetry; apply IH).
  cbn [run_i run]. cbv zeta. destruct m as [[last inside]|].
  - destruct (N.eqb (hash e) last); [reflexivity|]. destruct e; try apply IH.
    change (return_value_i never es (EExpr parts)) with (return_value (EExpr parts)).
    destruct (if inside then return_value (EExpr parts) else None); [reflexivity|].
    rewrite pass_never. rewrite (ole_antisym _ _ (pass_mono c n n _ _ es parts Hc (le_n n) L1) (pass_mono c n n _ _ es parts Hc (le_n n) L2)).
    destruct (pass c n (run c n None) es parts) as [[[v|[e' b]] es1]| |]; cbn [obind]; try reflexivity. apply IH.
  - destruct e as [s|s|z|p q|f|re im|l]; try reflexivity.
    + destruct (get_sym_def (es_defs es) s) as [d|]; [|reflexivity].
      match goal with |- context [if ?b then _ else _] => destruct b end; [reflexivity|]. rewrite IH. reflexivity.
    + rewrite IH. destruct (run c n None es re) as [[r es1]| |]; cbn [obind]; try reflexivity. rewrite IH. reflexivity.
    + apply IH.
Qed.
Theorem C99_quiet : forall c es e v es', cfg_mono c -> evals_i never c es e v es' <-> evals_to c es e v es'.
Proof.
  intros c es e v es' Hc. unfold evals_i, evals_to, eval_i, eval. split; intros [n H]; exists n; [rewrite <- run_never|rewrite run_never]; assumption.
Qed.
Print Assumptions C99_quiet.

(* ---- what an interrupt stops ---- *)
(* A variable with a value gives $Aborted. *)
Theorem C99_variable : forall i c es s d r es1, cfg_mono c ->
  get_sym_def (es_defs es) s = Some d -> d <> ESym s -> evals_i i c es d r es1 -> i es1 = true ->
  evals_i i c es (ESym s) aborted es1.
Proof.
  intros i c es s d r es1 Hc G N E F. destruct (evals_i_large i c es d r es1 Hc E) as [n K].
  exists (S n). unfold eval_i. cbn [run_i]. rewrite G.
  assert (Q : match d with ESym s' => String.eqb s' s | _ => false end = false).
  { destruct d; try reflexivity. apply String.eqb_neq. congruence. }
  rewrite Q, (K n (le_n n)). cbn [obind]. unfold return_value_i. rewrite F. reflexivity.
Qed.
Print Assumptions C99_variable.

(* One pass over e applies a rule and leaves b in es'. *)
Definition rewrites_i (i : estate -> bool) (c : cfg) (es : estate) (e b : ex) (es' : estate) : Prop :=
  exists l n, e = EExpr l /\ forall m, n <= m -> pass_i i c m (run_i i c m None) es l = Ret (inr (b, true), es').
(* A function call whose definition applies gives $Aborted instead of running
   the body (if the body is compound): so recursion ends. *)
Theorem C99_call : forall i c es e l es1, cfg_mono c -> hash_ok e -> no_clash e (EExpr l) ->
  rewrites_i i c es e (EExpr l) es1 -> i es1 = true -> evals_i i c es e aborted es1.
Proof.
  intros i c es e l es1 Hc Hz [_ Nc] (parts & n & -> & H) F. exists (S (S (S n))). unfold eval_i.
  change (run_i i c (S (S (S n))) None es (EExpr parts)) with (run_i i c (S (S n)) (Some (0%N, false)) es (EExpr parts)).
  rewrite run_i_expr by exact Hz. rewrite (H (S n)) by lia. cbn [obind orb].
  rewrite run_i_expr by exact Nc. unfold return_value_i. rewrite F. reflexivity.
Qed.
Print Assumptions C99_call.

(* While[cond, body], interrupted at any moment *)
Inductive while_i (i : estate -> bool) (c : cfg) (cond body : ex) : estate -> ex -> estate -> Prop :=
| WI_stop es r es1 : evals_i i c es cond r es1 -> is_sameq r sTrue = false -> while_i i c cond body es sNull es1
| WI_abort es es1 b es2 : evals_i i c es cond sTrue es1 -> evals_i i c es1 body b es2 -> i es2 = true ->
    while_i i c cond body es aborted es2
| WI_return es es1 b v es2 : evals_i i c es cond sTrue es1 -> evals_i i c es1 body b es2 -> i es2 = false ->
    (b = fn "Return" [] /\ v = sNull \/ exists t, b = fn "Return" (v :: t)) -> while_i i c cond body es v es2
| WI_break es es1 b es2 : evals_i i c es cond sTrue es1 -> evals_i i c es1 body b es2 -> i es2 = false -> headed b (sysname "Break") ->
    while_i i c cond body es sNull es2
| WI_next es es1 b es2 v es3 : evals_i i c es cond sTrue es1 -> evals_i i c es1 body b es2 -> i es2 = false ->
    ~ headed b (sysname "Return") -> ~ headed b (sysname "Break") ->
    while_i i c cond body es2 v es3 -> while_i i c cond body es v es3.
Lemma while_i_large i c cond body es v es' : cfg_mono c -> while_i i c cond body es v es' ->
  exists n, forall m k, n <= m -> n <= k -> while_loop_i i k (run_i i c m None) es cond body = Ret (v, es').
Proof.
  intro Hc. induction 1 as [es r es1 E N|es es1 b es2 E Eb F|es es1 b v es2 E Eb F R|es es1 b es2 E Eb F B|es es1 b es2 v es3 E Eb F NR NB _ [n0 IH]];
    destruct (evals_i_large i c _ _ _ _ Hc E) as [n1 K1]; try (destruct (evals_i_large i c _ _ _ _ Hc Eb) as [n2 K2]).
  - exists (S n1). intros m [|k] Hm Hk; [lia|]. cbn [while_loop_i]. rewrite K1 by lia. cbn [obind]. rewrite N. reflexivity.
  - exists (S (n1 + n2)). intros m [|k] Hm Hk; [lia|]. cbn [while_loop_i]. rewrite K1 by lia. cbn [obind]. rewrite true_same, K2 by lia. cbn [obind].
    unfold return_value_i. rewrite F. reflexivity.
  - exists (S (n1 + n2)). intros m [|k] Hm Hk; [lia|]. cbn [while_loop_i]. rewrite K1 by lia. cbn [obind]. rewrite true_same, K2 by lia. cbn [obind].
    unfold return_value_i. rewrite F. destruct R as [[-> ->]|[t ->]]; reflexivity.
  - exists (S (n1 + n2)). intros m [|k] Hm Hk; [lia|]. cbn [while_loop_i]. rewrite K1 by lia. cbn [obind]. rewrite true_same, K2 by lia. cbn [obind].
    unfold return_value_i. rewrite F. rewrite not_return, (headed_has _ _ B); [reflexivity|]. destruct B as [t ->]. intros [t' K]. discriminate K.
  - exists (S (n0 + n1 + n2)). intros m [|k] Hm Hk; [lia|]. cbn [while_loop_i]. rewrite K1 by lia. cbn [obind]. rewrite true_same, K2 by lia. cbn [obind].
    unfold return_value_i. rewrite F. rewrite not_return by exact NR. destruct (has_head b (sysname "Break")) eqn:Q; [exfalso; apply NB, has_head_headed, Q|]. apply IH; lia.
Qed.
Lemma while_i_pass i c es cond body r es1 : cfg_mono c -> ready es "While" while_attrs -> no_rules es1 (sysname "While") ->
  ordinary_arg cond -> ordinary_arg body -> while_i i c cond body es r es1 ->
  exists n, forall m, n <= m -> pass_i i c m (run_i i c m None) es [sys "While"; cond; body] = Ret (inr (r, false), es1).
Proof.
  intros Hc [Sy [NR [NV T]]] NR1 O1 O2 W. destruct (while_i_large i c cond body es r es1 Hc W) as [n K]. exists n. intros m Hm.
  change (sys "While") with (ESym (sysname "While")). unfold pass_i. cbv zeta.
  rewrite (system_attrs _ _ _ Sy), numeric_off by (apply while_not; cbn; tauto).
  rewrite (proj2 (eval_parts_ok (run_i i c m None) while_attrs [ESym (sysname "While"); cond; body] 0 es [ESym (sysname "While"); cond; body] es))
    by (apply arg_pass_hold; intro j; apply holds_all; left; left; reflexivity).
  cbn [obind]. rewrite splice_ordinary by (constructor; [apply ordinary_sym|constructor; [exact O1|constructor; [exact O2|constructor]]]). cbn [obind].
  unfold flat_sort. rewrite (attr_off while_attrs aFlat "Flat" (has_flat _)) by (apply while_not; cbn; tauto).
  rewrite (attr_off while_attrs aOrderless "Orderless" (has_orderless _)) by (apply while_not; cbn; tauto). cbn [andb].
  rewrite (attr_off while_attrs aListable "Listable" (has_listable _)) by (apply while_not; cbn; tauto).
  destruct Sy as [d [L [B _]]]. unfold apply_head_i. rewrite L, B. unfold builtin_of_i. rewrite String.eqb_refl.
  unfold while_fn_i. rewrite (K m m Hm Hm). cbn [obind].
  destruct (is_sameq r (EExpr [ESym (sysname "While"); cond; body])); [|reflexivity].
  unfold get_def. destruct (lookup (es_defs es1) (sysname "While")) as [d1|] eqn:L1; [|reflexivity].
  rewrite (NR1 d1 L1). reflexivity.
Qed.
(* A loop that is interrupted in some round ends after this round, whatever its
   condition: the rounds before are as usual, no further round is run. *)
Theorem C99_while : forall i c es cond body es1, cfg_mono c ->
  ready es "While" while_attrs -> no_rules es1 (sysname "While") -> ordinary_arg cond -> ordinary_arg body ->
  hash_ok (fn "While" [cond; body]) -> get_sym_def (es_defs es1) (sysname "$Aborted") = None ->
  while_i i c cond body es aborted es1 -> evals_i i c es (fn "While" [cond; body]) aborted es1.
Proof.
  intros i c es cond body es1 Hc Rd NR O1 O2 Hz G W.
  destruct (while_i_pass i c es cond body aborted es1 Hc Rd NR O1 O2 W) as [n K].
  exact (pass_to_sym i c es [sys "While"; cond; body] (sysname "$Aborted") n es1 Hz G K).
Qed.
Print Assumptions C99_while.

(* ---- the session afterwards ---- *)
(* An input that ends without a pending exception clears the flag; one that ends
   with an exception clears the exception. *)
Theorem C99_cleared : forall out es flag,
  (es_thrown es = None -> top_result out es flag = (out, es, false)) /\
  (forall th, es_thrown es = Some th ->
     exists es' f, top_result out es flag = (fn "Hold" [th], es', f) /\ es_thrown es' = None /\ es_defs es' = es_defs es).
Proof.
  intros out es flag. unfold top_result. split; [intros ->; reflexivity|]. intros th ->. eexists. eexists. split; [reflexivity|]. split; reflexivity.
Qed.
Print Assumptions C99_cleared.

(* k = 5 *)
Definition es_k5 : estate := match eval c0 20 es0 (fn "Set" [gl "k"; EInt 5]) with Ret (_, es) => es | _ => es0 end.
(* But the flag stays if the interrupted input threw an exception: the next
   input, k, then gives $Aborted although nobody interrupted it. *)
Theorem C99_cleared_refuted : exists out es, es_thrown es <> None /\ snd (top_result out es true) = true /\
  evals_to c0 (snd (fst (top_result out es true))) (gl "k") (EInt 5) es_k5 /\
  evals_i always c0 (snd (fst (top_result out es true))) (gl "k") aborted es_k5.
Proof.
  exists sNull, (with_thrown es_k5 (Some (fn "Throw" [EInt 1]))). split; [discriminate|]. split; [reflexivity|].
  split; exists 20; vm_compute; reflexivity.
Qed.
Print Assumptions C99_cleared_refuted.

(* An interrupt does not stop a sequence of statements: the statements after it
   are still run, and with wrong values. (k = 1; k = 2) interrupted before it
   starts leaves k = 2 and gives 2; m = k stores $Aborted in m. *)
Theorem C99_statements_refuted :
  (exists es, evals_i always c0 es_k5 (fn "CompoundExpression" [fn "Set" [gl "k"; EInt 1]; fn "Set" [gl "k"; EInt 2]]) (EInt 2) es /\
     get_sym_def (es_defs es) "Global`k" = Some (EInt 2)) /\
  (exists es, evals_i always c0 es_k5 (fn "Set" [gl "m"; gl "k"]) aborted es /\ get_sym_def (es_defs es) "Global`m" = Some aborted).
Proof.
  split.
  - eexists. split; [exists 30; vm_compute; reflexivity|vm_compute; reflexivity].
  - eexists. split; [exists 30; vm_compute; reflexivity|vm_compute; reflexivity].
Qed.
Print Assumptions C99_statements_refuted.

(* And it does not end every evaluation: x := y; y := x; x hangs whenever and
   however often it is interrupted. *)
Definition es_xy : estate :=
  match eval c0 20 es0 (fn "SetDelayed" [gl "x"; gl "y"]) with
  | Ret (_, es) => match eval c0 20 es (fn "SetDelayed" [gl "y"; gl "x"]) with Ret (_, es') => es' | _ => es end
  | _ => es0 end.
Theorem C99_hang_refuted : forall i, diverges_i i c0 es_xy (gl "x").
Proof.
  intros i n. unfold eval_i. enough (H : run_i i c0 n None es_xy (gl "x") = More /\ run_i i c0 n None es_xy (gl "y") = More) by apply H.
  assert (Gx : get_sym_def (es_defs es_xy) "Global`x" = Some (gl "y")) by (vm_compute; reflexivity).
  assert (Gy : get_sym_def (es_defs es_xy) "Global`y" = Some (gl "x")) by (vm_compute; reflexivity).
  induction n as [|n [IH1 IH2]]; [split; reflexivity|].
  change (gl "x") with (ESym "Global`x") in *. change (gl "y") with (ESym "Global`y") in *. cbn [run_i]. rewrite Gx, Gy.
  split; [rewrite IH2|rewrite IH1]; reflexivity.
Qed.
Print Assumptions C99_hang_refuted.

(* k = 0; While[True, k = k + 1], interrupted when k is 3 *)
Definition es_k0 : estate := match eval c0 20 es0 (fn "Set" [gl "k"; EInt 0]) with Ret (_, es) => es | _ => es0 end.
Definition at_k (z : Z) (es : estate) : bool := match get_sym_def (es_defs es) "Global`k" with Some (EInt k) => (z <=? k)%Z | _ => false end.
Example C99_ex_while : exists es, evals_i (at_k 3) c0 es_k0 (fn "While" [sTrue; fn "Set" [gl "k"; fn "Plus" [gl "k"; EInt 1]]]) aborted es /\
  get_sym_def (es_defs es) "Global`k" = Some (EInt 3) /\ while_i (at_k 3) c0 sTrue (fn "Set" [gl "k"; fn "Plus" [gl "k"; EInt 1]]) es_k0 aborted es.
Proof.
  eexists. split; [exists 40; vm_compute; reflexivity|]. split; [vm_compute; reflexivity|].
  eapply WI_next; [exists 10; vm_compute; reflexivity|exists 20; vm_compute; reflexivity|vm_compute; reflexivity|intros [t K]; discriminate K|intros [t K]; discriminate K|].
  eapply WI_next; [exists 10; vm_compute; reflexivity|exists 20; vm_compute; reflexivity|vm_compute; reflexivity|intros [t K]; discriminate K|intros [t K]; discriminate K|].
  eapply WI_abort; [exists 10; vm_compute; reflexivity|exists 20; vm_compute; reflexivity|vm_compute; reflexivity].
Qed.
(* f[n_] := Plus[f[n], 1], which never ends by itself *)
Definition es_rec : estate :=
  match eval c0 20 es0 (fn "SetDelayed" [uf "f" [EExpr [sys "Pattern"; ESym "Global`n"; EExpr [sys "Blank"]]]; fn "Plus" [uf "f" [gl "n"]; EInt 1]]) with
  | Ret (_, es) => es | _ => es0 end.
Example C99_ex_call : evals_i always c0 es_rec (uf "f" [EInt 3]) aborted es_rec /\ eval c0 60 es_rec (uf "f" [EInt 3]) = More.
Proof. split; [exists 20; vm_compute; reflexivity|vm_compute; reflexivity]. Qed.
Example C99_ex_rewrites : rewrites_i always c0 es_rec (uf "f" [EInt 3]) (fn "Plus" [uf "f" [EInt 3]; EInt 1]) es_rec.
Proof.
  eexists. exists 20. split; [reflexivity|]. intros m Hm.
  destruct (pass_i_mono always c0 20 m (run_i always c0 20 None) (run_i always c0 m None) es_rec [ESym "Global`f"; EInt 3] c0_mono Hm) as [K|K].
  - intros es e. apply run_i_mono; [exact c0_mono|exact Hm].
  - vm_compute in K. discriminate K.
  - etransitivity; [symmetry; exact K|]. vm_compute. reflexivity.
Qed.
