(* Basic facts about the evaluator: more fuel never changes a result. *)
From Verif Require Import M_Syntax M_Float M_Hash M_Sort M_Num M_Arith M_Compare M_Match M_Defs M_Eval.
Open Scope nat_scope.

(* o2 is at least as defined as o1 *)
Definition ole {A} (o1 o2 : outcome A) : Prop := o1 = More \/ o1 = o2.
Definition ev_le (e1 e2 : evaluator) : Prop := forall es e, ole (e1 es e) (e2 es e).
Definition mono (b : builtin) : Prop :=
  forall k1 k2 e1 e2 es l, k1 <= k2 -> ev_le e1 e2 -> ole (b k1 e1 es l) (b k2 e2 es l).

Lemma ole_refl {A} (o : outcome A) : ole o o.
Proof. right; reflexivity. Qed.
Lemma ole_more {A} (o : outcome A) : ole More o.
Proof. left; reflexivity. Qed.
Lemma ole_bind {A B} (o1 o2 : outcome A) (f g : A -> outcome B) :
  ole o1 o2 -> (forall a, ole (f a) (g a)) -> ole (obind o1 f) (obind o2 g).
Proof.
  intros [->| ->] H; [apply ole_more|]. destruct o2 as [a| |]; cbn; [apply H| |]; apply ole_refl.
Qed.
Lemma ole_trans {A} (a b c : outcome A) : ole a b -> ole b c -> ole a c.
Proof. intros [->| ->]; [left; reflexivity|auto]. Qed.

Ltac ole := repeat first
  [ apply ole_refl | apply ole_more
  | apply ole_bind; [|let x := fresh "x" in intro x; repeat match goal with p : (_ * _)%type |- _ => destruct p end]
  | match goal with
    | H : ev_le ?a ?b |- ole (?a _ _) (?b _ _) => apply H
    | H : _ |- _ => apply H; [lia|assumption]
    | |- ole (match ?x with _ => _ end) _ => destruct x
    end ].

Lemma try_cond_mono c k1 k2 e1 e2 es rhs :
  k1 <= k2 -> ev_le e1 e2 -> ole (try_cond c k1 e1 es rhs) (try_cond c k2 e2 es rhs).
Proof.
  intros Hk He. revert k2 Hk es rhs. induction k1 as [|k1 IH]; intros k2 Hk es rhs; [apply ole_more|].
  destruct k2 as [|k2]; [lia|]. cbn [try_cond]. cbv zeta.
  match goal with |- context [args_of ?x nCondition] => set (rhs' := x) end.
  destruct (args_of rhs' nCondition) as [[|b [|cd ?]]|]; try apply ole_refl.
  apply ole_bind; [apply He|]. intros [r es1]. destruct (trueQ r); [|apply ole_refl].
  apply IH; lia.
Qed.

Lemma try_matches_mono c k1 k2 e1 e2 es rhs ms :
  k1 <= k2 -> ev_le e1 e2 -> ole (try_matches c k1 e1 es rhs ms) (try_matches c k2 e2 es rhs ms).
Proof.
  intros Hk He. revert es. induction ms as [|m t IH]; intro es; cbn [try_matches]; [apply ole_refl|].
  apply ole_bind; [apply try_cond_mono; assumption|]. intros [[v|] es1]; [apply ole_refl|apply IH].
Qed.

Lemma replace_rule_mono c k1 k2 e1 e2 es e l r :
  k1 <= k2 -> ev_le e1 e2 -> ole (replace_rule c k1 e1 es e l r) (replace_rule c k2 e2 es e l r).
Proof. apply try_matches_mono. Qed.

Lemma get_def_mono c k1 k2 e1 e2 es n e :
  k1 <= k2 -> ev_le e1 e2 -> ole (get_def c k1 e1 es n e) (get_def c k2 e2 es n e).
Proof.
  intros Hk He. unfold get_def. destruct (lookup (es_defs es) n) as [d|]; [|apply ole_refl].
  revert es. induction (d_dvs d) as [|r t IH]; intro es; cbn [get_def_rules]; [apply ole_refl|].
  apply ole_bind; [apply replace_rule_mono; assumption|]. intros [[v|] es1]; [apply ole_refl|apply IH].
Qed.

Lemma junct_mono h s sv u : mono (junct h s sv u).
Proof.
  intros k1 k2 e1 e2 es l _ He. unfold junct. apply ole_bind.
  - enough (K : forall args es acc dn, ole (junct_loop s sv e1 es args acc dn) (junct_loop s sv e2 es args acc dn)) by apply K.
    clear es l. induction args as [|a t IH]; intros es acc dn; cbn [junct_loop]; [apply ole_refl|].
    apply ole_bind; [apply He|]. intros [r es1].
    destruct (booleanQ r); [destruct (s r)|]; try apply ole_refl; apply IH.
  - intros [[[o acc] dn] es1]. apply ole_refl.
Qed.

Lemma while_mono : mono while_fn.
Proof.
  intros k1 k2 e1 e2 es l Hk He. unfold while_fn.
  destruct l as [|h [|cd [|b [|]]]]; try apply ole_refl.
  apply ole_bind; [|intros [r es1]; apply ole_refl].
  revert k2 Hk es. induction k1 as [|k1 IH]; intros k2 Hk es; [apply ole_more|].
  destruct k2 as [|k2]; [lia|]. cbn [while_loop].
  apply ole_bind; [apply He|]. intros [r es1]. destruct (is_sameq r sTrue); [|apply ole_refl].
  apply ole_bind; [apply He|]. intros [q es2]. destruct (return_value q); [apply ole_refl|].
  destruct (has_head q _); [apply ole_refl|]. apply IH; lia.
Qed.

Lemma compound_mono : mono compound_fn.
Proof.
  intros k1 k2 e1 e2 es l _ He. unfold compound_fn. apply ole_bind; [|intros [r es1]; apply ole_refl].
  generalize (@None ex). revert es. induction (tl l) as [|a t IH]; intros es o; cbn [compound_loop]; [apply ole_refl|].
  apply ole_bind; [apply He|]. intros [r es1]. destruct (es_thrown es1); [apply ole_refl|].
  destruct (has_head r _); [apply ole_refl|apply IH].
Qed.

Lemma which_loop_mono e1 e2 : ev_le e1 e2 -> forall n l es, length l <= n ->
  ole (which_loop e1 es l) (which_loop e2 es l).
Proof.
  intros He n. induction n as [|n IH]; intros l es Hl; destruct l as [|a [|b t]]; try apply ole_refl.
  - cbn in Hl; lia.
  - cbn [which_loop]. apply ole_bind; [apply He|]. intros [r es1]. destruct (trueQ r); [apply ole_refl|].
    apply IH. cbn in Hl; lia.
Qed.
Lemma which_mono : mono which_fn.
Proof.
  intros k1 k2 e1 e2 es l _ He. unfold which_fn. destruct (Nat.odd (length l)); [|apply ole_refl].
  apply ole_bind; [|intros [r es1]; apply ole_refl]. apply (which_loop_mono _ _ He (length (tl l))); lia.
Qed.

Lemma eval_all_mono e1 e2 es l : ev_le e1 e2 -> ole (eval_all e1 es l) (eval_all e2 es l).
Proof.
  intros He. revert es. induction l as [|a t IH]; intro es; cbn [eval_all]; [apply ole_refl|].
  apply ole_bind; [apply He|]. intros [r es1]. apply ole_bind; [apply IH|]. intros [rs es2]; apply ole_refl.
Qed.

Lemma set_delayed_mono c : mono (set_delayed_fn c).
Proof.
  intros k1 k2 e1 e2 es l _ He. unfold set_delayed_fn.
  destruct l as [|h [|x [|r [|]]]]; try apply ole_refl; destruct x; try apply ole_refl.
  match goal with |- context [if ?b then _ else _] => destruct b end.
  - apply ole_refl.
  - apply ole_bind; [apply eval_all_mono; exact He|]. intros [l1 es1]. apply ole_refl.
Qed.

Lemma catch_mono : mono catch_fn.
Proof.
  intros k1 k2 e1 e2 es l _ He. unfold catch_fn. destruct l as [|h [|x [|]]]; try apply ole_refl.
  apply ole_bind; [apply He|]. intros [r es1]; apply ole_refl.
Qed.
Lemma sow_mono : mono sow_fn.
Proof.
  intros k1 k2 e1 e2 es l _ He. unfold sow_fn. destruct l as [|h [|x [|]]]; try apply ole_refl.
  apply ole_bind; [apply He|]. intros [r es1]; apply ole_refl.
Qed.
Lemma reap_mono : mono reap_fn.
Proof.
  intros k1 k2 e1 e2 es l _ He. unfold reap_fn. destruct l as [|h [|x [|]]]; try apply ole_refl.
  apply ole_bind; [apply He|]. intros [r es1]; apply ole_refl.
Qed.
Lemma replace_fn_mono c : mono (replace_fn c).
Proof.
  intros k1 k2 e1 e2 es l Hk He. unfold replace_fn. destruct l as [|h [|x [|r [|]]]]; try apply ole_refl.
  destruct (get_valid_rules r) as [[|q rs]|]; try apply ole_refl.
  apply ole_bind; [|intros [v es1]; apply ole_refl].
  generalize (q :: rs) as rules. intro rules. revert es.
  induction rules as [|[a b] t IH]; intro es; cbn [replace_loop]; [apply ole_refl|].
  apply ole_bind; [apply replace_rule_mono; assumption|]. intros [[v|] es1]; [apply ole_refl|apply IH].
Qed.

(* builtins that never call the evaluator *)
Lemma const_mono (b : builtin) : (forall k1 k2 e1 e2 es l, b k1 e1 es l = b k2 e2 es l) -> mono b.
Proof. intros H k1 k2 e1 e2 es l _ _. rewrite (H k1 k2 e1 e2). apply ole_refl. Qed.

Lemma assoc_forall {A} (P : A -> Prop) (l : list (string * A)) n v :
  Forall (fun p => P (snd p)) l -> assoc l n = Some v -> P v.
Proof.
  induction 1 as [|[k w] t Hw _ IH]; cbn [assoc]; [discriminate|].
  destruct (String.eqb k n); [intro E; injection E as <-; exact Hw|exact IH].
Qed.

(* iterators *)
Lemma iter_reset_mono e1 e2 es it : ev_le e1 e2 -> ole (iter_reset e1 es it) (iter_reset e2 es it).
Proof.
  intro He. destruct it; cbn [iter_reset]; [|apply ole_refl]. apply ole_bind; [apply He|]. intros [r es1]; apply ole_refl.
Qed.
Lemma iter_next_mono e1 e2 es it : ev_le e1 e2 -> ole (iter_next e1 es it) (iter_next e2 es it).
Proof.
  intro He. destruct it; cbn [iter_next]; [|apply ole_refl]. apply ole_bind; [apply He|]. intros [r es1]; apply ole_refl.
Qed.
Lemma spec_from_list_mono e1 e2 es x : ev_le e1 e2 -> ole (spec_from_list e1 es x) (spec_from_list e2 es x).
Proof.
  intro He. unfold spec_from_list. apply ole_bind.
  - unfold eval_candidate. destruct (args_of x nList) as [[|v t]|]; [apply ole_refl| |apply He].
    apply ole_bind; [apply eval_all_mono; exact He|]. intros [r es1]; apply ole_refl.
  - intros [e es1]. destruct (args_of e nList) as [[|v ps]|]; try apply ole_refl.
    destruct (iter_symbol v) as [n|]; [|apply ole_refl].
    assert (R : forall a b s, ole
      (obind (iter_reset e1 es1 (IRange v n a b s a)) (fun '(it, es2) => Ret (Some it, es2)))
      (obind (iter_reset e2 es1 (IRange v n a b s a)) (fun '(it, es2) => Ret (Some it, es2)))).
    { intros a b s. apply ole_bind; [apply iter_reset_mono; exact He|]. intros [it es2]; apply ole_refl. }
    cbv zeta. destruct ps as [|a [|b [|s [|]]]]; try apply ole_refl.
    + destruct (iter_param a); [apply R|apply ole_refl].
    + destruct (iter_param a && iter_param b)%bool; [apply R|apply ole_refl].
    + destruct (iter_param a && iter_param b && iter_param s)%bool; [apply R|apply ole_refl].
Qed.
Lemma specs_from_lists_mono e1 e2 l : ev_le e1 e2 -> forall es, ole (specs_from_lists e1 es l) (specs_from_lists e2 es l).
Proof.
  intro He. induction l as [|x t IH]; intro es; cbn [specs_from_lists]; [apply ole_refl|].
  apply ole_bind; [apply spec_from_list_mono; exact He|]. intros [[it|] es1]; [|apply ole_refl].
  apply ole_bind; [apply IH|]. intros [o es2]; apply ole_refl.
Qed.
Lemma multi_next_mono e1 e2 l : ev_le e1 e2 -> forall es, ole (multi_next e1 es l) (multi_next e2 es l).
Proof.
  intro He. induction l as [|x t IH]; intro es; cbn [multi_next]; [apply ole_refl|].
  apply ole_bind; [apply IH|]. intros [[t' go] es1]. destruct go; [apply ole_refl|].
  apply ole_bind; [apply iter_next_mono; exact He|]. intros [it1 es2]. destruct (iter_cont it1); [apply ole_refl|].
  apply ole_bind; [apply iter_reset_mono; exact He|]. intros [it2 es3]; apply ole_refl.
Qed.
Lemma take_snapshot_mono c k1 k2 e1 e2 l : k1 <= k2 -> ev_le e1 e2 -> forall es,
  ole (take_snapshot c k1 e1 es l) (take_snapshot c k2 e2 es l).
Proof.
  intros Hk He. induction l as [|x t IH]; intro es; cbn [take_snapshot]; [apply ole_refl|].
  apply ole_bind; [destruct (iter_var x); try apply ole_refl; apply get_def_mono; assumption|].
  intros [o es1]. apply ole_bind; [apply IH|]. intros [r es2]; apply ole_refl.
Qed.
Lemma iter_loop_mono {A} c e1 e2 (f1 f2 : A -> estate -> outcome (A * bool * estate)) :
  ev_le e1 e2 -> (forall a es, ole (f1 a es) (f2 a es)) -> forall k1 k2, k1 <= k2 -> forall es its go acc,
  ole (iter_loop c k1 e1 f1 es its go acc) (iter_loop c k2 e2 f2 es its go acc).
Proof.
  intros He Hf. induction k1 as [|k1 IH]; intros k2 Hk es its go acc; [apply ole_more|].
  destruct k2 as [|k2]; [lia|]. cbn [iter_loop]. destruct go; [|apply ole_refl].
  apply ole_bind; [apply ole_refl|]. intro es1. apply ole_bind; [apply Hf|]. intros [[a1 st] es2].
  destruct st; [apply ole_refl|]. apply ole_bind; [apply multi_next_mono; exact He|].
  intros [[its1 go1] es3]. apply IH. lia.
Qed.
Lemma iter_frame_mono {A} c (init : A) each fin :
  (forall e1 e2, ev_le e1 e2 -> forall b a es, ole (each e1 b a es) (each e2 b a es)) -> mono (iter_frame c init each fin).
Proof.
  intros Hf k1 k2 e1 e2 es l Hk He. unfold iter_frame. destruct l as [|h [|b [|x t]]]; try apply ole_refl.
  apply ole_bind; [apply specs_from_lists_mono; exact He|]. intros [[its|] es1]; [|apply ole_refl].
  apply ole_bind; [apply take_snapshot_mono; assumption|]. intros [snap es2].
  apply ole_bind; [apply iter_loop_mono; auto|]. intros [[r st] es3]; apply ole_refl.
Qed.
Lemma table_fn_mono c : mono (table_fn c).
Proof.
  apply iter_frame_mono. intros e1 e2 He b a es. apply ole_bind; [apply He|]. intros [r es1]; apply ole_refl.
Qed.
Lemma do_fn_mono c : mono (do_fn c).
Proof.
  apply iter_frame_mono. intros e1 e2 He b a es. apply ole_bind; [apply He|]. intros [r es1]; apply ole_refl.
Qed.
Lemma fold_fn_mono c op i : mono (fold_fn c op i).
Proof.
  apply iter_frame_mono. intros e1 e2 He b a es. apply ole_bind; [apply He|]. intros [r es1].
  apply ole_bind; [apply He|]. intros [v es2]; apply ole_refl.
Qed.
Lemma range_fn_mono : mono range_fn.
Proof.
  intros k1 k2 e1 e2 es l Hk He. unfold range_fn. apply ole_bind; [apply spec_from_list_mono; exact He|].
  intros [[it|] es1]; [|apply ole_refl]. apply ole_bind; [|intros [r es2]; apply ole_refl].
  generalize (@nil ex). revert k2 Hk es1 it. induction k1 as [|k1 IH]; intros k2 Hk es1 it acc; [apply ole_more|].
  destruct k2 as [|k2]; [lia|]. cbn [range_loop]. destruct (iter_cont it); [|apply ole_refl].
  apply ole_bind; [apply iter_next_mono; exact He|]. intros [it1 es2]. apply IH. lia.
Qed.

Lemma table_mono c n b : assoc (table c) n = Some b -> mono b.
Proof.
  apply assoc_forall. unfold table.
  repeat (apply Forall_cons; [cbn [snd]|]); try apply Forall_nil;
    first [ apply junct_mono | apply while_mono | apply compound_mono | apply which_mono
          | apply set_delayed_mono | apply catch_mono | apply sow_mono | apply reap_mono
          | apply replace_fn_mono | apply table_fn_mono | apply do_fn_mono | apply fold_fn_mono | apply range_fn_mono
          | apply const_mono; intros; reflexivity ].
Qed.

(* the builtins that are not modelled do not look at the fuel either *)
Definition cfg_mono (c : cfg) : Prop := forall n b, c_other c n = Some b -> mono b.

Lemma builtin_mono c n b : cfg_mono c -> builtin_of c n = Some b -> mono b.
Proof.
  intros Hc. unfold builtin_of. destruct (assoc (table c) n) as [b'|] eqn:E.
  - intro H; injection H as <-. exact (table_mono c n b' E).
  - apply Hc.
Qed.

Lemma eval_parts_mono e1 e2 a i es l : ev_le e1 e2 -> ole (eval_parts e1 a i es l) (eval_parts e2 a i es l).
Proof.
  intro He. revert i es. induction l as [|p t IH]; intros i es; cbn [eval_parts]; [apply ole_refl|].
  cbv zeta. destruct (part_held a i).
  - apply ole_bind; [apply IH|]. intros [o es2]; apply ole_refl.
  - apply ole_bind; [apply He|]. intros [r es1]. destruct (es_thrown es1); [apply ole_refl|].
    apply ole_bind; [apply IH|]. intros [o es2]; apply ole_refl.
Qed.

Lemma merge_eval_mono e1 e2 h es l : ev_le e1 e2 -> ole (merge_eval e1 es h l) (merge_eval e2 es h l).
Proof.
  intro He. revert es. induction l as [|p t IH]; intros es; cbn [merge_eval]; [apply ole_refl|].
  apply ole_bind; [destruct (args_of p h); [apply eval_all_mono; exact He|apply ole_refl]|].
  intros [r es1]. apply ole_bind; [apply IH|]. intros [rs es2]; apply ole_refl.
Qed.

Lemma splice_mono a b e1 e2 es l : ev_le e1 e2 -> ole (splice a b e1 es l) (splice a b e2 es l).
Proof.
  intro He. unfold splice. cbv zeta. apply ole_bind; [|intros [r es1]; apply ole_refl].
  destruct (has_attr a aHoldAllComplete); [apply ole_refl|]. apply merge_eval_mono; exact He.
Qed.

Lemma apply_head_mono c k1 k2 e1 e2 es h x y : cfg_mono c -> k1 <= k2 -> ev_le e1 e2 ->
  ole (apply_head c k1 e1 es h x y) (apply_head c k2 e2 es h x y).
Proof.
  intros Hc Hk He. unfold apply_head. apply ole_bind.
  - destruct (lookup (es_defs es) h) as [d|]; [|apply ole_refl].
    destruct (d_builtin d); [|apply ole_refl].
    destruct (builtin_of c h) as [f|] eqn:E; [|apply ole_refl].
    apply ole_bind; [apply (builtin_mono c h f Hc E); assumption|]. intros [[r th] es1]; apply ole_refl.
  - intros [[[r th] u] es1]. destruct u; [|apply ole_refl].
    apply ole_bind; [apply get_def_mono; assumption|]. intros [o es2]; apply ole_refl.
Qed.

Lemma pass_mono c k1 k2 e1 e2 es l : cfg_mono c -> k1 <= k2 -> ev_le e1 e2 ->
  ole (pass c k1 e1 es l) (pass c k2 e2 es l).
Proof.
  intros Hc Hk He. unfold pass. cbv zeta.
  match goal with |- context [if ?b then propagate_conditionals _ else None] => destruct (if b then propagate_conditionals l else None) as [p|] end.
  - apply ole_bind; [apply He|]. intros [r es1]; apply ole_refl.
  - apply ole_bind; [apply eval_parts_mono; exact He|]. intros [[th|l1] es1]; [apply ole_refl|].
    apply ole_bind; [apply splice_mono; exact He|]. intros [l2 es2].
    destruct l2 as [|h2 args2]; [apply ole_refl|].
    destruct (match l with ESym s :: _ => Some s | _ => None end) as [s|]; [|apply ole_refl].
    match goal with |- context [flat_sort ?a s ?x] => destruct (flat_sort a s x) as [ce cu] end.
    match goal with |- context [if ?b then thread_expr ?x ?y else None] => destruct (if b then thread_expr x y else None) as [t|] end;
      [apply ole_refl|].
    apply ole_bind; [apply apply_head_mono; assumption|]. intros [[r b] es3]; apply ole_refl.
Qed.

Lemma run_mono c n1 n2 : cfg_mono c -> n1 <= n2 -> forall m es e, ole (run c n1 m es e) (run c n2 m es e).
Proof.
  intros Hc. revert n2. induction n1 as [|n1 IH]; intros n2 Hn m es e; [apply ole_more|].
  destruct n2 as [|n2]; [lia|]. assert (Hle : n1 <= n2) by lia.
  assert (He : ev_le (run c n1 None) (run c n2 None)) by (intros es' e'; apply IH; exact Hle).
  cbn [run]. cbv zeta. destruct m as [[last inside]|].
  - destruct (N.eqb (hash e) last); [apply ole_refl|]. destruct e; try apply He.
    destruct (if inside then return_value (EExpr parts) else None); [apply ole_refl|].
    apply ole_bind; [apply pass_mono; assumption|]. intros [[v|[e' b]] es1]; [apply ole_refl|].
    apply IH; exact Hle.
  - destruct e as [s|s|z|p q|f|re im|l]; try apply ole_refl.
    + destruct (get_sym_def (es_defs es) s) as [d|]; [|apply ole_refl].
      match goal with |- context [if ?b then _ else _] => destruct b end; [apply ole_refl|].
      apply ole_bind; [apply He|]. intros [r es1]; apply ole_refl.
    + apply ole_bind; [apply He|]. intros [r es1]. apply ole_bind; [apply He|]. intros [i es2]; apply ole_refl.
    + apply IH; exact Hle.
Qed.

Lemma eval_mono c n1 n2 es e : cfg_mono c -> n1 <= n2 -> ole (eval c n1 es e) (eval c n2 es e).
Proof. intros Hc Hn. apply run_mono; assumption. Qed.
