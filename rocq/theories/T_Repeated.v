(* Property theorems: repeated replacement (C92). *)
From Verif Require Import M_Syntax M_Float M_Hash M_Sort M_Num M_Arith M_Compare M_Match M_Defs M_Eval M_Callback S_Eval S_Replace P_Hash P_MatchFuel P_Eval P_Eval2 P_Eval3 P_Eval4 P_List P_Replace P_Callback T_Match T_Eval T_Eval2 T_Eval3 T_Eval4 T_Eval5 T_Replace T_Callback.
Open Scope nat_scope.

(* e, e /. rules, (e /. rules) /. rules, ...: until one is SameQ to the one
   before it *)
Inductive repeats (c : cfg) (rules : ex) : estate -> ex -> ex -> estate -> Prop :=
| RP_here es x y es1 : evals_to c es (fn "ReplaceAll" [x; rules]) y es1 -> is_sameq x y = true -> repeats c rules es x y es1
| RP_next es x y es1 z es2 : evals_to c es (fn "ReplaceAll" [x; rules]) y es1 -> is_sameq x y = false ->
    repeats c rules es1 y z es2 -> repeats c rules es x z es2.
Lemma repeats_loop c rules es x y es' : cfg_mono c -> repeats c rules es x y es' ->
  exists n, forall m k, n <= m -> n <= k -> replace_repeated_loop k (run c m None) rules es x = Ret (y, es').
Proof.
  intros Hc H. induction H as [es x y es1 E Q|es x y es1 z es2 E Q _ [n IH]]; destruct (evals_large c _ _ _ _ Hc E) as [n1 K1];
    unfold fn in K1; unfold eval in K1.
  - exists (S n1). intros m [|k] Hm Hk; [lia|]. cbn [replace_repeated_loop]. rewrite K1 by lia. cbn [obind]. rewrite Q. reflexivity.
  - exists (S (n + n1)). intros m [|k] Hm Hk; [lia|]. cbn [replace_repeated_loop]. rewrite K1 by lia. cbn [obind]. rewrite Q. apply IH; lia.
Qed.

(* e //. rules is the last of them *)
Theorem C92_replace_repeated : forall c es a1 a2 e rules es1 y es2 v es3, cfg_mono c -> with_callbacks c ->
  ready es "ReplaceRepeated" prot -> system_fn es1 (sysname "ReplaceRepeated") prot -> no_rules es2 (sysname "ReplaceRepeated") ->
  evals_args c (fun _ => False) 1 es [a1; a2] [e; rules] es1 -> Forall ordinary_arg [e; rules] ->
  repeats c rules es1 e y es2 ->
  hash_ok (fn "ReplaceRepeated" [a1; a2]) -> no_clash (fn "ReplaceRepeated" [a1; a2]) y ->
  evals_to c es2 y v es3 -> evals_to c es (fn "ReplaceRepeated" [a1; a2]) v es3.
Proof.
  intros c es a1 a2 e rules es1 y es2 v es3 Hc Hw R S1 NR E O Sc Hz Nc Ev.
  apply (callback_call c es "ReplaceRepeated" _ _ es1 replace_repeated_fn y es2 v es3 Hc Hw eq_refl R S1 NR E O); auto.
  destruct (repeats_loop c rules es1 e y es2 Hc Sc) as [n K]. exists n. intros m Hm. eexists. unfold replace_repeated_fn. rewrite K by exact Hm. reflexivity.
Qed.
Print Assumptions C92_replace_repeated.

(* the result is one that the rules leave alone *)
Theorem C92_is_normal : forall c rules es x y es', repeats c rules es x y es' ->
  exists es1 x', evals_to c es1 (fn "ReplaceAll" [x'; rules]) y es' /\ is_sameq x' y = true.
Proof. intros c rules es x y es' H. induction H as [es x y es1 E Q|es x y es1 z es2 E Q _ IH]; [exists es, x; auto|exact IH]. Qed.
Print Assumptions C92_is_normal.

(* and if the rules never leave the expression alone it does not end *)
Theorem C92_diverges : forall c es a1 a2 rules es1 (orbit : nat -> ex) (st : nat -> estate), cfg_mono c -> with_callbacks c ->
  ready es "ReplaceRepeated" prot -> system_fn es1 (sysname "ReplaceRepeated") prot ->
  evals_args c (fun _ => False) 1 es [a1; a2] [orbit 0; rules] es1 -> Forall ordinary_arg [orbit 0; rules] -> st 0 = es1 ->
  (forall k, evals_to c (st k) (fn "ReplaceAll" [orbit k; rules]) (orbit (S k)) (st (S k)) /\ is_sameq (orbit k) (orbit (S k)) = false) ->
  hash_ok (fn "ReplaceRepeated" [a1; a2]) ->
  diverges c es (fn "ReplaceRepeated" [a1; a2]).
Proof.
  intros c es a1 a2 rules es1 orbit st Hc Hw [Sy [NR [NV T]]] S1 E O Z H Hz.
  apply (builtin_diverges c es (sysname "ReplaceRepeated") prot [a1; a2] [orbit 0; rules] replace_repeated_fn es1 Hc Hz Sy (ex_intro _ _ S1)); try (apply not_prot; cbn; tauto); auto.
  - apply head_arg; auto. clear - E. revert E. generalize 1 es [a1; a2] [orbit 0; rules] es1. intros i s l r s' E.
    induction E; [apply EA_nil|contradiction|]. eapply EA_eval; [apply prot_free|eassumption|assumption|assumption].
  - intro m. unfold replace_repeated_fn. replace (replace_repeated_loop m (run c m None) rules es1 (orbit 0)) with (@More (ex * estate)); [reflexivity|].
    symmetry. rewrite <- Z. generalize m at 1. intro k. generalize 0. induction k as [|k IH]; intro j; [reflexivity|]. cbn [replace_repeated_loop].
    destruct (H j) as [Ej Qj]. unfold fn in Ej.
    destruct (eval_or_more c _ _ _ _ m Hc Ej) as [Q|Q]; rewrite Q; [reflexivity|]. cbn [obind]. rewrite Qj. apply IH.
Qed.
Print Assumptions C92_diverges.

(* A rule x -> v for a symbol, an integer or a string that does not occur in the
   outcome of one replacement is applied everywhere, once: //. is then the same
   as /. *)
Theorem C92_constant_rule : forall c es a1 a2 e p v es1 y, cfg_mono c -> with_callbacks c ->
  let rule := fn "Rule" [p; v] in
  ready es "ReplaceRepeated" prot -> ready es1 "ReplaceRepeated" prot -> ready es1 "ReplaceAll" ra_attrs ->
  evals_args c (fun _ => False) 1 es [a1; a2] [e; rule] es1 ->
  evals_to c es1 e e es1 -> evals_to c es1 rule rule es1 -> constant p -> ordinary_arg e -> ordinary_arg y ->
  evals_to c es1 (atom_subst "" p v e) y es1 -> evals_to c es1 y y es1 -> ~ In p (subterms y) ->
  collision_free (p :: subterms e ++ subterms (atom_subst "" p v e) ++ subterms y) ->
  hash_ok (fn "ReplaceAll" [e; rule]) -> no_clash (fn "ReplaceAll" [e; rule]) (atom_subst "" p v e) ->
  hash_ok (fn "ReplaceAll" [y; rule]) -> no_clash (fn "ReplaceAll" [y; rule]) y ->
  hash_ok (fn "ReplaceRepeated" [a1; a2]) -> no_clash (fn "ReplaceRepeated" [a1; a2]) y ->
  evals_to c es (fn "ReplaceRepeated" [a1; a2]) y es1.
Proof.
  intros c es a1 a2 e p v es1 y Hc Hw rule R R1 RA E Ee Er Hp Oe Oy Ey Eyy N C Hz1 Nc1 Hz2 Nc2 Hz Nc.
  destruct R1 as [Sy1 [NR1 [_ T1]]].
  assert (A : evals_to c es1 (fn "ReplaceAll" [e; rule]) y es1).
  { apply (C27_replace_all_call c es1 e rule e es1 p v es1 y es1 Hc RA RA Ee T1 Er Hp Oe); auto.
    eapply collision_sub; [|exact C]. intros x Hx. destruct Hx as [Hx|Hx]; [left; exact Hx|right]. apply in_app_iff in Hx.
    apply in_app_iff. destruct Hx; [left; assumption|right; apply in_app_iff; left; assumption]. }
  assert (B : evals_to c es1 (fn "ReplaceAll" [y; rule]) y es1).
  { pose proof (atom_subst_absent "" p v y N) as Q.
    apply (C27_replace_all_call c es1 y rule y es1 p v es1 y es1 Hc RA RA Eyy T1 Er Hp Oy); rewrite ?Q; auto.
    eapply collision_sub; [|exact C]. intros x Hx. destruct Hx as [Hx|Hx]; [left; exact Hx|right]. apply in_app_iff in Hx.
    apply in_app_iff. right. apply in_app_iff. right. tauto. }
  apply (C92_replace_repeated c es a1 a2 e rule es1 y es1 y es1 Hc Hw R Sy1 NR1 E); auto.
  - constructor; [exact Oe|constructor; [|constructor]]. repeat split; intros [l K]; discriminate K.
  - destruct (is_sameq e y) eqn:Q; [apply RP_here; assumption|]. apply (RP_next c rule es1 e y es1 y es1 A Q). apply RP_here; [exact B|].
    apply sameq_refl.
Qed.
Print Assumptions C92_constant_rule.

(* f[1, 2] //. f[a_, b_] :> f[b, a] never ends; f[1, 2] //. {1 -> 2, 2 -> 3} is
   f[3, 3]; f[x, x] //. x -> 3 *)
Definition esr : estate := with_entries es0 [entry "ReplaceRepeated" prot true].
Definition swap_rule : ex := fn "Rule" [uf "f" [named "a"; named "b"]; uf "f" [ESym "b"; ESym "a"]].
Definition chain_rules : ex := mkList [fn "Rule" [EInt 2; EInt 3]; fn "Rule" [EInt 1; EInt 2]].
Example C92_ex :
  repeats c1 chain_rules esr (uf "f" [EInt 1; EInt 2]) (uf "f" [EInt 3; EInt 3]) esr /\
  evals_to c1 esr (fn "ReplaceRepeated" [uf "f" [EInt 1; EInt 2]; chain_rules]) (uf "f" [EInt 3; EInt 3]) esr /\
  evals_to c1 esr (fn "ReplaceAll" [uf "f" [EInt 1; EInt 2]; chain_rules]) (uf "f" [EInt 2; EInt 3]) esr /\
  evals_to c1 esr (fn "ReplaceRepeated" [uf "f" [gl "x"; gl "x"]; fn "Rule" [gl "x"; EInt 3]]) (uf "f" [EInt 3; EInt 3]) esr /\
  diverges c1 esr (fn "ReplaceRepeated" [uf "f" [EInt 1; EInt 2]; swap_rule]).
Proof.
  assert (Rp : repeats c1 chain_rules esr (uf "f" [EInt 1; EInt 2]) (uf "f" [EInt 3; EInt 3]) esr).
  { eapply RP_next; [exists 20; vm_compute; reflexivity|vm_compute; reflexivity|].
    eapply RP_next; [exists 20; vm_compute; reflexivity|vm_compute; reflexivity|].
    eapply RP_here; [exists 20; vm_compute; reflexivity|vm_compute; reflexivity]. }
  repeat match goal with |- _ /\ _ => split end.
  - exact Rp.
  - apply (C92_replace_repeated c1 esr _ _ (uf "f" [EInt 1; EInt 2]) chain_rules esr (uf "f" [EInt 3; EInt 3]) esr _ esr c1_mono c1_with).
    + rdy.
    + eexists; split; [vm_compute; reflexivity|split; reflexivity].
    + intros d K. vm_compute in K. injection K as <-. reflexivity.
    + eapply EA_eval; [auto|exists 9; vm_compute; reflexivity|reflexivity|]. eapply EA_eval; [auto|exists 9; vm_compute; reflexivity|reflexivity|]. apply EA_nil.
    + repeat constructor; not_headed.
    + exact Rp.
    + hok.
    + split; intro K; vm_compute in K; discriminate K.
    + exists 9; vm_compute; reflexivity.
  - exists 20; vm_compute; reflexivity.
  - apply (C92_constant_rule c1 esr _ _ (uf "f" [gl "x"; gl "x"]) (gl "x") (EInt 3) esr (uf "f" [EInt 3; EInt 3]) c1_mono c1_with).
    1,2,3: rdy.
    + eapply EA_eval; [auto|exists 9; vm_compute; reflexivity|reflexivity|]. eapply EA_eval; [auto|exists 9; vm_compute; reflexivity|reflexivity|]. apply EA_nil.
    + exists 9; vm_compute; reflexivity.
    + exists 9; vm_compute; reflexivity.
    + exact Logic.I.
    + repeat split; not_headed.
    + repeat split; not_headed.
    + exists 9; vm_compute; reflexivity.
    + exists 9; vm_compute; reflexivity.
    + vm_compute. intros [K|[K|[K|[K|[]]]]]; discriminate K.
    + apply collision_freeb_ok. vm_compute. reflexivity.
    + hok.
    + split; intro K; vm_compute in K; discriminate K.
    + hok.
    + split; intro K; vm_compute in K; discriminate K.
    + hok.
    + split; intro K; vm_compute in K; discriminate K.
  - apply (C92_diverges c1 esr _ _ swap_rule esr (fun k => if Nat.even k then uf "f" [EInt 1; EInt 2] else uf "f" [EInt 2; EInt 1]) (fun _ => esr) c1_mono c1_with).
    + rdy.
    + eexists; split; [vm_compute; reflexivity|split; reflexivity].
    + eapply EA_eval; [auto|exists 9; vm_compute; reflexivity|reflexivity|]. eapply EA_eval; [auto|exists 9; vm_compute; reflexivity|reflexivity|]. apply EA_nil.
    + repeat constructor; not_headed.
    + reflexivity.
    + intro k. rewrite Nat.even_succ, <- Nat.negb_even. destruct (Nat.even k); (split; [exists 20; vm_compute; reflexivity|vm_compute; reflexivity]).
    + hok.
Qed.
