(* Property theorems: ClearAll (C132). *)
From Verif Require Import M_Syntax M_Float M_Hash M_Match M_Unique M_Defs S_Defs P_Defs P_Defs3 T_Defs M_Attr M_ClearAll.
From Verif Require M_Eval M_Callback T_Eval.
Open Scope nat_scope.

(* nothing is known about the symbol *)
Definition forgotten (st : state) (s : string) : Prop :=
  rules_of st s = [] /\ attributes_eval st s = mkList [] /\ default_fn st [ESym s] = None /\ get_sym_def st s = None.

Lemma frozen_clear st n : st_frozen (clear st n) = st_frozen st.
Proof. unfold clear. destruct (lookup st n); [apply frozen_set|reflexivity]. Qed.
Lemma one_symbol fl st s : st_frozen st = false ->
  exists st', clear_all_one fl st (ESym s) = Some st' /\ st_frozen st' = false /\ forgotten st' s /\ forall m, m <> s -> lookup st' m = lookup st m.
Proof.
  intro Fz. unfold clear_all_one.
  assert (D : exists d, define fl st (EExpr [sys "Attributes"; ESym s]) (mkList []) = Some (set_def st s d)).
  { unfold define. rewrite Fz. change (String.eqb (sysname "Attributes") (sysname "Attributes")) with true. cbn [sys].
    unfold define_attrs. assert (head_assertion (mkList []) nList = Some [sList]) as -> by reflexivity. eexists. reflexivity. }
  destruct D as (d & D). change (define fl st (EExpr [sys "Attributes"; ESym s]) (mkList [])) with (define fl st (EExpr [sys "Attributes"; ESym s]) (mkList [])).
  rewrite D. eexists. split; [reflexivity|]. cbn [clear_eval fold_left]. split; [rewrite frozen_clear, frozen_set; exact Fz|].
  unfold clear. rewrite lookup_set_same. split.
  - unfold forgotten, rules_of, attributes_eval, default_fn, get_sym_def. rewrite !lookup_set_same. repeat split; reflexivity.
  - intros m N. rewrite !lookup_set_other by exact N. reflexivity.
Qed.

Lemma same_lookup_rules st st' s : lookup st' s = lookup st s -> forgotten st s -> forgotten st' s.
Proof. unfold forgotten, rules_of, attributes_eval, default_fn, get_sym_def. intros ->. auto. Qed.
Lemma clear_all_symbols fl : forall ss st, st_frozen st = false ->
  exists st', clear_all fl st (map ESym ss) = Some st' /\ (forall s, In s ss -> forgotten st' s) /\ (forall m, ~ In m ss -> lookup st' m = lookup st m).
Proof.
  induction ss as [|s ss IH]; intros st Fz.
  - exists st. split; [reflexivity|]. split; [intros s []|reflexivity].
  - destruct (one_symbol fl st s Fz) as (st1 & E1 & F1 & G1 & O1). cbn [map clear_all]. rewrite E1.
    destruct (IH st1 F1) as (st2 & E2 & G2 & O2). exists st2. split; [exact E2|]. split.
    + intros m M. destruct (in_dec String.string_dec m ss) as [I|I]; [apply G2, I|].
      destruct M as [<-|M]; [|contradiction]. apply (same_lookup_rules st1); [apply O2, I|exact G1].
    + intros m M. cbn in M. rewrite O2 by tauto. apply O1. intros ->. tauto.
Qed.

(* ---- C132 ---- *)
(* ClearAll[s1, s2, ...] forgets everything about the symbols and touches no other
   symbol, if none of them has a value *)
Theorem C132_clear_all_partial : forall fl st ss vs, st_frozen st = false -> Forall2 (reads st) ss vs ->
  (forall s, In s ss -> get_sym_def st s = None) ->
  exists st', clear_all fl st vs = Some st' /\ (forall s, In s ss -> forgotten st' s) /\ (forall m, ~ In m ss -> lookup st' m = lookup st m).
Proof.
  intros fl st ss vs Fz R N.
  assert (vs = map ESym ss) as ->.
  { induction R as [|s v ss vs R _ IH]; [reflexivity|]. cbn [map]. f_equal; [|apply IH; intros t T; apply N; right; exact T].
    assert (K : get_sym_def st s = None) by (apply N; left; reflexivity). destruct R; congruence. }
  apply clear_all_symbols, Fz.
Qed.
Print Assumptions C132_clear_all_partial.

(* a symbol with a value is not cleared: the value is what ClearAll sees *)
Theorem C132_value_kept_refuted : forall fl st s v w, st_frozen st = false -> get_sym_def st s = Some v ->
  (forall t, v <> ESym t) -> reads st s w ->
  exists st', clear_all fl st [w] = Some st' /\ (forall m, lookup st' m = lookup st m) /\ get_sym_def st' s = Some v.
Proof.
  intros fl st s v w Fz V NS R. assert (w = v) as -> by (destruct R; [congruence|congruence|exfalso; apply (NS t); congruence]).
  exists st. split; [|split; [reflexivity|exact V]]. cbn [clear_all]. unfold clear_all_one, define. rewrite Fz.
  destruct v as [t|t|z|n d|f|a1 a2|l]; try reflexivity. congruence.
Qed.
Print Assumptions C132_value_kept_refuted.
(* if the value is another symbol, that one is cleared *)
Theorem C132_other_cleared_refuted : forall fl st s t w, st_frozen st = false -> get_sym_def st s = Some (ESym t) -> get_sym_def st t = None -> reads st s w ->
  exists st', clear_all fl st [w] = Some st' /\ lookup st' s = lookup st s /\ forgotten st' t.
Proof.
  intros fl st s t w Fz V N R.
  assert (w = ESym t) as ->.
  { destruct R as [s H|s v H NS _|s t' v H R]; [congruence| |].
    - rewrite H in V. injection V as V. destruct (NS t V).
    - rewrite H in V. injection V as ->. destruct R as [s' H'|s' v H' _ _|s' t' v H' _]; [reflexivity|congruence|congruence]. }
  destruct (one_symbol fl st t Fz) as (st1 & E & _ & G & O). exists st1. cbn [clear_all]. rewrite E. split; [reflexivity|]. split; [|exact G].
  apply O. intros ->. congruence.
Qed.
Print Assumptions C132_other_cleared_refuted.
(* so ClearAll and Clear differ: Clear[s] does clear a symbol with a value *)
Theorem C132_clear : forall st s, forgotten (clear_eval st [ESym s]) s /\ forall m, m <> s -> lookup (clear_eval st [ESym s]) m = lookup st m.
Proof.
  intros st s. cbn [clear_eval fold_left]. unfold clear. destruct (lookup st s) as [d|] eqn:L.
  - split; [unfold forgotten, rules_of, attributes_eval, default_fn, get_sym_def; rewrite !lookup_set_same; repeat split; reflexivity|].
    intros m N. apply lookup_set_other, N.
  - split; [unfold forgotten, rules_of, attributes_eval, default_fn, get_sym_def; rewrite !L; repeat split; reflexivity|reflexivity].
Qed.
Print Assumptions C132_clear.
(* in the same way SetAttributes[{s}, a] does nothing to a symbol with a value *)
Theorem C132_set_attributes_refuted : forall fl st s v w a, get_sym_def st s = Some v -> (forall t, v <> ESym t) -> reads st s w ->
  set_attributes_scan fl st [w] a = Some st.
Proof.
  intros fl st s v w a V NS R. assert (w = v) as -> by (destruct R; [congruence|congruence|exfalso; apply (NS t); congruence]).
  cbn [set_attributes_scan]. destruct v as [t|t|z|n d|f|a1 a2|l]; try reflexivity. congruence.
Qed.
Print Assumptions C132_set_attributes_refuted.

(* ---- the library's own definition, run by the evaluator of M_Eval ---- *)
Import M_Eval M_Callback T_Eval.
Definition c_sc : cfg := Cfg (fun _ => 0%Z) (fun _ => ""%string) (fun _ _ => false) (callbacks (fun _ => ""%string)).
Definition es_ca (more : list (string * def)) : estate := ES (State (st_defs (es_defs es0) ++
  [ entry "Scan" ["Protected"]%string true; entry "Clear" ["HoldAll"; "Protected"] true; entry "Attributes" ["HoldAll"; "Listable"; "Protected"] true;
    (sysname "ClearAll", Def clear_all_rules (strings_to_attributes clear_all_attrs) None false) ]%string ++ more)%list false) None None.
Definition x_five : string * def := ("Global`x", Def [DVal (held (ESym "Global`x")) (EInt 5) 0] no_attrs None false)%string.
Definition f_def : string * def := ("Global`f", Def [DVal (held (fx (EInt 1))) (EInt 10) 0] (strings_to_attributes ["HoldAll"]) None false)%string.
(* ClearAll[x] with x = 5: x is 5 afterwards *)
Theorem C132_evaluated_refuted : exists es1,
  run c_sc 60 None (es_ca [x_five]) (EExpr [sys "ClearAll"; ESym "Global`x"]) = Ret (sys "Null", es1) /\
  get_sym_def (es_defs es1) "Global`x" = Some (EInt 5).
Proof.
  set (r := run c_sc 60 None (es_ca [x_five]) (EExpr [sys "ClearAll"; ESym "Global`x"])).
  exists (match r with Ret (_, e) => e | _ => es_ca [] end). vm_compute. split; reflexivity.
Qed.
Print Assumptions C132_evaluated_refuted.
(* ClearAll[f] with f[1] = 10 and Attributes[f] = {HoldAll} *)
Example C132_evaluated :
  match run c_sc 60 None (es_ca [f_def]) (EExpr [sys "ClearAll"; ESym "Global`f"]) with
  | Ret (v, e) => v = sys "Null" /\ rules_of (es_defs e) "Global`f" = [] /\ attributes_eval (es_defs e) "Global`f" = mkList []
  | _ => False
  end.
Proof. vm_compute. repeat split. Qed.
Example C132_reads : reads gst "Global`f" (ESym "Global`f") /\ reads (es_defs (es_ca [x_five])) "Global`x" (EInt 5).
Proof. split; [apply Rd_free; reflexivity|]. apply Rd_atom; [vm_compute; reflexivity|discriminate|discriminate]. Qed.
