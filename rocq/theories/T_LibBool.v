(* Property theorems: Boolean simplification (C71). *)
From Verif Require Import M_Syntax M_LibBool S_LibBool.
From Coq Require Import Relations Bool.

Section proofs.
  Variable M : boolean_model.
  Notation mean := (meaning M).
  Notation tr e := (truth M (meaning M e)).
  Lemma mean_and l : mean (and_ l) = of_bool M (forallb (fun e => tr e) l).
  Proof.
    change (mean (and_ l)) with (of_bool M (forallb (truth M) (List.map mean l))). f_equal.
    induction l as [|a l IH]; [reflexivity|]. cbn [List.map forallb]. rewrite IH. reflexivity.
  Qed.
  Lemma mean_or l : mean (or_ l) = of_bool M (existsb (fun e => tr e) l).
  Proof.
    change (mean (or_ l)) with (of_bool M (existsb (truth M) (List.map mean l))). f_equal.
    induction l as [|a l IH]; [reflexivity|]. cbn [List.map existsb]. rewrite IH. reflexivity.
  Qed.
  Lemma mean_not e : mean (not_ e) = of_bool M (negb (tr e)).
  Proof. reflexivity. Qed.
  Lemma mean_true : mean sTrue = of_bool M true. Proof. reflexivity. Qed.
  Lemma mean_false : mean sFalse = of_bool M false. Proof. reflexivity. Qed.
  Lemma tr_and l : tr (and_ l) = forallb (fun e => tr e) l.
  Proof. rewrite mean_and. apply truth_of_bool. Qed.
  Lemma tr_or l : tr (or_ l) = existsb (fun e => tr e) l.
  Proof. rewrite mean_or. apply truth_of_bool. Qed.
  Lemma tr_not e : tr (not_ e) = negb (tr e).
  Proof. rewrite mean_not. apply truth_of_bool. Qed.
  Lemma tr_block_or a l : block (sys "Or") a l -> existsb (fun e => tr e) l = tr a.
  Proof.
    intros [N ->]. destruct l as [|x [|y l]]; [congruence| |].
    - cbn [wrap existsb]. apply orb_false_r.
    - symmetry. exact (tr_or (x :: y :: l)).
  Qed.
  Lemma tr_block_and a l : block (sys "And") a l -> forallb (fun e => tr e) l = tr a.
  Proof.
    intros [N ->]. destruct l as [|x [|y l]]; [congruence| |].
    - cbn [wrap forallb]. apply andb_true_r.
    - symmetry. exact (tr_and (x :: y :: l)).
  Qed.
  Lemma tr_notc_and a n : not_containing (sys "And") a n -> negb (tr a) = true -> tr n = true.
  Proof.
    intros [->|(x & la & y & B & ->)] H; rewrite tr_not; [exact H|].
    change (EExpr (sys "And" :: x ++ la ++ y)) with (and_ (x ++ la ++ y)). rewrite tr_and, !forallb_app, (tr_block_and a la B).
    apply negb_true_iff in H. rewrite H. cbn [andb]. rewrite andb_false_r. reflexivity.
  Qed.
  Lemma tr_notc_or a n : not_containing (sys "Or") a n -> tr a = true -> tr n = false.
  Proof.
    intros [->|(x & la & y & B & ->)] H; rewrite tr_not; [rewrite H; reflexivity|].
    change (EExpr (sys "Or" :: x ++ la ++ y)) with (or_ (x ++ la ++ y)). rewrite tr_or, !existsb_app, (tr_block_or a la B).
    rewrite H. cbn [orb]. rewrite orb_true_r. reflexivity.
  Qed.
  Ltac norm := rewrite ?mean_and, ?mean_or, ?mean_not, ?mean_true, ?mean_false; f_equal; cbn [forallb existsb app];
    rewrite ?forallb_app, ?existsb_app; cbn [forallb existsb]; rewrite ?tr_and, ?tr_or, ?tr_not; cbn [forallb existsb app];
    rewrite ?forallb_app, ?existsb_app; cbn [forallb existsb]; rewrite ?tr_and, ?tr_or, ?tr_not; cbn [forallb existsb app];
    rewrite ?forallb_app, ?existsb_app.
  Ltac blocks := repeat match goal with
    | B : block (sys "Or") ?a ?l |- _ => rewrite ?(tr_block_or a l B); clear B
    | B : block (sys "And") ?a ?l |- _ => rewrite ?(tr_block_and a l B); clear B end.
  Ltac cases := repeat match goal with
    | |- context[truth M ?e] => destruct (truth M e) eqn:?
    | |- context[forallb ?f ?l] => destruct (forallb f l)
    | |- context[existsb ?f ?l] => destruct (existsb f l) end; try reflexivity; try congruence.
  Lemma rule_ok e e' : bool_rule e e' -> mean e = mean e'.
  Proof.
    intro H. destruct H; norm.
    5,6: match goal with B : block _ ?a ?l, N : not_containing _ _ ?n |- _ => pose proof (tr_notc_and a n N) as K; rewrite (tr_block_or a l B) end;
      destruct (truth M (mean a)); cases; try (specialize (K eq_refl); congruence).
    10,11: match goal with B : block _ ?a ?l, N : not_containing _ _ ?n |- _ => pose proof (tr_notc_or a n N) as K; rewrite (tr_block_and a l B) end;
      destruct (truth M (mean a)); cases; try (specialize (K eq_refl); congruence).
    all: blocks; cases.
  Qed.
  Lemma flat_ok e e' : bool_rule_flat e e' -> mean e = mean e'.
  Proof.
    intros [e0 e1 H|h l s t e1 Hh H]; [apply rule_ok, H|]. apply rule_ok in H. destruct Hh as [->| ->].
    - change (mean (and_ (s ++ l ++ t)) = mean (and_ (s ++ [e1] ++ t))). change (mean (and_ l) = mean e1) in H.
      assert (T : forallb (fun e => tr e) l = tr e1) by (rewrite <- H; symmetry; apply tr_and).
      norm. rewrite T. destruct (truth M (mean e1)); cases.
    - change (mean (or_ (s ++ l ++ t)) = mean (or_ (s ++ [e1] ++ t))). change (mean (or_ l) = mean e1) in H.
      assert (T : existsb (fun e => tr e) l = tr e1) by (rewrite <- H; symmetry; apply tr_or).
      norm. rewrite T. destruct (truth M (mean e1)); cases.
  Qed.
  Lemma eval_ok e e' : bool_eval e e' -> tr e = tr e'.
  Proof.
    intro H. destruct H; rewrite ?tr_and, ?tr_or, ?tr_not, ?forallb_app, ?existsb_app; cbn [forallb existsb];
      rewrite ?tr_and, ?tr_or, ?mean_true, ?mean_false, ?truth_of_bool; cases.
  Qed.
  (* the parts decide the meaning, as long as no part turns into or from the symbols And, Or, Not *)
  Definition connective (e : ex) : bool :=
    match e with ESym h => String.eqb h (sysname "And") || String.eqb h (sysname "Or") || String.eqb h (sysname "Not") | _ => false end.
  Lemma meaning_other l : match l with a :: _ => connective a = false | [] => True end -> mean (EExpr l) = func M (List.map mean l).
  Proof.
    intro H. destruct l as [|a t]; [reflexivity|]. destruct a as [h| | | | | |]; try reflexivity.
    cbn [connective] in H. apply orb_false_iff in H as [H H3]. apply orb_false_iff in H as [H1 H2].
    cbn [meaning]. rewrite H1, H2, H3. reflexivity.
  Qed.
  Lemma mean_not_any l : (forall d, l <> [d]) -> mean (EExpr (sys "Not" :: l)) = func M (List.map mean (sys "Not" :: l)).
  Proof.
    intro H. destruct l as [|a [|b t]]; try reflexivity. exfalso. eapply H. reflexivity.
  Qed.
  Lemma mean_congr h s e e' t : mean e = mean e' -> mean (EExpr (h :: s ++ [e] ++ t)) = mean (EExpr (h :: s ++ [e'] ++ t)).
  Proof.
    intro E. assert (Em : List.map mean (h :: s ++ [e] ++ t) = List.map mean (h :: s ++ [e'] ++ t)).
    { cbn [List.map]. rewrite !map_app. cbn [List.map]. rewrite E. reflexivity. }
    destruct (connective h) eqn:C.
    - destruct h as [h| | | | | |]; try discriminate C. cbn [meaning]. cbn [meaning] in Em. rewrite Em. reflexivity.
    - rewrite !meaning_other, Em; [reflexivity|exact C|exact C].
  Qed.
  Lemma anywhere_ok (R : ex -> ex -> Prop) : (forall e e', R e e' -> mean e = mean e' /\ connective e = false /\ connective e' = false) ->
    forall e e', anywhere R e e' -> mean e = mean e' /\ connective e = false /\ connective e' = false.
  Proof.
    intros HR e e' H. induction H as [e e' H|s e e' t H [E [C C']]]; [apply HR, H|].
    split; [|split; reflexivity]. destruct s as [|h s]; [|apply mean_congr, E].
    cbn [app]. rewrite !meaning_other by assumption. cbn [List.map]. rewrite E. reflexivity.
  Qed.
  Lemma rule_shape e e' : bool_rule_flat e e' -> connective e = false /\ connective e' = false.
  Proof. intros [e0 e1 H|h l s t e1 Hh H]; [destruct H|]; split; reflexivity. Qed.
  Lemma in_formula_ok (R : ex -> ex -> Prop) : (forall e e', R e e' -> tr e = tr e') -> forall e e', in_formula R e e' -> tr e = tr e'.
  Proof.
    intros HR e e' H. induction H as [e e' H|s e e' t H IH|s e e' t H IH|e e' H IH]; [apply HR, H| | |];
      rewrite ?tr_and, ?tr_or, ?tr_not, ?forallb_app, ?existsb_app; cbn [forallb existsb]; rewrite IH; reflexivity.
  Qed.
End proofs.

(* any number of rule applications, to subexpressions at any depth, does not
   change the meaning, whatever symbols and other functions stand for *)
Theorem C71_rules_preserve_meaning : forall M e e', clos_refl_trans ex (anywhere bool_rule_flat) e e' -> meaning M e = meaning M e'.
Proof.
  intros M e e' H. induction H as [e e' H|e|e f g _ IH1 _ IH2]; [|reflexivity|congruence].
  eapply anywhere_ok; [|exact H]. intros a b R. split; [apply flat_ok, R|apply rule_shape, R].
Qed.
Print Assumptions C71_rules_preserve_meaning.
Theorem C71_simplify_preserves_truth : forall M e e', clos_refl_trans ex simplify_step e e' -> holds_in M e = holds_in M e'.
Proof.
  intros M e e' H. induction H as [e e' [H|H]|e|e f g _ IH1 _ IH2]; [| |reflexivity|congruence].
  - unfold holds_in. erewrite C71_rules_preserve_meaning; [reflexivity|]. apply rt_step, H.
  - eapply in_formula_ok; [|exact H]. apply eval_ok.
Qed.
Print Assumptions C71_simplify_preserves_truth.
(* an answer True (False) means that the formula holds always (never) *)
Theorem C71_decided : forall e, (clos_refl_trans ex simplify_step e sTrue -> forall M, holds_in M e = true) /\
  (clos_refl_trans ex simplify_step e sFalse -> forall M, holds_in M e = false).
Proof.
  intro e. split; intros H M; rewrite (C71_simplify_preserves_truth M _ _ H); apply truth_of_bool.
Qed.
Print Assumptions C71_decided.

(* ---- termination ---- *)
Fixpoint lits (e : ex) : nat :=
  match e with
  | EExpr l =>
      let s := list_sum (List.map lits l) in
      match l with
      | ESym h :: args =>
          if String.eqb h (sysname "And") || String.eqb h (sysname "Or") then Nat.max 1 (list_sum (tl (List.map lits l))) else s
      | _ => S s
      end
  | _ => 1
  end.
Fixpoint nodes (e : ex) : nat := match e with EExpr l => S (list_sum (List.map nodes l)) | _ => 1 end.
Lemma sum_app (f : ex -> nat) a b : list_sum (List.map f (a ++ b)) = list_sum (List.map f a) + list_sum (List.map f b).
Proof. rewrite map_app, list_sum_app. reflexivity. Qed.
Lemma sum_cons (f : ex -> nat) a b : list_sum (List.map f (a :: b)) = f a + list_sum (List.map f b).
Proof. reflexivity. Qed.
Lemma sum_nil (f : ex -> nat) : list_sum (List.map f []) = 0.
Proof. reflexivity. Qed.
Lemma lits_and l : lits (and_ l) = Nat.max 1 (list_sum (List.map lits l)). Proof. reflexivity. Qed.
Lemma lits_or l : lits (or_ l) = Nat.max 1 (list_sum (List.map lits l)). Proof. reflexivity. Qed.
Lemma lits_not e : lits (not_ e) = S (lits e).
Proof. change (lits (not_ e)) with (1 + (lits e + 0)). lia. Qed.
Lemma lits_pos e : 1 <= lits e.
Proof.
  destruct e as [s|s|z|n d|f|a b|l]; try (cbn; lia). destruct l as [|h l]; [cbn; lia|].
  destruct h; try (cbn [lits]; lia). cbn [lits]. destruct (_ || _); [lia|]. cbn [List.map list_sum fold_right lits]. lia.
Qed.
Lemma nodes_pos e : 1 <= nodes e.
Proof. destruct e; cbn [nodes]; lia. Qed.
Lemma lits_block h a l : h = sys "And" \/ h = sys "Or" -> block h a l -> list_sum (List.map lits l) = lits a /\ 1 <= lits a.
Proof.
  intros Hh [N ->]. split; [|apply lits_pos]. destruct l as [|x [|y l]]; [congruence|cbn [wrap]; rewrite sum_cons, sum_nil; lia|].
  pose proof (lits_pos x). destruct Hh as [->| ->]; cbn [wrap].
  - change (EExpr (sys "And" :: x :: y :: l)) with (and_ (x :: y :: l)). rewrite lits_and, sum_cons. lia.
  - change (EExpr (sys "Or" :: x :: y :: l)) with (or_ (x :: y :: l)). rewrite lits_or, sum_cons. lia.
Qed.
Lemma lits_notc h a n : h = sys "And" \/ h = sys "Or" -> not_containing h a n -> 1 <= lits n.
Proof. intros. apply lits_pos. Qed.
Ltac lsum := repeat first [rewrite lits_and|rewrite lits_or|rewrite lits_not|rewrite sum_app|rewrite sum_cons|rewrite sum_nil].
Lemma rule_lits e e' : bool_rule e e' -> lits e' < lits e.
Proof.
  assert (HO : sys "Or" = sys "And" \/ sys "Or" = sys "Or") by (right; reflexivity).
  assert (HA : sys "And" = sys "And" \/ sys "And" = sys "Or") by (left; reflexivity).
  intro H. destruct H; cbn [app];
    repeat match goal with
    | B : block (sys "Or") ?a ?l |- _ => destruct (lits_block _ a l HO B); clear B
    | B : block (sys "And") ?a ?l |- _ => destruct (lits_block _ a l HA B); clear B
    | B : not_containing _ _ ?n |- _ => pose proof (lits_pos n); clear B end;
    repeat match goal with x : ex |- _ => lazymatch goal with _ : 1 <= lits x |- _ => fail | _ => pose proof (lits_pos x) end end;
    try change (lits sTrue) with 1; try change (lits sFalse) with 1; lsum; lia.
Qed.
Lemma flat_lits e e' : bool_rule_flat e e' -> lits e' < lits e.
Proof.
  intros [e0 e1 H|h l s t e1 Hh H]; [apply rule_lits, H|]. apply rule_lits in H. pose proof (lits_pos e1).
  destruct Hh as [->| ->].
  - change (lits (and_ (s ++ [e1] ++ t)) < lits (and_ (s ++ l ++ t))). change (lits e1 < lits (and_ l)) in H.
    rewrite lits_and in *. rewrite lits_and, !sum_app, sum_cons, sum_nil. lia.
  - change (lits (or_ (s ++ [e1] ++ t)) < lits (or_ (s ++ l ++ t))). change (lits e1 < lits (or_ l)) in H.
    rewrite lits_or in *. rewrite lits_or, !sum_app, sum_cons, sum_nil. lia.
Qed.
Lemma lits_other l : match l with a :: _ => connective a = false | [] => True end ->
  lits (EExpr l) = match l with ESym _ :: _ => list_sum (List.map lits l) | _ => S (list_sum (List.map lits l)) end.
Proof.
  intro H. destruct l as [|a t]; [reflexivity|]. destruct a as [h| | | | | |]; try reflexivity.
  cbn [connective] in H. apply orb_false_iff in H as [H _]. cbn [lits]. rewrite H. reflexivity.
Qed.
Lemma lits_congr h s e e' t : lits e' < lits e -> lits (EExpr (h :: s ++ [e'] ++ t)) < lits (EExpr (h :: s ++ [e] ++ t)).
Proof.
  intro L. pose proof (lits_pos e'). assert (K : list_sum (List.map lits (s ++ [e'] ++ t)) < list_sum (List.map lits (s ++ [e] ++ t)) /\ 1 <= list_sum (List.map lits (s ++ [e'] ++ t))).
  { rewrite !sum_app, !sum_cons, !sum_nil. lia. }
  destruct h as [h|s0|z|n d|f|a b|l]; try (cbn [lits]; rewrite !sum_cons; lia).
  cbn [lits]. destruct (_ || _); [cbn [List.map tl]; lia|]. rewrite !sum_cons. lia.
Qed.
Lemma anywhere_lits e e' : anywhere bool_rule_flat e e' -> lits e' < lits e.
Proof.
  intro H. cut (lits e' < lits e /\ connective e = false /\ connective e' = false /\ is_expr e = true); [tauto|].
  induction H as [e e' H|s e e' t H [L [C [C' X]]]].
  - split; [apply flat_lits, H|]. destruct (rule_shape _ _ H). repeat split; auto. destruct H as [? ? [] |]; reflexivity.
  - split; [|repeat split]. destruct s as [|h s]; [|apply lits_congr, L]. cbn [app]. rewrite !lits_other by assumption. rewrite !sum_cons.
    destruct e; try discriminate X. destruct e'; lia.
Qed.
Lemma nodes_and l : nodes (and_ l) = S (S (list_sum (List.map nodes l))). Proof. reflexivity. Qed.
Lemma nodes_or l : nodes (or_ l) = S (S (list_sum (List.map nodes l))). Proof. reflexivity. Qed.
Lemma nodes_not e : nodes (not_ e) = S (S (nodes e)). Proof. change (nodes (not_ e)) with (S (1 + (nodes e + 0))). lia. Qed.
Ltac nsum := repeat first [rewrite nodes_and|rewrite nodes_or|rewrite nodes_not|rewrite sum_app|rewrite sum_cons|rewrite sum_nil].
Lemma eval_measure e e' : bool_eval e e' -> lits e' <= lits e /\ nodes e' < nodes e.
Proof.
  intro H. destruct H; split; cbn [app]; lsum; nsum; try change (lits sTrue) with 1; try change (lits sFalse) with 1;
    try change (nodes sTrue) with 1; try change (nodes sFalse) with 1; try lia.
Qed.
Lemma in_formula_measure e e' : in_formula bool_eval e e' -> lits e' <= lits e /\ nodes e' < nodes e.
Proof.
  intro H. induction H as [e e' H|s e e' t H [L K]|s e e' t H [L K]|e e' H [L K]]; [apply eval_measure, H| | |]; split; lsum; nsum; lia.
Qed.
(* no infinite sequence of steps: the simplification always ends, whatever rule
   is chosen at whatever position *)
Theorem C71_terminates : well_founded (fun e' e => simplify_step e e').
Proof.
  intro e. remember (lits e) as n eqn:En. revert e En. induction n as [n IHn] using (well_founded_induction lt_wf). intros e En.
  remember (nodes e) as k eqn:Ek. revert e En Ek. induction k as [k IHk] using (well_founded_induction lt_wf). intros e En Ek.
  constructor. intros e' [H|H].
  - apply anywhere_lits in H. apply (IHn (lits e')); [lia|reflexivity].
  - apply in_formula_measure in H as [L K]. destruct (Nat.eq_dec (lits e') n) as [E|E].
    + apply (IHk (nodes e')); [lia|congruence|reflexivity].
    + apply (IHn (lits e')); [lia|reflexivity].
Qed.
Print Assumptions C71_terminates.

(* (a || b || c || Not[a && b && c]) // Simplify gives True *)
Definition va : ex := ESym "Global`a". Definition vb : ex := ESym "Global`b". Definition vc : ex := ESym "Global`c".
Example C71_ex_true : clos_refl_trans ex simplify_step (or_ [va; vb; vc; not_ (and_ [va; vb; vc])]) sTrue.
Proof.
  apply rt_step. left. apply any_here, brf_top.
  apply (br_or_true1 [] va [va] [vb; vc] (not_ (and_ [va; vb; vc])) []); [split; [discriminate|reflexivity]|].
  right. exists [], [va], [vb; vc]. split; [split; [discriminate|reflexivity]|reflexivity].
Qed.
(* a || !a && b gives a || b, inside another function *)
Example C71_ex_or : clos_refl_trans ex simplify_step (EExpr [ESym "Global`f"; or_ [va; and_ [not_ va; vb; vc]]]) (EExpr [ESym "Global`f"; or_ [va; and_ [vb; vc]]]).
Proof.
  apply rt_step. left. apply (any_part _ [ESym "Global`f"] _ _ []). apply any_here, brf_top.
  apply (br_or_neg1 [] va [va] [] [] [vb; vc] []). split; [discriminate|reflexivity].
Qed.
(* d && (a || b) && (a || c): the rule applies in the middle of And *)
Example C71_ex_factor : clos_refl_trans ex simplify_step (and_ [vc; or_ [va; vb]; or_ [va; vc]]) (and_ [vc; or_ [va; and_ [vb; vc]]]).
Proof.
  apply rt_step. left. apply any_here.
  apply (brf_middle (sys "And") [or_ [va; vb]; or_ [va; vc]] [vc] [] (or_ [va; and_ [vb; vc]])); [left; reflexivity|].
  apply (br_factor_l va vb vc [va] [vb] [va] [vc]); (split; [discriminate|reflexivity]).
Qed.
(* a model that makes a true and b, c false *)
Definition ex_model : boolean_model :=
  {| domain := bool; truth := fun b => b; of_bool := fun b => b; truth_of_bool := fun _ => eq_refl;
     atom := fun e => match e with ESym s => String.eqb s "Global`a" | _ => false end; func := fun l => hd true (rev l) |}.
Example C71_ex_model : holds_in ex_model (or_ [va; and_ [not_ va; vb; vc]]) = true /\ holds_in ex_model (and_ [va; vb]) = false.
Proof. split; reflexivity. Qed.
