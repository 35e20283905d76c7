(* Specification vocabulary for the canonical order. *)
From Verif Require Import M_Syntax.
Open Scope Z_scope.

Definition bare_times (e : ex) : bool :=
  match e with ESym s => String.eqb s (sysname "Times") | _ => false end.

(* The symbol Times occurs only as the head of a product with at least one
   factor (never as an argument, and there is no Times[]).  Every result of
   ordinary arithmetic is of this form. *)
Fixpoint tidy (e : ex) : bool :=
  match e with
  | EExpr (h :: args) =>
      tidy h &&
      (fix go (l : list ex) : bool :=
         match l with [] => true | x :: t => tidy x && negb (bare_times x) && go t end) args &&
      (negb (bare_times h) || match args with [] => false | _ => true end)
  | _ => true
  end.

Lemma tidy_args h args : tidy (EExpr (h :: args)) = true ->
  tidy h = true /\ (forall x, In x args -> tidy x = true /\ bare_times x = false) /\
  (bare_times h = true -> args <> []).
Proof.
  cbn [tidy]. rewrite !andb_true_iff. intros [[H1 H2] H3]. split; [exact H1|]. split.
  - clear H1 H3. induction args as [|y t IH]; [intros x []|].
    rewrite !andb_true_iff in H2. destruct H2 as [[Ha Hb] Hc].
    intros x [<-|Hx]; [|apply IH; assumption]. split; [assumption|].
    destruct (bare_times y); [discriminate Hb|reflexivity].
  - intros Hh Ha. rewrite Hh, Ha in H3. discriminate H3.
Qed.

(* Expressions whose only numbers are integers and that contain neither
   Power[_, 1] nor Times[1, _] (both are removed by evaluation). *)
Definition unit_power (l : list ex) : bool :=
  match l with [h; _; EInt 1] => ex_eqb h (sys "Power") | _ => false end.
Definition unit_times (l : list ex) : bool :=
  match l with [h; EInt 1; _] => ex_eqb h (sys "Times") | _ => false end.
Fixpoint settled (e : ex) : bool :=
  match e with
  | ESym _ | EStr _ | EInt _ => true
  | ERat _ _ | EFlt _ | ECplx _ _ => false
  | EExpr l =>
      match l with [] => false | _ => true end &&
      negb (unit_power l) && negb (unit_times l) &&
      (fix go (l : list ex) : bool :=
         match l with [] => true | x :: t => settled x && go t end) l
  end.

Lemma settled_expr l : settled (EExpr l) = true ->
  l <> [] /\ unit_power l = false /\ unit_times l = false /\ forall x, In x l -> settled x = true.
Proof.
  cbn [settled]. rewrite !andb_true_iff. intros [[[H0 H1] H2] H].
  split; [destruct l; congruence|]. split; [destruct (unit_power l); [discriminate H1|reflexivity]|].
  split; [destruct (unit_times l); [discriminate H2|reflexivity]|].
  clear H0 H1 H2.
  induction l as [|y t IH]; [intros x []|].
  rewrite andb_true_iff in H. destruct H as [Ha Hb]. intros x [<-|Hx]; auto.
Qed.
