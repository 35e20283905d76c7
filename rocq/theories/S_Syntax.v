(* Well-formedness of expressions: the objects the Go program handles without
   panicking.  Every Expression has at least a head, denominators are non-zero
   and the components of a Complex are real numbers. *)
From Verif Require Import M_Syntax.
Open Scope Z_scope.

Definition real_number (e : ex) : bool :=
  match e with
  | EInt _ | EFlt _ => true
  | ERat _ d => negb (d =? 0)
  | _ => false
  end.

Fixpoint wf (e : ex) : bool :=
  match e with
  | ESym _ | EStr _ | EInt _ | EFlt _ => true
  | ERat _ d => negb (d =? 0)
  | ECplx re im => real_number re && real_number im
  | EExpr l =>
      match l with [] => false | _ => true end &&
      (fix go (l : list ex) : bool :=
         match l with [] => true | x :: t => wf x && go t end) l
  end.

Lemma wf_expr l : wf (EExpr l) = true -> forall x, In x l -> wf x = true.
Proof.
  cbn [wf]. rewrite andb_true_iff. intros [_ H].
  induction l as [|y t IH]; cbn in *; [tauto|].
  rewrite andb_true_iff in H. destruct H as [H1 H2]. intros x [->|Hx]; auto.
Qed.

Lemma wf_expr_intro l : l <> [] -> (forall x, In x l -> wf x = true) -> wf (EExpr l) = true.
Proof.
  intros Hl H. cbn [wf]. rewrite andb_true_iff. split; [destruct l; congruence|].
  clear Hl. induction l as [|y t IH]; [reflexivity|].
  rewrite andb_true_iff. split; [apply H; left; reflexivity|apply IH; intros; apply H; right; assumption].
Qed.
