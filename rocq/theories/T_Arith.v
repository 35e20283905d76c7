(* Property theorems: collecting like terms in Plus, Plus and Times (C04). *)
From Verif Require Import M_Syntax M_Float M_Hash M_Order M_Num M_Arith S_Num S_Arith P_Num P_Arith P_Arith2.
From Coq Require Import QArith.
Open Scope Z_scope.

(* No two different non-numeric parts c*v of the terms have the same 64-bit
   hash (the code compares the parts only by hash); stated on the terms. *)
Definition like_terms_identified (args : list ex) : Prop :=
  forall p q c1 v1 c2 v2, In p args -> In q args ->
    split_term p = Some (c1, v1) -> split_term q = Some (c2, v2) -> hash v1 = hash v2 -> v1 = v2.

Theorem C04_collect_preserves_value_partial : forall v args,
  (forall p, In p args -> exact_arg p = true) -> like_terms_identified args ->
  (ev v (EExpr (ESym (sysname "Plus") :: collect_terms args)) == ev v (EExpr (ESym (sysname "Plus") :: args)))%Q.
Proof. intros v args H C. exact (collect_terms_value v args H C). Qed.
Print Assumptions C04_collect_preserves_value_partial.

Theorem C04_plus_preserves_value_partial : forall v args,
  (forall p, In p args -> exact_arg p = true) -> like_terms_identified args ->
  (ev v (plus_eval args) == ev v (EExpr (ESym (sysname "Plus") :: args)))%Q.
Proof. intros v args H C. exact (plus_eval_value v args H C). Qed.
Print Assumptions C04_plus_preserves_value_partial.

Theorem C04_times_preserves_value : forall v args,
  (forall p, In p args -> exact_arg p = true) ->
  (forall s, In s ["Infinity"; "ComplexInfinity"; "Indeterminate"]%string -> ~ In (ESym (sysname s)) args) ->
  (ev v (times_eval args) == ev v (EExpr (ESym (sysname "Times") :: args)))%Q.
Proof.
  intros v args H I. refine (times_eval_value v args H _).
  intros p Hp. unfold is_infinity.
  destruct (ex_eqb p (sys "Infinity")) eqn:E1; [apply ex_eqb_eq in E1; subst; exfalso; apply (I "Infinity"%string); cbn; auto|].
  destruct (ex_eqb p (sys "ComplexInfinity")) eqn:E2; [apply ex_eqb_eq in E2; subst; exfalso; apply (I "ComplexInfinity"%string); cbn; auto|].
  destruct (ex_eqb p (sys "Indeterminate")) eqn:E3; [apply ex_eqb_eq in E3; subst; exfalso; apply (I "Indeterminate"%string); cbn; auto|].
  reflexivity.
Qed.
Print Assumptions C04_times_preserves_value.

(* Without the hypothesis: f[1/328199] + f[66053/7] becomes 2 f[1/328199]. *)
Theorem C04_plus_preserves_value_refuted : exists v args,
  (forall p, In p args -> exact_arg p = true) /\
  ~ (ev v (plus_eval args) == ev v (EExpr (ESym (sysname "Plus") :: args)))%Q.
Proof.
  set (a := EExpr [ESym "Global`f"; ERat 1 328199]). set (b := EExpr [ESym "Global`f"; ERat 66053 7]).
  exists (fun e => if ex_eqb e a then 1%Q else 0%Q), [a; b]. split.
  - intros p [<-|[<-|[]]]; reflexivity.
  - vm_compute. discriminate.
Qed.
Print Assumptions C04_plus_preserves_value_refuted.

(* x + 2x + 3 + y*z is collected to 3 + 3x + y*z, and meets the hypotheses *)
Example C04_ex :
  let x := ESym "Global`x" in let y := ESym "Global`y" in
  let args := [EInt 3; x; EExpr [ESym (sysname "Times"); EInt 2; x]; EExpr [ESym (sysname "Times"); x; y]] in
  (forall p, In p args -> exact_arg p = true) /\
  plus_eval args = EExpr [ESym (sysname "Plus"); EInt 3; EExpr [ESym (sysname "Times"); EInt 3; x];
                          EExpr [ESym (sysname "Times"); x; y]].
Proof.
  cbv zeta. split; [intros p H; repeat (destruct H as [<-|H]; [reflexivity|]); destruct H|vm_compute; reflexivity].
Qed.
Example C04_ex_hyp :
  let x := ESym "Global`x" in let y := ESym "Global`y" in
  like_terms_identified [EInt 3; x; EExpr [ESym (sysname "Times"); EInt 2; x]; EExpr [ESym (sysname "Times"); x; y]].
Proof.
  cbv zeta. intros p q c1 v1 c2 v2 Hp Hq S1 S2 Hh. apply N.eqb_eq in Hh.
  repeat (destruct Hp as [<-|Hp]; [vm_compute in S1; first [discriminate S1|injection S1 as <- <-];
    repeat (destruct Hq as [<-|Hq]; [vm_compute in S2; first [discriminate S2|injection S2 as <- <-];
      first [reflexivity|vm_compute in Hh; discriminate Hh]|]); destruct Hq|]); destruct Hp.
Qed.
