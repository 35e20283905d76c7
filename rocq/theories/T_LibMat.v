(* Property theorems: Inverse (C72). *)
From Verif Require Import M_Syntax M_LibMat S_Field S_Matrix.
From Coq Require Import Field QArith Qcanon.
Open Scope nat_scope.

(* ---- specification: matrices as functions of row and column ---- *)
Definition value_at {F : field} (v : ex -> F) (m : ex) (i j : nat) : F :=
  match entry m i j with Some x => v x | None => f0 end.
Definition mat_mul {F : field} (n : nat) (A B : nat -> nat -> F) (i j : nat) : F :=
  fsum (List.map (fun k => fmul (A i k) (B k j)) (seq 0 n)).
Definition identity_at {F : field} (i j : nat) : F := if Nat.eqb i j then f1 else f0.
(* determinant by expansion along the first row *)
Definition skip (j k : nat) : nat := if Nat.ltb k j then k else S k.
Fixpoint det {F : field} (n : nat) (A : nat -> nat -> F) : F :=
  match n with
  | O => f1
  | S k => fsum (List.map (fun j => fmul (if Nat.even j then f1 else fopp f1)
                               (fmul (A 0 j) (det k (fun r c => A (S r) (skip j c))))) (seq 0 n))
  end.

Section with_field.
  Variable F : field.
  Add Field ff : (f_theory F).
  Variable v : ex -> F.
  Hypothesis Hv : arith_valuation F v.
  Lemma v_plus l : v (plus_ l) = fsum (List.map v l). Proof. apply (av_plus F v Hv). Qed.
  Lemma v_times l : v (times_ l) = fprod (List.map v l). Proof. apply (av_times F v Hv). Qed.
  Lemma v_recip a : v (recip a) = finv (v a).
  Proof. unfold recip. rewrite (av_power F v Hv). unfold fzpow, fpow. change (Pos.to_nat 1) with 1. cbn [List.repeat fprod fold_right]. f_equal. ring. Qed.
  Lemma v_m1 : v (EInt (-1)) = fopp f1.
  Proof. rewrite (av_int F v Hv). reflexivity. Qed.
  Lemma v_minus l : v (minus l) = fopp (fprod (List.map v l)).
  Proof. unfold minus. rewrite v_times. cbn [List.map fprod fold_right]. rewrite v_m1. fold (@fprod F (List.map v l)). ring. Qed.
  Lemma v_over a b : v (over a b) = fmul (v a) (finv (v b)).
  Proof. unfold over. rewrite v_times. cbn [List.map fprod fold_right]. rewrite v_recip. ring. Qed.
  Ltac vals := unfold value_at, mat_mul, identity_at; cbn; rewrite ?v_over, ?v_recip, ?v_minus, ?v_plus, ?v_times; cbn [List.map fsum fprod fold_right];
     rewrite ?v_over, ?v_recip, ?v_minus, ?v_plus, ?v_times; cbn [List.map fsum fprod fold_right]; rewrite ?v_over, ?v_minus, ?v_plus, ?v_times; cbn [List.map fsum fprod fold_right].
  Lemma inverse1_ok a : v a <> f0 -> let m := mkList [mkList [a]] in
    forall i j, i < 1 -> j < 1 -> mat_mul 1 (value_at v m) (value_at v (inverse1 a)) i j = identity_at i j /\ mat_mul 1 (value_at v (inverse1 a)) (value_at v m) i j = identity_at i j.
  Proof. intros Hd m i j Hi Hj. destruct i; [|lia]. destruct j; [|lia]. split; vals; field; exact Hd. Qed.
  Lemma inverse2_ok a b c d : fsub (fmul (v a) (v d)) (fmul (v b) (v c)) <> f0 -> let m := mkList [mkList [a; b]; mkList [c; d]] in
    forall i j, i < 2 -> j < 2 -> mat_mul 2 (value_at v m) (value_at v (inverse2 a b c d)) i j = identity_at i j /\ mat_mul 2 (value_at v (inverse2 a b c d)) (value_at v m) i j = identity_at i j.
  Proof.
    intros Hd m i j Hi Hj. 
    destruct i as [|[|i]]; [| |lia]; (destruct j as [|[|j]]; [| |lia]); split; vals; field;
      intro K; apply Hd; rewrite <- K; ring.
  Qed.
  Lemma inverse3_ok a b c d e f h i0 j0 : 
    fadd (fsub (fmul (v a) (fsub (fmul (v e) (v j0)) (fmul (v f) (v i0)))) (fmul (v b) (fsub (fmul (v d) (v j0)) (fmul (v f) (v h))))) (fmul (v c) (fsub (fmul (v d) (v i0)) (fmul (v e) (v h)))) <> f0 ->
    let m := mkList [mkList [a; b; c]; mkList [d; e; f]; mkList [h; i0; j0]] in
    forall i j, i < 3 -> j < 3 -> mat_mul 3 (value_at v m) (value_at v (inverse3 a b c d e f h i0 j0)) i j = identity_at i j
      /\ mat_mul 3 (value_at v (inverse3 a b c d e f h i0 j0)) (value_at v m) i j = identity_at i j.
  Proof.
    intros Hd m i j Hi Hj.
    destruct i as [|[|[|i]]]; [| | |lia]; (destruct j as [|[|[|j]]]; [| | |lia]); split; vals; field;
      intro K; apply Hd; rewrite <- K; ring.
  Qed.
  Lemma det1 A : det 1 A = A 0 0 :> F.
  Proof. cbn. ring. Qed.
  Lemma det2 A : det 2 A = fsub (fmul (A 0 0) (A 1 1)) (fmul (A 0 1) (A 1 0)) :> F.
  Proof. cbn. ring. Qed.
  Lemma det3 A : det 3 A = fadd (fsub (fmul (A 0 0) (fsub (fmul (A 1 1) (A 2 2)) (fmul (A 1 2) (A 2 1)))) (fmul (A 0 1) (fsub (fmul (A 1 0) (A 2 2)) (fmul (A 1 2) (A 2 0)))))
     (fmul (A 0 2) (fsub (fmul (A 1 0) (A 2 1)) (fmul (A 1 1) (A 2 0)))) :> F.
  Proof. cbn. ring. Qed.
End with_field.

(* A square matrix of order 1, 2 or 3 with nonzero determinant: the answer is a
   matrix of the same order and a two-sided inverse, in every field, whatever
   the values of the symbols in it are. *)
Theorem C72_inverse : forall (F : field) (v : ex -> F) n m, arith_valuation F v ->
  1 <= n <= 3 -> is_matrix n n m -> det n (value_at v m) <> f0 ->
  exists m', inverse_eval m = Some m' /\ is_matrix n n m' /\
    forall i j, i < n -> j < n ->
      mat_mul n (value_at v m) (value_at v m') i j = identity_at i j /\
      mat_mul n (value_at v m') (value_at v m) i j = identity_at i j.
Proof.
  intros F v n m Hv Hn (rows & -> & Hl & X) Hd.
  destruct n as [|[|[|[|n]]]]; [lia| | | |lia].
  - destruct rows as [|r1 [|]]; try discriminate Hl.
    destruct (X r1) as (w1 & -> & L1); [left; reflexivity|]. destruct w1 as [|a [|]]; try discriminate L1.
    exists (inverse1 a). split; [reflexivity|]. split.
    + eexists. split; [reflexivity|]. split; [reflexivity|]. intros r [<-|[]]. eexists. split; reflexivity.
    + apply inverse1_ok; [exact Hv|]. rewrite det1 in Hd. exact Hd.
  - destruct rows as [|r1 [|r2 [|]]]; try discriminate Hl.
    destruct (X r1) as (w1 & -> & L1); [left; reflexivity|]. destruct (X r2) as (w2 & -> & L2); [right; left; reflexivity|].
    destruct w1 as [|a [|b [|]]]; try discriminate L1. destruct w2 as [|c [|d [|]]]; try discriminate L2.
    exists (inverse2 a b c d). split; [reflexivity|]. split.
    + eexists. split; [reflexivity|]. split; [reflexivity|]. intros r [<-|[<-|[]]]; eexists; split; reflexivity.
    + apply inverse2_ok; [exact Hv|]. rewrite det2 in Hd. exact Hd.
  - destruct rows as [|r1 [|r2 [|r3 [|]]]]; try discriminate Hl.
    destruct (X r1) as (w1 & -> & L1); [left; reflexivity|]. destruct (X r2) as (w2 & -> & L2); [right; left; reflexivity|].
    destruct (X r3) as (w3 & -> & L3); [right; right; left; reflexivity|].
    destruct w1 as [|a [|b [|c [|]]]]; try discriminate L1. destruct w2 as [|d [|e [|f [|]]]]; try discriminate L2. destruct w3 as [|h [|i [|j [|]]]]; try discriminate L3.
    exists (inverse3 a b c d e f h i j). split; [reflexivity|]. split.
    + eexists. split; [reflexivity|]. split; [reflexivity|]. intros r [<-|[<-|[<-|[]]]]; eexists; split; reflexivity.
    + apply inverse3_ok; [exact Hv|]. rewrite det3 in Hd. exact Hd.
Qed.
Print Assumptions C72_inverse.
(* nothing else is rewritten: larger matrices, ragged or other arguments *)
Theorem C72_only_small_square : forall m m', inverse_eval m = Some m' -> exists n, 1 <= n <= 3 /\ is_matrix n n m.
Proof.
  assert (E : forall a b, ex_eqb a b = true -> a = b) by (intros a b H; apply ex_eqb_eq, H).
  intros m m' H. unfold inverse_eval in H.
  repeat match type of H with match ?x with _ => _ end = _ => destruct x eqn:?; try discriminate H end; subst;
    repeat match goal with K : _ && _ = true |- _ => apply andb_true_iff in K; destruct K | K : ex_eqb _ _ = true |- _ => apply E in K; subst end.
  - exists 1. split; [lia|]. eexists. split; [reflexivity|]. split; [reflexivity|]. intros r [<-|[]]. eexists. split; reflexivity.
  - exists 2. split; [lia|]. eexists. split; [reflexivity|]. split; [reflexivity|]. intros r [<-|[<-|[]]]; eexists; split; reflexivity.
  - exists 3. split; [lia|]. eexists. split; [reflexivity|]. split; [reflexivity|]. intros r [<-|[<-|[<-|[]]]]; eexists; split; reflexivity.
Qed.
Print Assumptions C72_only_small_square.

(* the field of rational numbers, and the valuation that gives x the value 2
   and everything that is not arithmetic the value 5 *)
Definition QcF : field := Field Qc (Q2Qc (0#1)) (Q2Qc (1#1)) Qcplus Qcmult Qcminus Qcopp Qcdiv Qcinv Qcft.
Fixpoint qval (e : ex) : QcF :=
  match e with
  | EInt z => of_int z
  | ERat n d => fdiv (of_int n : QcF) (of_int d)
  | ESym s => if String.eqb s "Global`x" then Q2Qc (2#1) else Q2Qc (5#1)
  | EExpr l =>
      let r := List.map qval l in
      match l with
      | [ESym s; _; EInt n] =>
          if String.eqb s (sysname "Power") then match tl r with b :: _ => fzpow b n | [] => f0 end
          else if String.eqb s (sysname "Plus") then fsum (tl r)
          else if String.eqb s (sysname "Times") then fprod (tl r) else Q2Qc (5#1)
      | ESym s :: _ => if String.eqb s (sysname "Plus") then fsum (tl r) else if String.eqb s (sysname "Times") then fprod (tl r) else Q2Qc (5#1)
      | _ => Q2Qc (5#1)
      end
  | _ => Q2Qc (5#1)
  end.
Lemma qval_ok : arith_valuation QcF qval.
Proof.
  constructor; try reflexivity.
  - intro l. destruct l as [|a [|b t]]; try reflexivity; destruct b; try reflexivity; destruct t; reflexivity.
  - intro l. destruct l as [|a [|b t]]; try reflexivity; destruct b; try reflexivity; destruct t; reflexivity.
Qed.
(* {{1, x}, {x, 3}}: determinant 3 - 4 = -1 *)
Definition m2 : ex := mkList [mkList [EInt 1; ESym "Global`x"]; mkList [ESym "Global`x"; EInt 3]].
Example C72_ex : is_matrix 2 2 m2 /\ det 2 (value_at qval m2) <> f0 :> QcF /\
  exists m', inverse_eval m2 = Some m' /\ value_at qval m' 0 0 = Q2Qc (-3#1) /\ value_at qval m' 0 1 = Q2Qc (2#1).
Proof.
  split; [|split].
  - eexists. split; [reflexivity|]. split; [reflexivity|]. intros r [<-|[<-|[]]]; eexists; split; reflexivity.
  - intro K. apply (f_equal (fun q => Qnum (this q))) in K. vm_compute in K. discriminate K.
  - eexists. split; [reflexivity|]. split; apply Qc_is_canon; vm_compute; reflexivity.
Qed.
