(* Property theorems: IntegerPartitions (C19), Permutations (C20). *)
From Verif Require Import M_Syntax M_Float M_Hash M_NumTheory M_Comb S_Comb P_Hash P_Comb.
From Coq Require Import Permutation.
Open Scope Z_scope.

Lemma wrap64_small z : 0 <= z < 2 ^ 63 -> wrap64 z = z.
Proof. intro H. unfold wrap64. rewrite Z.mod_small; lia. Qed.

(* ---- C19 ---- *)
Definition list_of_lists (l : list (list nat)) : ex :=
  mkList (map (fun p => mkList (map (fun i => EInt (Z.of_nat i)) p)) l).

(* exactly the partitions into at most k parts, each once, in reverse
   lexicographic order *)
Theorem C19_partitions_at_most_k : forall n k, 0 < n < 2 ^ 63 -> 0 <= k < 2 ^ 63 ->
  exists L, int_partitions_eval [EInt n; EInt k] = Some (list_of_lists L) /\
  (forall p, In p L <-> is_partition (Z.to_nat n) (Z.to_nat k) p) /\ NoDup L /\ lex_decreasing L.
Proof.
  intros n k Hn Hk. exists (gen_parts (Z.to_nat k) (Z.to_nat n) (Z.to_nat n)).
  unfold int_partitions_eval. destruct (Z.ltb_spec n 0); [lia|]. destruct (Z.eqb_spec n 0); [lia|].
  rewrite !wrap64_small by lia. split; [reflexivity|]. split; [|split].
  - intro p. rewrite gen_parts_in by lia. split; [tauto|]. intro Hp. split; [exact Hp|].
    destruct p as [|x q]; [exact I|]. destruct Hp as [Hp _]. rewrite nsum_cons in Hp. lia.
  - apply lex_dec_nodup, gen_parts_lex.
  - apply gen_parts_lex.
Qed.
Print Assumptions C19_partitions_at_most_k.

(* without k: all partitions *)
Theorem C19_partitions_all : forall n, 0 < n < 2 ^ 63 ->
  exists L, int_partitions_eval [EInt n] = Some (list_of_lists L) /\
  (forall p, In p L <-> (nsum p = Z.to_nat n /\ (forall i, In i p -> (1 <= i)%nat) /\ nonincreasing p)) /\
  NoDup L /\ lex_decreasing L.
Proof.
  intros n Hn. destruct (C19_partitions_at_most_k n n ltac:(lia) ltac:(lia)) as [L [E [M [N D]]]].
  exists L. split; [exact E|]. split; [|auto]. intro p. rewrite M. unfold is_partition.
  split; [tauto|]. intros [H1 [H2 H3]]. repeat split; try assumption. rewrite <- H1. clear - H2.
  induction p as [|x p IH]; [cbn; lia|]. rewrite nsum_cons. cbn [length].
  assert (1 <= x)%nat by (apply H2; left; reflexivity).
  assert (length p <= nsum p)%nat by (apply IH; intros; apply H2; right; assumption). lia.
Qed.
Print Assumptions C19_partitions_all.

(* 0 has the empty partition, negative numbers have none *)
Theorem C19_partitions_nonpositive : forall n, n <= 0 ->
  int_partitions_eval [EInt n] = Some (if n =? 0 then mkList [mkList []] else mkList []).
Proof.
  intros n H. unfold int_partitions_eval. destruct (Z.ltb_spec n 0), (Z.eqb_spec n 0); try lia; reflexivity.
Qed.
Print Assumptions C19_partitions_nonpositive.

(* large arguments are truncated to 64 bits: 2^64 + 3 gives the partitions of 3 *)
Theorem C19_large_refuted : exists n, 0 < n /\
  int_partitions_eval [EInt n] = Some (list_of_lists [[3]; [2; 1]; [1; 1; 1]]%nat).
Proof. exists (2 ^ 64 + 3). split; [lia|reflexivity]. Qed.
Print Assumptions C19_large_refuted.

Example C19_ex : int_partitions_eval [EInt 5; EInt 2] = Some (list_of_lists [[5]; [4; 1]; [3; 2]]%nat).
Proof. reflexivity. Qed.

(* ---- C20 ---- *)
(* every listed permutation is one, and none is listed twice *)
Theorem C20_permutations_sound : forall h l, l <> [] ->
  exists L, permutations_eval [EExpr (h :: l)] = Some (mkList (map mkList L)) /\
  NoDup L /\ forall p, In p L -> Permutation p l.
Proof.
  intros h l Hl. eexists. split; [reflexivity|]. split; [apply gen_perms_nodup|].
  intros p H. apply (gen_perms_sound (length l)); [reflexivity|exact H].
Qed.
Print Assumptions C20_permutations_sound.

(* all are listed when SameQ tells the elements apart *)
Theorem C20_permutations_complete_partial : forall h l, l <> [] -> sameq_faithful l ->
  exists L, permutations_eval [EExpr (h :: l)] = Some (mkList (map mkList L)) /\
  NoDup L /\ forall p, In p L <-> Permutation p l.
Proof.
  intros h l Hl F. eexists. split; [reflexivity|]. split; [apply gen_perms_nodup|].
  intro p. split; [apply gen_perms_sound; reflexivity|apply gen_perms_complete; auto].
Qed.
Print Assumptions C20_permutations_complete_partial.

(* the empty list has one permutation, but the result is {} *)
Theorem C20_empty_refuted : forall h, permutations_eval [EExpr [h]] = Some (mkList []).
Proof. reflexivity. Qed.
Print Assumptions C20_empty_refuted.

Definition sym_a := ESym "Global`a". Definition sym_b := ESym "Global`b".
Example C20_ex_hyp : sameq_faithful [sym_a; sym_a; sym_b].
Proof.
  assert (N : is_sameq sym_a sym_b = false) by (vm_compute; reflexivity).
  assert (N' : is_sameq sym_b sym_a = false) by (rewrite sameq_sym; exact N).
  intros x y [<-|[<-|[<-|[]]]] [<-|[<-|[<-|[]]]] H; try reflexivity; congruence.
Qed.
Example C20_ex : permutations_eval [mkList [sym_a; sym_a; sym_b]] =
  Some (mkList [mkList [sym_a; sym_a; sym_b]; mkList [sym_a; sym_b; sym_a]; mkList [sym_b; sym_a; sym_a]]).
Proof. vm_compute. reflexivity. Qed.
