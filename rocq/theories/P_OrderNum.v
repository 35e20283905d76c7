(* Order on exact reals. *)
From Verif Require Import M_Syntax M_Float M_Order S_Syntax S_Order S_Num P_Float P_Order.
From Coq Require Import QArith Qfield.
Open Scope Z_scope.

Lemma order_ints x y : ex_order (EInt x) (EInt y) = cmp2z (y ?= x).
Proof. rewrite ex_order_eq. reflexivity. Qed.

(* n/d as sign-normalised fraction *)
Lemma qdiv_norm n d : d <> 0 -> (inject_Z n / inject_Z d == (Z.sgn d * n) # (Z.to_pos (Z.abs d)))%Q.
Proof.
  intro Hd. unfold Qeq, Qdiv, Qmult, Qinv, inject_Z; cbn.
  destruct d as [|p|p]; [contradiction| |]; cbn; destruct n; cbn; rewrite ?Pos.mul_1_r; reflexivity.
Qed.

Lemma rat_le_order n d n' d' : d <> 0 -> d' <> 0 ->
  num_le (ERat n d) (ERat n' d') -> 0 <= ex_order (ERat n d) (ERat n' d').
Proof.
  intros Hd Hd' [p [q [Hp [Hq Hle]]]]. cbn in Hp, Hq.
  apply Z.eqb_neq in Hd as E1. rewrite E1 in Hp. injection Hp as <-.
  apply Z.eqb_neq in Hd' as E2. rewrite E2 in Hq. injection Hq as <-.
  rewrite (qdiv_norm n d), (qdiv_norm n' d') in Hle by assumption.
  unfold Qle in Hle. cbn [Qnum Qden] in Hle. rewrite !Z2Pos.id in Hle by lia.
  pose proof (fround_mono (Z.sgn d * n) (Z.abs d) (Z.sgn d' * n') (Z.abs d')
    ltac:(lia) ltac:(lia) Hle) as F.
  rewrite ex_order_eq. cbn [order_step as_flt is_int]. unfold cmp_flts, rat_to_flt.
  rewrite E1, E2. unfold fle in F. rewrite fcmp_opp.
  destruct (fcmp (fround (Z.sgn d * n) (Z.abs d)) (fround (Z.sgn d' * n') (Z.abs d')));
    cbn; [lia|lia|contradiction].
Qed.
