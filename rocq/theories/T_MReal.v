(* C122: sums and products of machine reals. *)
From Verif Require Import M_Syntax M_Float P_Float M_Order S_Num S_Sort M_Sort P_Sort M_Num M_Arith M_N S_N S_MReal T_N P_Num.
From Coq Require Import QArith Qpower Qabs Qfield Lqa Lia String ZArith List Permutation Sorted.
Open Scope Q_scope.

Definition u : Q := (2 # 1) ^ (-53).
Lemma u_pos : 0 < u. Proof. reflexivity. Qed.
Lemma u_small : u <= 1 # 8. Proof. vm_compute. discriminate. Qed.
Definition G (k : nat) : Q := (1 + u) ^ Z.of_nat k.
Lemma drift_G k : drift k = G k - 1. Proof. reflexivity. Qed.
Lemma one_u : ~ 1 + u == 0. Proof. pose proof u_pos. lra. Qed.
Lemma G_0 : G 0 == 1. Proof. reflexivity. Qed.
Lemma G_plus j k : G (j + k) == G j * G k.
Proof. unfold G. rewrite Nat2Z.inj_add. apply Qpower_plus. exact one_u. Qed.
Lemma G_1 : G 1 == 1 + u. Proof. unfold G. reflexivity. Qed.
Lemma G_ge k : 1 <= G k.
Proof.
  induction k as [|k IH]; [rewrite G_0; lra|].
  change (Datatypes.S k) with (1 + k)%nat. rewrite G_plus, G_1. pose proof u_pos. nra.
Qed.
Lemma G_S k : G (k + 1) == G k * (1 + u). Proof. rewrite G_plus, G_1. reflexivity. Qed.
Lemma G_mono j k : (j <= k)%nat -> G j <= G k.
Proof.
  intro H. replace k with (j + (k - j))%nat by lia. rewrite G_plus. pose proof (G_ge j). pose proof (G_ge (k - j)). nra.
Qed.
Global Opaque u.

Lemma abs2 x b : - b <= x <= b -> Qabs x <= b.
Proof. intros [A B]. apply Qabs_case; intros; lra. Qed.
Lemma abs_le x b : Qabs x <= b -> - b <= x <= b.
Proof. revert b. intros b. apply Qabs_case; intros; lra. Qed.

(* [approx k m x f]: f is x after at most k roundings of things no larger than m *)
Definition approx (k : nat) (m x : Q) (f : flt) : Prop :=
  exists y, flt_q f = Some y /\ Qabs x <= m /\ Qabs (y - x) <= (G k - 1) * m.

Lemma approx_proper k m m' x x' f : m == m' -> x == x' -> approx k m x f -> approx k m' x' f.
Proof. intros E E' [y [Y [M A]]]. exists y. rewrite <- E, <- E'. auto. Qed.
Lemma approx_mono j k m x f : (j <= k)%nat -> approx j m x f -> approx k m x f.
Proof.
  intros H [y [Y [M A]]]. exists y. split; [exact Y|]. split; [exact M|]. pose proof (G_mono j k H).
  pose proof (Qabs_nonneg x). nra.
Qed.

(* rounding once *)
Definition rounded (f : flt) (x : Q) : Prop :=
  nearest f x /\ exists y, flt_q f = Some y /\ Qabs (y - x) <= u * Qabs x.

Lemma fround_rounded n d x : (0 < d)%Z -> inject_Z n / inject_Z d == x -> rounded (fround n d) x.
Proof.
  intros D E. pose proof (fround_nearest n d D) as N. split; [exact (nearest_ext _ _ _ E N)|].
  destruct N as [y [Y _]]. exists y. split; [exact Y|]. rewrite <- E. apply fround_error; assumption.
Qed.

Lemma zero_rounded b x : x == 0 -> rounded (FFin b 0 0 0) x.
Proof.
  intro E. assert (Z : exists y, flt_q (FFin b 0 0 0) = Some y /\ y == 0).
  { eexists. split; [reflexivity|]. destruct b; reflexivity. }
  destruct Z as [y [Y Y0]]. split.
  - exists y. split; [exact Y|]. split.
    + exists 0%Z, 0%Z. split; [reflexivity|]. rewrite Y0. reflexivity.
    + intros z _. assert (Qabs (y - x) == 0) as -> by (setoid_replace (y - x) with 0 by (rewrite Y0, E; ring); reflexivity).
      apply Qabs_nonneg.
  - exists y. split; [exact Y|]. setoid_replace (y - x) with 0 by (rewrite Y0, E; ring).
    rewrite E. change (Qabs 0) with 0. lra.
Qed.

Lemma fscaled_rounded n k b x : x == inject_Z n * (2 # 1) ^ k -> rounded (fscaled n k b) x.
Proof.
  intro E. unfold fscaled. destruct (Z.eqb_spec n 0) as [->|N].
  { apply zero_rounded. rewrite E. change (inject_Z 0) with 0. ring. }
  destruct (Z.leb_spec 0 k) as [K|K].
  - apply fround_rounded; [lia|]. rewrite E, inject_Z_mult, <- p2_z by exact K. change (inject_Z 1) with 1. field.
  - apply fround_rounded; [apply pow2_pos; lia|]. rewrite E. rewrite <- p2_z by lia.
    rewrite Qpower_opp. field. apply p2_nz.
Qed.

Lemma flt_q_smant f y : flt_q f = Some y -> exists s m e a, f = FFin s m e a /\ y == inject_Z (smant s m) * (2 # 1) ^ e.
Proof.
  destruct f as [b|s m e a]; [discriminate|]. intro H. injection H as <-. exists s, m, e, a. split; [reflexivity|].
  unfold smant. destruct s; [rewrite inject_Z_opp|]; reflexivity.
Qed.

Lemma p2_shift e k : (k <= e)%Z -> inject_Z (2 ^ (e - k)) * (2 # 1) ^ k == (2 # 1) ^ e.
Proof. intro H. rewrite <- p2_z by lia. rewrite <- p2_plus. replace (e - k + k)%Z with e by lia. reflexivity. Qed.

Lemma fadd_rounded f g x y : flt_q f = Some x -> flt_q g = Some y -> rounded (fadd f g) (x + y).
Proof.
  intros F H. destruct (flt_q_smant f x F) as [s [m [e [a [-> X]]]]]. destruct (flt_q_smant g y H) as [s' [m' [e' [a' [-> Y]]]]].
  cbn [fadd]. apply fscaled_rounded. rewrite X, Y.
  rewrite <- (p2_shift e (Z.min e e')) by lia. rewrite <- (p2_shift e' (Z.min e e')) by lia.
  rewrite inject_Z_plus, !inject_Z_mult. ring.
Qed.
Lemma fmul_rounded f g x y : flt_q f = Some x -> flt_q g = Some y -> rounded (fmul f g) (x * y).
Proof.
  intros F H. destruct (flt_q_smant f x F) as [s [m [e [a [-> X]]]]]. destruct (flt_q_smant g y H) as [s' [m' [e' [a' [-> Y]]]]].
  cbn [fmul]. apply fscaled_rounded. rewrite X, Y. rewrite inject_Z_mult, p2_plus. ring.
Qed.
Lemma flt_flt_rounded fn f g x y : flt_q f = Some x -> flt_q g = Some y -> rounded (flt_flt fn f g) (opq fn x y).
Proof. destruct fn; [apply fadd_rounded|apply fmul_rounded]. Qed.

Lemma approx_op fn j k m x f m' x' f' : approx j m x f -> approx k m' x' f' ->
  approx (j + k + 1) (opq fn m m') (opq fn x x') (flt_flt fn f f').
Proof.
  intros [y [Y [M A]]] [y' [Y' [M' A']]].
  destruct (flt_flt_rounded fn f f' y y' Y Y') as [_ [z [Z B]]].
  exists z. split; [exact Z|].
  pose proof (Qabs_nonneg x) as P. pose proof (Qabs_nonneg x') as P'.
  pose proof (G_ge j) as Gj. pose proof (G_ge k) as Gk. pose proof u_pos as U.
  assert (GS : G (j + k + 1) == G j * G k * (1 + u)) by (rewrite G_S, G_plus; reflexivity).
  destruct fn; cbn [opq] in *.
  - split; [eapply Qle_trans; [apply Qabs_triangle|]; lra|].
    assert (GG : G j <= G j * G k) by nra. assert (GG' : G k <= G j * G k) by nra.
    assert (Hm : 0 <= m) by lra. assert (Hm' : 0 <= m') by lra.
    assert (H1 : (G j - 1) * m <= (G j * G k - 1) * m) by (apply Qmult_le_compat_r; lra).
    assert (H2 : (G k - 1) * m' <= (G j * G k - 1) * m') by (apply Qmult_le_compat_r; lra).
    assert (H4 : Qabs (y - x) <= (G j * G k - 1) * m) by (eapply Qle_trans; eassumption).
    assert (H5 : Qabs (y' - x') <= (G j * G k - 1) * m') by (eapply Qle_trans; eassumption).
    assert (H3 : Qabs (y + y') <= G j * G k * (m + m')).
    { clear - H4 H5 M M'. apply abs_le in H4, H5, M, M'. apply abs2. split; lra. }
    rewrite GS. assert (H6 : u * Qabs (y + y') <= u * (G j * G k * (m + m'))) by nra.
    assert (H7 : Qabs (z - (y + y')) <= u * (G j * G k * (m + m'))) by (eapply Qle_trans; eassumption).
    clear - H4 H5 H7. apply abs_le in H4, H5, H7. apply abs2. split; lra.
  - split; [rewrite Qabs_Qmult; nra|].
    assert (Hy : Qabs y <= G j * m).
    { apply abs_le in A, M. apply abs2. split; lra. }
    assert (Hm' : 0 <= m') by lra. assert (Hm : 0 <= m) by lra.
    assert (H1 : Qabs (y * y' - x * x') <= (G j * G k - 1) * (m * m')).
    { setoid_replace (y * y' - x * x') with (y * (y' - x') + (y - x) * x') by ring.
      eapply Qle_trans; [apply Qabs_triangle|]. rewrite !Qabs_Qmult.
      pose proof (Qabs_nonneg y) as Py. pose proof (Qabs_nonneg (y' - x')) as Pd. pose proof (Qabs_nonneg (y - x)) as Pe.
      assert (T1 : Qabs y * Qabs (y' - x') <= (G j * m) * ((G k - 1) * m')).
      { apply Qle_trans with ((G j * m) * Qabs (y' - x')); [nra|]. assert (0 <= G j * m) by nra. nra. }
      assert (T2 : Qabs (y - x) * Qabs x' <= ((G j - 1) * m) * m').
      { apply Qle_trans with (((G j - 1) * m) * Qabs x'); [nra|]. assert (0 <= (G j - 1) * m) by nra. nra. }
      lra. }
    assert (H2 : Qabs (y * y') <= G j * G k * (m * m')).
    { assert (Hx : Qabs (x * x') <= m * m') by (rewrite Qabs_Qmult; nra).
      apply abs_le in H1, Hx. apply abs2. split; lra. }
    rewrite GS. assert (H6 : u * Qabs (y * y') <= u * (G j * G k * (m * m'))) by nra.
    assert (H7 : Qabs (z - (y * y')) <= u * (G j * G k * (m * m'))) by (eapply Qle_trans; eassumption).
    clear - H1 H7. apply abs_le in H1, H7. apply abs2. split; lra.
Qed.

(* converting exact numbers *)
Lemma int_approx i m : Qabs (inject_Z i) <= m -> approx 1 m (inject_Z i) (int_to_flt i).
Proof.
  intro M. unfold int_to_flt. destruct (fround_rounded i 1 (inject_Z i) ltac:(lia)) as [_ [y [Y E]]].
  { change (inject_Z 1) with 1. field. }
  exists y. split; [exact Y|]. split; [exact M|]. rewrite G_1. pose proof u_pos. nra.
Qed.

Lemma rat_const : 2 * u / (1 - u) <= G 3 - 1.
Proof.
  pose proof u_pos. pose proof u_small. assert (G 3 == (1 + u) * (1 + u) * (1 + u)) as E.
  { change 3%nat with (1 + (1 + 1))%nat. rewrite !G_plus, !G_1. ring. }
  rewrite E. apply Qle_shift_div_r; [lra|]. nra.
Qed.

Lemma fquo_rounded f g x y : flt_q f = Some x -> flt_q g = Some y -> ~ y == 0 -> rounded (fquo f g) (x / y).
Proof.
  intros F H NZ. destruct (flt_q_smant f x F) as [s [m [e [a [-> X]]]]]. destruct (flt_q_smant g y H) as [s' [m' [e' [a' [-> Y]]]]].
  cbn [fquo]. destruct (N.eqb_spec m' 0) as [->|M'].
  { exfalso. apply NZ. rewrite Y. destruct s'; reflexivity. }
  assert (D : ~ inject_Z (Z.of_N m') == 0).
  { change 0 with (inject_Z 0). rewrite inject_Z_injective. lia. }
  assert (Ne : forall z b, inject_Z (smant b z) == (if b then -(1) else 1) * inject_Z (Z.of_N z)).
  { intros z b. unfold smant. destruct b; [rewrite inject_Z_opp|]; ring. }
  rewrite !Ne in *.
  destruct (N.eqb_spec m 0) as [->|M].
  { apply zero_rounded. rewrite X. change (inject_Z (Z.of_N 0)) with 0. unfold Qdiv. ring. }
  apply fround_rounded.
  { assert (0 < 2 ^ Z.max (e' - e) 0)%Z by (apply pow2_pos; lia). lia. }
  rewrite X, Y, !inject_Z_mult, Ne.
  assert (P : (2 # 1) ^ e * inject_Z (2 ^ Z.max (e' - e) 0) == (2 # 1) ^ e' * inject_Z (2 ^ Z.max (e - e') 0)).
  { rewrite <- !p2_z by lia. rewrite <- !p2_plus.
    replace (e + Z.max (e' - e) 0)%Z with (e' + Z.max (e - e') 0)%Z by lia. reflexivity. }
  assert (NN : ~ inject_Z (2 ^ Z.max (e' - e) 0) == 0) by (intro K; pose proof (inject_pow_pos (Z.max (e' - e) 0) ltac:(lia)); lra).
  pose proof (p2_nz e') as NP.
  set (A := (2 # 1) ^ e) in *. set (B := (2 # 1) ^ e') in *.
  set (C := inject_Z (2 ^ Z.max (e - e') 0)) in *. set (E := inject_Z (2 ^ Z.max (e' - e) 0)) in *.
  set (v := inject_Z (Z.of_N m)) in *. set (w := inject_Z (Z.of_N m')) in *. clearbody A B C E v w. clear - P NN NP D.
  assert (A == B * C / E) as -> by (rewrite <- P; field; exact NN).
  destruct s, s'; cbn [xorb]; field; repeat split; auto.
Qed.

Lemma rat_approx n d m : d <> 0%Z -> Qabs (inject_Z n / inject_Z d) <= m ->
  approx 4 m (inject_Z n / inject_Z d) (rat_big_float n d).
Proof.
  intros D M. assert (D' : ~ inject_Z d == 0) by (change 0 with (inject_Z 0); rewrite inject_Z_injective; exact D).
  unfold rat_big_float, int_to_flt.
  destruct (fround_rounded n 1 (inject_Z n) ltac:(lia) ltac:(change (inject_Z 1) with 1; field)) as [_ [a [A EA]]].
  destruct (fround_rounded d 1 (inject_Z d) ltac:(lia) ltac:(change (inject_Z 1) with 1; field)) as [_ [b [B EB]]].
  set (n' := inject_Z n) in *. set (d' := inject_Z d) in *. clearbody n' d'. pose proof u_pos as U. pose proof u_small as V.
  assert (P : 0 < Qabs d').
  { revert D'. clear. intro D'. apply Qabs_case; intro; destruct (Qlt_le_dec 0 d'), (Qlt_le_dec d' 0); try lra; exfalso; apply D'; lra. }
  assert (Hb : (1 - u) * Qabs d' <= Qabs b).
  { clear - EB. revert EB. repeat apply Qabs_case; intros; nra. }
  assert (Pb : 0 < Qabs b) by nra.
  assert (Nb : ~ b == 0) by (intro K; rewrite K in Pb; change (Qabs 0) with 0 in Pb; lra).
  destruct (fquo_rounded _ _ a b A B Nb) as [_ [q [Q E]]].
  exists q. split; [exact Q|]. split; [exact M|].
  assert (T : Qabs (a / b - n' / d') <= (G 3 - 1) * Qabs (n' / d')).
  { setoid_replace (a / b - n' / d') with (((a - n') * d' - n' * (b - d')) * (/ (b * d'))) by (field; auto).
    rewrite Qabs_Qmult. setoid_replace (Qabs (/ (b * d'))) with (/ (Qabs b * Qabs d')).
    2: { rewrite <- Qabs_Qmult. symmetry. assert (NZ : ~ b * d' == 0) by (intro K; apply Qmult_integral in K; tauto).
         revert NZ. generalize (b * d'). clear. intros z NZ. destruct z as [[|p|p] q]; [exfalso; apply NZ; reflexivity| |]; reflexivity. }
    setoid_replace (Qabs (n' / d')) with (Qabs n' * / Qabs d').
    2: { unfold Qdiv. rewrite Qabs_Qmult. rewrite (Qabs_Qinv d'). reflexivity. }
    assert (N1 : Qabs ((a - n') * d' - n' * (b - d')) <= 2 * u * Qabs n' * Qabs d').
    { eapply Qle_trans; [apply Qabs_triangle|]. rewrite Qabs_opp, !Qabs_Qmult.
      pose proof (Qabs_nonneg n'). nra. }
    apply Qle_trans with ((2 * u * Qabs n' * Qabs d') * / (Qabs b * Qabs d')).
    { apply Qmult_le_compat_r; [exact N1|]. apply Qinv_le_0_compat. nra. }
    setoid_replace (2 * u * Qabs n' * Qabs d' * / (Qabs b * Qabs d')) with (2 * u * Qabs n' * / Qabs b).
    2: { field. split; intro K; lra. }
    apply Qle_trans with (2 * u / (1 - u) * (Qabs n' * / Qabs d')).
    - setoid_replace (2 * u / (1 - u) * (Qabs n' * / Qabs d')) with (2 * u * Qabs n' * / ((1 - u) * Qabs d')).
      2: { field. split; intro K; lra. }
      assert (I : / Qabs b <= / ((1 - u) * Qabs d')).
      { assert (Pd : 0 < (1 - u) * Qabs d') by nra. revert Hb Pb Pd. generalize (Qabs b) ((1 - u) * Qabs d'). clear.
        intros x y L X Y. apply Qle_shift_inv_l; [exact Y|]. setoid_replace (/ x * y) with (y / x) by (unfold Qdiv; ring).
        apply Qle_shift_div_r; [exact X|]. lra. }
      assert (0 <= 2 * u * Qabs n') by (pose proof (Qabs_nonneg n'); nra). nra.
    - apply Qmult_le_compat_r; [exact rat_const|]. apply Qmult_le_0_compat; [apply Qabs_nonneg|]. apply Qinv_le_0_compat. lra. }
  assert (H1 : Qabs (a / b) <= G 3 * Qabs (n' / d')).
  { clear - T. revert T. generalize (a / b) (n' / d') (G 3). clear. intros x y g T.
    setoid_replace x with ((x - y) + y) by ring. eapply Qle_trans; [apply Qabs_triangle|]. lra. }
  change 4%nat with (3 + 1)%nat. rewrite G_S.
  assert (H2 : Qabs (q - n' / d') <= (G 3 * (1 + u) - 1) * Qabs (n' / d')).
  { setoid_replace (q - n' / d') with ((q - a / b) + (a / b - n' / d')) by ring.
    eapply Qle_trans; [apply Qabs_triangle|]. pose proof (G_ge 3).
    assert (u * Qabs (a / b) <= u * (G 3 * Qabs (n' / d'))) by nra. lra. }
  pose proof (G_ge 3). eapply Qle_trans; [exact H2|].
  assert (0 <= G 3 * (1 + u) - 1) by nra. nra.
Qed.

(* ---- the accumulators of the numeric part ---- *)
Definition okI (fn : fold_fn) (o : option Z) (m x : Q) : Prop :=
  match o with Some z => x == inject_Z z /\ Qabs x <= m | None => x == unitq fn /\ m == unitq fn end.
Definition okR (fn : fold_fn) (o : option (Z * Z)) (m x : Q) : Prop :=
  match o with
  | Some (n, d) => d <> 0%Z /\ x == inject_Z n / inject_Z d /\ Qabs x <= m
  | None => x == unitq fn /\ m == unitq fn
  end.
Definition okF (fn : fold_fn) (k : nat) (o : option flt) (m x : Q) : Prop :=
  match o with Some f => approx k m x f | None => x == unitq fn /\ m == unitq fn end.

Lemma opq_abs fn x y m n : Qabs x <= m -> Qabs y <= n -> Qabs (opq fn x y) <= opq fn m n.
Proof.
  intros X Y. destruct fn; cbn [opq].
  - eapply Qle_trans; [apply Qabs_triangle|]. lra.
  - rewrite Qabs_Qmult. pose proof (Qabs_nonneg x). pose proof (Qabs_nonneg y). nra.
Qed.
Global Instance opq_prop fn : Proper (Qeq ==> Qeq ==> Qeq) (opq fn).
Proof. intros a b H c d K. apply opq_proper; assumption. Qed.

(* [st fn k a m x]: the accumulators together stand for x *)
Definition st (fn : fold_fn) (k : nat) (a : acc) (m x : Q) : Prop :=
  aC a = None /\
  exists mi xi mr xr mf xf, okI fn (aI a) mi xi /\ okR fn (aR a) mr xr /\ okF fn k (aF a) mf xf /\
    m == opq fn (opq fn mi mr) mf /\ x == opq fn (opq fn xi xr) xf.

Lemma opq_swap fn a b c d : opq fn (opq fn (opq fn a b) c) d == opq fn (opq fn (opq fn a b) d) c.
Proof. destruct fn; cbn; ring. Qed.
Lemma opq_in1 fn a b c d : opq fn (opq fn (opq fn a b) c) d == opq fn (opq fn (opq fn a d) b) c.
Proof. destruct fn; cbn; ring. Qed.
Lemma opq_in2 fn a b c d : opq fn (opq fn (opq fn a b) c) d == opq fn (opq fn a (opq fn b d)) c.
Proof. destruct fn; cbn; ring. Qed.
Lemma opq_in3 fn a b c d : opq fn (opq fn (opq fn a b) c) d == opq fn (opq fn a b) (opq fn c d).
Proof. destruct fn; cbn; ring. Qed.
Lemma opq_unit_r fn x : opq fn x (unitq fn) == x. Proof. destruct fn; cbn; ring. Qed.

Lemma st_step fn k a m x e q : st fn k a m x -> rval e = Some q ->
  exists a', acc_num fn a e = Some a' /\ st fn (k + 1) a' (opq fn m (Qabs q)) (opq fn x q) /\
    (is_flt e = true -> aF a' <> None) /\ (aF a <> None -> aF a' <> None).
Proof.
  intros [C [mi [xi [mr [xr [mf [xf [OI [OR [OF [M X]]]]]]]]]]] V.
  assert (OF' : okF fn (k + 1) (aF a) mf xf).
  { unfold okF in *. destruct (aF a); [|exact OF]. eapply approx_mono; [|exact OF]. lia. }
  destruct e as [s|s|z|n d|f|b c|l]; try discriminate V; cbn [rval qval is_flt acc_num acc_real] in *.
  - injection V as <-. eexists. split; [reflexivity|]. split; [|split; [discriminate|intro K; exact K]]. split; [exact C|].
    cbn [aI aR aF aC]. exists (opq fn mi (Qabs (inject_Z z))), (opq fn xi (inject_Z z)), mr, xr, mf, xf.
    split; [|split; [exact OR|split; [exact OF'|split]]].
    + destruct (aI a) as [y|]; cbn [okI] in *.
      * destruct OI as [E L]. split; [rewrite int_op_q, E; reflexivity|]. apply opq_abs; [exact L|lra].
      * destruct OI as [E1 E2]. rewrite E1, E2, !opq_unit. split; [reflexivity|lra].
    + rewrite M. apply opq_in1.
    + rewrite X. apply opq_in1.
  - destruct (Z.eqb_spec d 0) as [|D]; [discriminate V|]. injection V as <-.
    eexists. split; [reflexivity|]. split; [|split; [discriminate|intro K; exact K]]. split; [exact C|].
    cbn [aI aR aF aC].
    set (q := inject_Z n / inject_Z d).
    exists mi, xi, (opq fn mr (Qabs q)), (opq fn xr q), mf, xf.
    split; [exact OI|split; [|split; [exact OF'|split]]].
    + destruct (aR a) as [[n0 d0]|]; cbn [okR] in *.
      * destruct OR as [D0 [E L]]. destruct (rat_rat_q fn n0 d0 n d D0 D) as [V V'].
        destruct (rat_rat fn (n0, d0) (n, d)) as [n2 d2]. cbn [fst snd] in *.
        split; [exact V'|]. split; [rewrite V, E; reflexivity|]. apply opq_abs; [exact L|lra].
      * destruct OR as [E1 E2]. split; [exact D|]. rewrite E1, E2, !opq_unit. split; [reflexivity|lra].
    + rewrite M. apply opq_in2.
    + rewrite X. apply opq_in2.
  - eexists. split; [reflexivity|]. cbn [aI aR aF aC]. split; [|split; [discriminate|discriminate]]. split; [exact C|].
    cbn [aI aR aF aC].
    exists mi, xi, mr, xr, (opq fn mf (Qabs q)), (opq fn xf q).
    split; [exact OI|split; [exact OR|split; [|split]]].
    + assert (A0 : approx 0 (Qabs q) q f).
      { exists q. split; [exact V|]. split; [lra|]. setoid_replace (q - q) with 0 by ring. change (Qabs 0) with 0.
        pose proof (Qabs_nonneg q). rewrite G_0. nra. }
      destruct (aF a) as [g|]; cbn [okF] in *.
      * replace (k + 1)%nat with (k + 0 + 1)%nat by lia. apply approx_op; assumption.
      * destruct OF as [E1 E2]. apply (approx_mono 0); [lia|].
        apply (approx_proper 0 (Qabs q) _ q _ f); [rewrite E2; symmetry; apply opq_unit|rewrite E1; symmetry; apply opq_unit|exact A0].
    + rewrite M. apply opq_in3.
    + rewrite X. apply opq_in3.
Qed.

Definition foldl (fn : fold_fn) (qs : list Q) : Q := fold_right (opq fn) (unitq fn) qs.

Lemma np_values fn l : forall qs k a m x, values l qs -> st fn k a m x ->
  exists a', np fn a l = (typed_real_part fn a', []) /\
    st fn (k + length l) a' (opq fn m (foldl fn (map Qabs qs))) (opq fn x (foldl fn qs)) /\
    (existsb is_flt l = true -> aF a' <> None) /\ (aF a <> None -> aF a' <> None).
Proof.
  induction l as [|e l IH]; intros qs k a m x V S.
  - inversion V; subst. exists a. split; [reflexivity|]. split; [|split; [discriminate|auto]].
    cbn [foldl map fold_right length]. rewrite Nat.add_0_r. destruct S as [C [mi [xi [mr [xr [mf [xf [OI [OR [OF [M X]]]]]]]]]]].
    split; [exact C|]. exists mi, xi, mr, xr, mf, xf. rewrite !opq_unit_r. auto.
  - inversion V as [|? q ? qs' V1 V2]; subst. destruct (st_step fn k a m x e q S V1) as [a1 [A1 [S1 [F1 F2]]]].
    destruct (IH qs' _ _ _ _ V2 S1) as [a2 [A2 [S2 [F3 F4]]]]. exists a2. cbn [np]. rewrite A1. split; [exact A2|]. split.
    + cbn [foldl map fold_right length]. replace (k + Datatypes.S (length l))%nat with (k + 1 + length l)%nat by lia.
      destruct S2 as [C [mi [xi [mr [xr [mf [xf [OI [OR [OF [M X]]]]]]]]]]].
      split; [exact C|]. exists mi, xi, mr, xr, mf, xf. split; [exact OI|]. split; [exact OR|]. split; [exact OF|].
      rewrite <- M, <- X. split; symmetry; apply opq_assoc.
    + split.
      * cbn [existsb]. intro E. apply Bool.orb_true_iff in E as [E|E]; auto.
      * auto.
Qed.

Lemma st_final fn k a m x : st fn k a m x -> aF a <> None ->
  exists f, typed_real_part fn a = Some (EFlt f) /\ approx (k + 7) m x f.
Proof.
  intros [C [mi [xi [mr [xr [mf [xf [OI [OR [OF [M X]]]]]]]]]]] NF.
  unfold typed_real_part, real_part. rewrite C. destruct (aF a) as [f|]; [|contradiction]. cbn [okF] in OF.
  assert (R : exists f1, match aR a with Some (n, d) => flt_flt fn f (rat_big_float n d) | None => f end = f1 /\
    approx (k + 5) (opq fn mf mr) (opq fn xf xr) f1).
  { eexists. split; [reflexivity|]. destruct (aR a) as [[n d]|]; cbn [okR] in OR.
    - destruct OR as [D [E L]]. replace (k + 5)%nat with (k + 4 + 1)%nat by lia.
      apply (approx_proper _ _ _ (opq fn xf (inject_Z n / inject_Z d)) _ _ (Qeq_refl _)); [rewrite E; reflexivity|].
      apply approx_op; [exact OF|]. apply rat_approx; [exact D|]. rewrite <- E. exact L.
    - destruct OR as [E1 E2]. apply (approx_mono k); [lia|].
      apply (approx_proper _ mf _ xf); [rewrite E2; symmetry; apply opq_unit_r|rewrite E1; symmetry; apply opq_unit_r|exact OF]. }
  destruct R as [f1 [E1 A1]]. rewrite E1. clear E1.
  eexists. split; [reflexivity|].
  apply (approx_proper _ (opq fn (opq fn mf mr) mi) _ (opq fn (opq fn xf xr) xi)).
  { rewrite M. destruct fn; cbn; ring. } { rewrite X. destruct fn; cbn; ring. }
  destruct (aI a) as [i|]; cbn [okI] in OI.
  - destruct OI as [E L]. replace (k + 7)%nat with (k + 5 + 1 + 1)%nat by lia.
    apply (approx_proper _ (opq fn (opq fn mf mr) mi) _ (opq fn (opq fn xf xr) (inject_Z i)) _ _ (Qeq_refl _)); [rewrite E; reflexivity|].
    apply approx_op; [exact A1|]. apply int_approx. rewrite <- E. exact L.
  - destruct OI as [E1 E2]. apply (approx_mono (k + 5)); [lia|].
    apply (approx_proper _ (opq fn mf mr) _ (opq fn xf xr)); [rewrite E2; symmetry; apply opq_unit_r|rewrite E1; symmetry; apply opq_unit_r|exact A1].
Qed.

Lemma numeric_real fn l qs : values l qs -> existsb is_flt l = true ->
  exists f, compute_numeric_part fn l = (Some (EFlt f), []) /\ approx (length l + 7) (foldl fn (map Qabs qs)) (foldl fn qs) f.
Proof.
  intros V F. assert (S0 : st fn 0 acc0 (unitq fn) (unitq fn)).
  { split; [reflexivity|]. exists (unitq fn), (unitq fn), (unitq fn), (unitq fn), (unitq fn), (unitq fn).
    cbn. repeat split; destruct fn; cbn; ring. }
  destruct (np_values fn l qs 0 acc0 _ _ V S0) as [a [A [S [F1 _]]]].
  destruct (st_final fn _ a _ _ S (F1 F)) as [f [E P]]. exists f. unfold compute_numeric_part. rewrite A, E.
  split; [reflexivity|]. cbn [Nat.add] in P. eapply approx_proper; [| |exact P]; apply opq_unit.
Qed.

Lemma size_fold qs : foldl FoldAdd (map Qabs qs) == size qs.
Proof.
  induction qs as [|q qs IH]; [reflexivity|].
  change (Qabs q + foldl FoldAdd (map Qabs qs) == Qabs q + size qs). rewrite IH. reflexivity.
Qed.
Lemma prod_abs qs : foldl FoldMul (map Qabs qs) == Qabs (prod qs).
Proof.
  induction qs as [|q qs IH]; [reflexivity|].
  change (Qabs q * foldl FoldMul (map Qabs qs) == Qabs (q * prod qs)). rewrite IH, Qabs_Qmult. reflexivity.
Qed.

(* Plus of real numbers, at least one of them a machine real, is a machine real;
   its distance from the exact sum is at most what length + 7 roundings can do to
   the sum of the absolute values. *)
Theorem C122_sum : forall l qs, values l qs -> existsb is_flt l = true ->
  exists f, plus_eval l = EFlt f /\ within f (drift (length l + 7) * size qs) (total qs).
Proof.
  intros l qs V F. destruct (numeric_real FoldAdd l qs V F) as [f [E [y [Y [_ A]]]]].
  exists f. split.
  - unfold plus_eval. rewrite E. destruct l; [discriminate F|reflexivity].
  - exists y. split; [exact Y|]. rewrite drift_G, <- size_fold. exact A.
Qed.
Print Assumptions C122_sum.

(* Times: a relative error of at most length + 7 roundings. *)
Theorem C122_product : forall l qs, values l qs -> existsb is_flt l = true ->
  exists f, times_eval l = EFlt f /\ within f (drift (length l + 7) * Qabs (prod qs)) (prod qs).
Proof.
  intros l qs V F. destruct (numeric_real FoldMul l qs V F) as [f [E [y [Y [_ A]]]]].
  exists f. split.
  - unfold times_eval. rewrite E. destruct l; [discriminate F|reflexivity].
  - exists y. split; [exact Y|]. rewrite drift_G, <- prod_abs. exact A.
Qed.
Print Assumptions C122_product.

(* Two machine reals: rounded once. *)
Theorem C122_two : forall f g x y, flt_q f = Some x -> flt_q g = Some y ->
  (exists h, plus_eval [EFlt f; EFlt g] = EFlt h /\ nearest h (x + y)) /\
  (exists h, times_eval [EFlt f; EFlt g] = EFlt h /\ nearest h (x * y)).
Proof.
  intros f g x y F H. split.
  - exists (fadd f g). split; [reflexivity|]. exact (proj1 (fadd_rounded f g x y F H)).
  - exists (fmul f g). split; [reflexivity|]. exact (proj1 (fmul_rounded f g x y F H)).
Qed.
Print Assumptions C122_two.

(* The error grows linearly for any list that fits in memory. *)
Theorem C122_drift : forall k, (Z.of_nat k <= 2 ^ 52)%Z -> drift k <= inject_Z (Z.of_nat k) * (2 # 1) ^ (-52).
Proof.
  intros k. rewrite drift_G. assert (U2 : (2 # 1) ^ (-52) == 2 * u) by (vm_compute; reflexivity). rewrite U2.
  assert (UB : inject_Z (2 ^ 52) * (2 * u) == 1) by (vm_compute; reflexivity).
  induction k as [|k IH]; intro H.
  - rewrite G_0. change (inject_Z (Z.of_nat 0)) with 0. lra.
  - specialize (IH ltac:(lia)). replace (Datatypes.S k) with (k + 1)%nat by lia. rewrite G_S.
    rewrite Nat2Z.inj_add, inject_Z_plus. change (inject_Z (Z.of_nat 1)) with 1.
    assert (B : inject_Z (Z.of_nat k) <= inject_Z (2 ^ 52)) by (rewrite <- Zle_Qle; lia).
    assert (0 <= inject_Z (Z.of_nat k)) by (change 0 with (inject_Z 0); rewrite <- Zle_Qle; lia).
    pose proof u_pos. set (K := inject_Z (Z.of_nat k)) in *. set (B0 := inject_Z (2 ^ 52)) in *. clearbody K B0.
    assert (K * (2 * u) <= 1) by nra. assert (G k <= 1 + K * (2 * u)) by lra. nra.
Qed.
Print Assumptions C122_drift.

(* ---- sums of whole numbers below 2^53 are exact ---- *)
Lemma nearest_exact f x : nearest f x -> representable x -> exists y, flt_q f = Some y /\ y == x.
Proof.
  intros [y [Y [_ N]]] R. exists y. split; [exact Y|]. specialize (N x R). setoid_replace (x - x) with 0 in N by ring.
  change (Qabs 0) with 0 in N. revert N. apply Qabs_case; intros; lra.
Qed.
Lemma whole_representable z : (Z.abs z < 2 ^ 53)%Z -> representable (inject_Z z).
Proof. intro H. exists z, 0%Z. split; [exact H|]. change ((2 # 1) ^ 0) with 1. ring. Qed.

(* whole l zs: integers, and machine reals that hold whole numbers *)
Definition whole (l : list ex) (zs : list Z) : Prop :=
  Forall2 (fun e z => e = EInt z \/ exists f x, e = EFlt f /\ flt_q f = Some x /\ x == inject_Z z) l zs.
Definition zsize (zs : list Z) : Z := fold_right (fun z s => (Z.abs z + s)%Z) 0%Z zs.
Definition zsum (zs : list Z) : Z := fold_right Z.add 0%Z zs.

Definition holds (o : option flt) (z : Z) : Prop :=
  match o with Some f => exists x, flt_q f = Some x /\ x == inject_Z z | None => z = 0%Z end.

Lemma fadd_whole f g y z : holds (Some f) y -> holds (Some g) z -> (Z.abs y + Z.abs z < 2 ^ 53)%Z -> holds (Some (fadd f g)) (y + z).
Proof.
  intros [a [A EA]] [b [B EB]] L. destruct (fadd_rounded f g a b A B) as [N _].
  apply (nearest_ext _ _ (inject_Z (y + z))) in N; [|rewrite EA, EB, inject_Z_plus; reflexivity].
  apply nearest_exact; [exact N|]. apply whole_representable. lia.
Qed.

Lemma np_whole l : forall zs a i j, whole l zs -> aC a = None -> aR a = None ->
  match aI a with Some z => z = i | None => i = 0%Z end -> holds (aF a) j ->
  (Z.abs i + Z.abs j + zsize zs < 2 ^ 53)%Z ->
  exists a' i' j', np FoldAdd a l = (typed_real_part FoldAdd a', []) /\ aC a' = None /\ aR a' = None /\ match aI a' with Some z => z = i' | None => i' = 0%Z end /\ holds (aF a') j' /\ (i' + j' = i + j + zsum zs)%Z /\ (Z.abs i' + Z.abs j' < 2 ^ 53)%Z /\ (existsb is_flt l = true -> aF a' <> None) /\ (aF a <> None -> aF a' <> None).
Proof.
  induction l as [|e l IH]; intros zs a i j W C R I J B.
  - inversion W; subst. exists a, i, j. cbn [np zsum zsize fold_right existsb] in *. repeat split; auto; try lia; discriminate.
  - inversion W as [|? z ? zs' W1 W2]; subst. cbn [zsum zsize fold_right] in *.
    assert (Z0 : (0 <= fold_right (fun z s => (Z.abs z + s)%Z) 0%Z zs')%Z) by (clear; induction zs'; cbn [fold_right]; lia).
    destruct W1 as [-> | [f [x [-> [F X]]]]].
    + cbn [np acc_num acc_real existsb is_flt orb].
      edestruct (IH zs' {| aI := Some (match aI a with Some x => int_op FoldAdd x z | None => z end); aR := aR a; aF := aF a; aC := aC a |}
        (i + z)%Z j W2 C R) as [a' [i' [j' [E [C' [R' [I' [J' [S [L [F1 F2]]]]]]]]]]].
      * cbn [aI]. destruct (aI a); cbn [int_op]; lia.
      * exact J.
      * unfold zsize. lia.
      * exists a', i', j'. cbn [aF] in F2. unfold zsum in S. split; [exact E|]. split; [exact C'|]. split; [exact R'|]. split; [exact I'|]. split; [exact J'|].
        split; [lia|]. split; [exact L|]. split; assumption.
    + cbn [np acc_num acc_real existsb is_flt orb].
      edestruct (IH zs' {| aI := aI a; aR := aR a; aF := Some (match aF a with Some g => flt_flt FoldAdd g f | None => f end); aC := aC a |}
        i (j + z)%Z W2 C R I) as [a' [i' [j' [E [C' [R' [I' [J' [S [L [F1 F2]]]]]]]]]]].
      * cbn [aF]. destruct (aF a) as [g|].
        -- cbn [flt_flt]. apply fadd_whole; [exact J|exists x; split; assumption|lia].
        -- cbn [holds] in J. subst j. exists x. split; [exact F|]. rewrite X. reflexivity.
      * unfold zsize. lia.
      * exists a', i', j'. cbn [aF] in F2. unfold zsum in S. split; [exact E|]. split; [exact C'|]. split; [exact R'|]. split; [exact I'|]. split; [exact J'|].
        split; [lia|]. split; [exact L|]. split; [intros _|intros _]; apply F2; discriminate.
Qed.

Theorem C122_whole_numbers : forall l zs, whole l zs -> existsb is_flt l = true -> (zsize zs < 2 ^ 53)%Z ->
  exists f y, plus_eval l = EFlt f /\ flt_q f = Some y /\ y == inject_Z (zsum zs).
Proof.
  intros l zs W F B.
  destruct (np_whole l zs acc0 0%Z 0%Z W eq_refl eq_refl eq_refl eq_refl) as [a [i [j [E [C [R [I [J [S [L [F1 _]]]]]]]]]]].
  { cbn [Z.abs Z.add]. exact B. }
  specialize (F1 F). cbn [Z.add] in S.
  assert (K : exists f, typed_real_part FoldAdd a = Some (EFlt f) /\ holds (Some f) (zsum zs)).
  { unfold typed_real_part, real_part. rewrite C, R. destruct (aF a) as [f|]; [|contradiction].
    eexists. split; [reflexivity|]. rewrite <- S. destruct (aI a) as [z|].
    - subst z. cbn [flt_flt]. rewrite Z.add_comm. apply fadd_whole; [exact J| |lia].
      unfold int_to_flt. destruct (fround_rounded i 1 (inject_Z i) ltac:(lia)) as [N _].
      { change (inject_Z 1) with 1. field. }
      apply nearest_exact; [exact N|]. apply whole_representable. lia.
    - subst i. exact J. }
  destruct K as [f [K [y [Y V]]]]. exists f, y. split; [|split; assumption].
  unfold plus_eval, compute_numeric_part. rewrite E, K. destruct l; [discriminate F|reflexivity].
Qed.
Print Assumptions C122_whole_numbers.


(* ---- order ---- *)
(* machine reals as arithmetic leaves them *)
Definition normal (f : flt) : Prop :=
  exists s m e a, f = FFin s m e a /\ ((m = 0%N /\ e = 0%Z) \/ (2 ^ 52 <= m < 2 ^ 53)%N).
(* the same number, and the same bits but for the sign of zero and the accuracy *)
Definition sim (f g : flt) : Prop :=
  exists s m e a s' a', f = FFin s m e a /\ g = FFin s' m e a' /\ (s = s' \/ m = 0%N).

Lemma sim_smant f g : sim f g -> exists s m e a s' a', f = FFin s m e a /\ g = FFin s' m e a' /\ smant s m = smant s' m.
Proof.
  intros [s [m [e [a [s' [a' [F [H D]]]]]]]]. exists s, m, e, a, s', a'. split; [exact F|]. split; [exact H|].
  destruct D as [-> | ->]; [reflexivity|]. destruct s, s'; reflexivity.
Qed.
Lemma sim_value f g x : sim f g -> flt_q f = Some x -> exists y, flt_q g = Some y /\ x == y.
Proof.
  intros S F. destruct (sim_smant f g S) as [s [m [e [a [s' [a' [-> [-> E]]]]]]]].
  destruct (flt_q_smant _ _ F) as [s0 [m0 [e0 [a0 [K X]]]]]. injection K as <- <- <- <-.
  eexists. split; [reflexivity|]. rewrite X, E. unfold smant. destruct s'; [rewrite inject_Z_opp|]; reflexivity.
Qed.
Lemma fscaled_sim n k b c : sim (fscaled n k b) (fscaled n k c).
Proof.
  unfold fscaled. destruct (n =? 0)%Z.
  - exists b, 0%N, 0%Z, 0%Z, c, 0%Z. auto.
  - assert (R : forall a d, sim (fround a d) (fround a d)).
    { intros a d. unfold fround. destruct (a =? 0)%Z; [exists false, 0%N, 0%Z, 0%Z, false, 0%Z; auto|].
      destruct (fround_pos (Z.abs a) d) as [m e]. destruct (m =? 2 ^ 53)%Z; eexists _, _, _, _, _, _; auto. }
    destruct (0 <=? k)%Z; apply R.
Qed.
Lemma fadd_sim f g f' g' : sim f f' -> sim g g' -> sim (fadd f g) (fadd f' g').
Proof.
  intros S T. destruct (sim_smant f f' S) as [s [m [e [a [s' [a' [-> [-> E]]]]]]]].
  destruct (sim_smant g g' T) as [t [n [k [b [t' [b' [-> [-> K]]]]]]]].
  cbn [fadd]. rewrite E, K. apply fscaled_sim.
Qed.

Lemma normal_exp m m' d : (2 ^ 52 <= m < 2 ^ 53)%Z -> (2 ^ 52 <= m' < 2 ^ 53)%Z -> (0 <= d)%Z -> (m = m' * 2 ^ d)%Z -> d = 0%Z.
Proof.
  intros A B D E. destruct (Z.eq_dec d 0) as [|N]; [assumption|]. exfalso.
  assert (2 <= 2 ^ d)%Z. { change 2%Z with (2 ^ 1)%Z at 1. apply Z.pow_le_mono_r; lia. }
  assert (2 ^ 53 = 2 * 2 ^ 52)%Z by reflexivity. nia.
Qed.
Lemma normal_same f g : normal f -> normal g -> fcmp f g = Eq -> sim f g.
Proof.
  intros [s [m [e [a [-> A]]]]] [s' [m' [e' [a' [-> B]]]]] E. cbn [fcmp] in E. apply Z.compare_eq in E.
  assert (P : (0 < 2 ^ (e - Z.min e e'))%Z) by (apply pow2_pos; lia).
  assert (P' : (0 < 2 ^ (e' - Z.min e e'))%Z) by (apply pow2_pos; lia).
  destruct A as [[-> ->]|A].
  - assert (m' = 0%N) as ->.
    { destruct s, s'; cbn [smant] in E; nia. }
    destruct B as [[_ ->]|B]; [|exfalso; revert B; vm_compute; intros [K _]; apply K; reflexivity].
    exists s, 0%N, 0%Z, a, s', a'. auto.
  - assert (A0 : (0 < Z.of_N m)%Z) by lia.
    destruct B as [[-> ->]|B]; [exfalso; destruct s, s'; cbn [smant] in E; nia|].
    assert (SS : s = s') by (destruct s, s'; cbn [smant] in E; try reflexivity; exfalso; nia). subst s'.
    assert (E' : (Z.of_N m * 2 ^ (e - Z.min e e') = Z.of_N m' * 2 ^ (e' - Z.min e e'))%Z) by (destruct s; cbn [smant] in E; lia).
    assert (EE : e = e').
    { destruct (Z.le_ge_cases e e') as [L|L].
      - rewrite Z.min_l in E' by lia. rewrite Z.sub_diag, Z.pow_0_r, Z.mul_1_r in E'.
        pose proof (normal_exp (Z.of_N m) (Z.of_N m') (e' - e) ltac:(lia) ltac:(lia) ltac:(lia) E'). lia.
      - rewrite Z.min_r in E' by lia. rewrite Z.sub_diag, Z.pow_0_r, Z.mul_1_r in E'.
        pose proof (normal_exp (Z.of_N m') (Z.of_N m) (e - e') ltac:(lia) ltac:(lia) ltac:(lia) (eq_sym E')). lia. }
    subst e'. rewrite Z.min_id, Z.sub_diag, Z.pow_0_r, !Z.mul_1_r in E'. assert (m = m') as <- by lia.
    exists s, m, e, a, s, a'. auto.
Qed.

Notation same := (fun f g => fcmp f g = Eq).
Lemma same_fle f g : fcmp f g = Eq <-> fle f g /\ fle g f.
Proof.
  unfold fle. rewrite (fcmp_opp f g). destruct (fcmp f g); cbn; (split; [intro E; first [discriminate E | split; discriminate] | intros [A B]; congruence]).
Qed.
Lemma sorted_same l : forall l' m, StronglySorted fle l -> StronglySorted fle l' -> Permutation l m -> Forall2 same m l' -> Forall2 same l l'.
Proof.
  induction l as [|x t IH]; intros l' m S S' P F.
  - apply Permutation_nil in P. subst m. inversion F. constructor.
  - destruct F as [|z y m' t' R F]; [apply Permutation_sym, Permutation_nil in P; discriminate P|].
    inversion S as [|? ? St Fx]; subst. inversion S' as [|? ? St' Fy]; subst.
    assert (K : In x (z :: m')) by (eapply Permutation_in; [exact P|left; reflexivity]).
    destruct K as [<-|K].
    + constructor; [exact R|]. apply (IH t' m'); try assumption. eapply Permutation_cons_inv; exact P.
    + apply in_split in K as [a [b ->]]. apply Forall2_app_inv_l in F as [a' [b0 [Fa [Fb ->]]]].
      destruct b0 as [|w b']; [inversion Fb|]. inversion Fb as [|? ? ? ? Rw Fb']; subst.
      assert (Pt : Permutation t (a ++ z :: b)).
      { apply (Permutation_cons_inv (a := x)). rewrite P. rewrite (Permutation_middle a (z :: b) x). rewrite <- !Permutation_middle. apply perm_swap. }
      assert (L1 : fle x z). { rewrite Forall_forall in Fx. apply Fx. eapply Permutation_in; [symmetry; exact Pt|]. apply in_elt. }
      assert (L2 : fle y w). { rewrite Forall_forall in Fy. apply Fy. apply in_elt. }
      pose proof (proj1 (same_fle _ _) R) as [R1 R2]. pose proof (proj1 (same_fle _ _) Rw) as [R3 R4].
      constructor.
      * apply same_fle. split; [exact (fle_trans _ _ _ L1 R1)|exact (fle_trans _ _ _ L2 R4)].
      * apply (IH _ (a ++ z :: b)); try assumption. apply Forall2_app; [exact Fa|]. constructor; [|exact Fb'].
        apply same_fle. split; [exact (fle_trans _ _ _ R1 L2)|exact (fle_trans _ _ _ R4 L1)].
Qed.

Lemma order_flts f g : (0 <= ex_order (EFlt f) (EFlt g))%Z -> fle f g.
Proof.
  unfold fle. change (ex_order (EFlt f) (EFlt g)) with (cmp_flts f g false false). unfold cmp_flts.
  rewrite (fcmp_opp f g). destruct (fcmp f g); cbn; lia || discriminate.
Qed.
Lemma adjacent_strong fs : adjacent_ordered (map EFlt fs) -> StronglySorted fle fs.
Proof.
  intro H. apply Sorted_StronglySorted; [intros x y z; apply fle_trans|].
  induction fs as [|f t IH]; [constructor|]. constructor.
  - apply IH. destruct t; [exact Logic.I|apply H].
  - destruct t as [|g t]; constructor. apply order_flts. apply H.
Qed.
Lemma sorted_flts fs : exists gs, insertion_sort (map EFlt fs) = map EFlt gs /\ Permutation fs gs /\ StronglySorted fle gs.
Proof.
  assert (W : all_wf (map EFlt fs)) by (intros x Hx; apply in_map_iff in Hx as [f [<- _]]; reflexivity).
  destruct (Permutation_map_inv EFlt fs (Permutation_sym (insertion_sort_perm _ W))) as [gs [E P]].
  exists gs. split; [exact E|]. split; [exact P|]. apply adjacent_strong. rewrite <- E. apply insertion_sort_adjacent. exact W.
Qed.

Lemma np_flts fs : forall a f, aC a = None -> aR a = None -> aI a = None -> aF a = Some f ->
  np FoldAdd a (map EFlt fs) = (Some (EFlt (fold_left fadd fs f)), []).
Proof.
  induction fs as [|g fs IH]; intros a f C R I F; cbn [map np fold_left].
  - unfold typed_real_part, real_part. rewrite C, F, R, I. reflexivity.
  - cbn [acc_num acc_real]. rewrite F. cbn [flt_flt].
    exact (IH {| aI := aI a; aR := aR a; aF := Some (fadd f g); aC := aC a |} (fadd f g) C R I eq_refl).
Qed.
Lemma plus_flts f fs : plus_eval (map EFlt (f :: fs)) = EFlt (fold_left fadd fs f).
Proof.
  unfold plus_eval, compute_numeric_part. cbn [map np acc_num acc_real acc0 aF].
  rewrite (np_flts fs _ f) by reflexivity. reflexivity.
Qed.
Lemma fold_sim fs gs f g : Forall2 sim fs gs -> sim f g -> sim (fold_left fadd fs f) (fold_left fadd gs g).
Proof.
  intro F. revert f g. induction F as [|a b fs gs R F IH]; intros f g S; [exact S|]. cbn [fold_left].
  apply IH. apply fadd_sim; assumption.
Qed.

(* Plus sorts its arguments first, so the order in which machine reals are written
   does not change the sum ... *)
Theorem C122_order : forall fs fs', fs <> [] -> Forall normal fs -> Permutation fs fs' ->
  exists f g x y, plus_eval (insertion_sort (map EFlt fs)) = EFlt f /\ plus_eval (insertion_sort (map EFlt fs')) = EFlt g /\
    flt_q f = Some x /\ flt_q g = Some y /\ x == y.
Proof.
  intros fs fs' NE N P. destruct (sorted_flts fs) as [gs [-> [P1 S1]]]. destruct (sorted_flts fs') as [gs' [-> [P2 S2]]].
  assert (Q : Permutation gs gs') by (rewrite <- P1, P; exact P2).
  assert (SG : Forall2 same gs gs').
  { apply (sorted_same gs gs' gs' S1 S2 Q). clear. induction gs'; constructor; [apply fcmp_refl|assumption]. }
  assert (NG : Forall normal gs) by (rewrite <- P1; exact N). assert (NG' : Forall normal gs') by (rewrite <- Q; exact NG).
  assert (SM : Forall2 sim gs gs').
  { clear - SG NG NG'. induction SG as [|a b l l' R F IH]; [constructor|]. inversion NG; inversion NG'; subst.
    constructor; [apply normal_same; assumption|]. apply IH; assumption. }
  destruct SM as [|f g gs gs' R F]; [exfalso; apply NE; apply Permutation_nil; symmetry; exact P1|].
  rewrite !plus_flts. pose proof (fold_sim gs gs' f g F R) as K.
  destruct (numeric_real FoldAdd (map EFlt (f :: gs)) (map (fun f => match flt_q f with Some q => q | None => 0 end) (f :: gs))) as [h [E [x [X _]]]].
  { clear - NG. induction NG as [|a l A NG IH]; constructor; [|exact IH]. destruct A as [s [m [e [b [-> _]]]]]. reflexivity. }
  { reflexivity. }
  assert (EH : EFlt h = EFlt (fold_left fadd gs f)).
  { rewrite <- plus_flts. unfold plus_eval. rewrite E. reflexivity. }
  injection EH as ->. destruct (sim_value _ _ x K X) as [y [Y V]].
  exists (fold_left fadd gs f), (fold_left fadd gs' g), x, y. repeat split; assumption.
Qed.
Print Assumptions C122_order.

(* ... but grouping does: (2^53 + -2^53) + 1. and 2^53 + (-2^53 + 1.) differ. *)
Theorem C122_grouping_refuted : exists a b c f g h k x y,
  plus_eval (insertion_sort [EFlt a; EFlt b]) = EFlt f /\ plus_eval (insertion_sort [EFlt f; EFlt c]) = EFlt g /\
  plus_eval (insertion_sort [EFlt b; EFlt c]) = EFlt h /\ plus_eval (insertion_sort [EFlt a; EFlt h]) = EFlt k /\
  flt_q g = Some x /\ flt_q k = Some y /\ ~ x == y.
Proof.
  exists (fround (- 2 ^ 53) 1), (fround (2 ^ 53) 1), (fround 1 1).
  eexists _, _, _, _, _, _. split; [vm_compute; reflexivity|]. split; [vm_compute; reflexivity|].
  split; [vm_compute; reflexivity|]. split; [vm_compute; reflexivity|].
  split; [reflexivity|]. split; [reflexivity|]. vm_compute. discriminate.
Qed.
Print Assumptions C122_grouping_refuted.

(* A rational that meets a machine real is converted by dividing its converted
   numerator by its converted denominator: three roundings, not the one of N. *)
Theorem C122_rational_refuted : exists r q f x, qval r = Some q /\
  times_eval [r; EFlt (fround 1 1)] = EFlt f /\ flt_q f = Some x /\ ~ nearest f q /\
  (forall def, exists g, n_fn def [r] = Some (EFlt g) /\ nearest g q /\ g <> f).
Proof.
  pose (r := ERat (2 ^ 53 + 1) (2 ^ 53 + 3)).
  pose (q := inject_Z (2 ^ 53 + 1) / inject_Z (2 ^ 53 + 3)).
  assert (Q0 : qval r = Some q) by reflexivity.
  eexists r, q, _, _. split; [exact Q0|]. split; [vm_compute; reflexivity|]. split; [reflexivity|]. split.
  - intros [x [X [_ N]]]. injection X as <-.
    destruct (fround_nearest (2 ^ 53 + 1) (2 ^ 53 + 3) ltac:(lia)) as [y [Y [R _]]].
    specialize (N y R). change (flt_q (fround (2 ^ 53 + 1) (2 ^ 53 + 3))) with (flt_q (FFin false 9007199254740990 (-53) (-1))) in Y.
    revert Y. vm_compute (flt_q _). intro Y. injection Y as <-. revert N. vm_compute. intro N. apply N. reflexivity.
  - intro def. exists (fround (2 ^ 53 + 1) (2 ^ 53 + 3)). split; [reflexivity|]. split.
    + apply fround_nearest. lia.
    + vm_compute. discriminate.
Qed.
Print Assumptions C122_rational_refuted.

(* 0.1 + 0.2 + 1/3 + 1, and 2. + 3 + -7. exactly *)
Example C122_sum_ex : exists l qs, values l qs /\ existsb is_flt l = true /\
  l = [EFlt (fround 1 10); EFlt (fround 2 10); ERat 1 3; EInt 1].
Proof. eexists _, _. split; [|split; [|reflexivity]; reflexivity]. repeat (apply Forall2_cons; [reflexivity|]). apply Forall2_nil. Qed.
Example C122_whole_ex : whole [EFlt (fround 2 1); EInt 3; EFlt (fround (-7) 1)] [2; 3; -7]%Z /\
  plus_eval [EFlt (fround 2 1); EInt 3; EFlt (fround (-7) 1)] = EFlt (fround (-2) 1).
Proof.
  split; [|vm_compute; reflexivity].
  apply Forall2_cons; [right; eexists _, _; split; [reflexivity|]; split; [reflexivity|vm_compute; reflexivity]|].
  apply Forall2_cons; [left; reflexivity|].
  apply Forall2_cons; [right; eexists _, _; split; [reflexivity|]; split; [reflexivity|vm_compute; reflexivity]|]. apply Forall2_nil.
Qed.
Example C122_order_ex : Forall normal [fround 1 10; fround (-3) 7; fround 0 1].
Proof. repeat (apply Forall_cons; [eexists _, _, _, _; split; [vm_compute; reflexivity|]; first [left; split; reflexivity | right; vm_compute; split; congruence]|]). apply Forall_nil. Qed.
