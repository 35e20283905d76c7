(* C124, C125: powers and numeric functions of machine reals. *)
From Verif Require Import M_Syntax M_Float P_Float M_NumTheory S_N T_N T_MReal M_RealFn.
From Coq Require Import String QArith Qpower Lia.
Open Scope Z_scope.

(* a number with a sign: an integer or a machine real *)
Definition signed_num (e : ex) : Prop := (exists z, e = EInt z) \/ (exists f, e = EFlt f).
(* its sign; +0 and -0 are both zero *)
Definition negative (e : ex) : Prop := (exists z, e = EInt z /\ z < 0) \/ (exists f, e = EFlt f /\ fcmp f flt0 = Lt).
Definition zero (e : ex) : Prop := e = EInt 0 \/ (exists f, e = EFlt f /\ fcmp f flt0 = Eq).
Definition positive (e : ex) : Prop := (exists z, e = EInt z /\ 0 < z) \/ (exists f, e = EFlt f /\ fcmp f flt0 = Gt).
Definition is_one (e : ex) : Prop := e = EInt 1 \/ (exists f, e = EFlt f /\ fcmp f flt1 = Eq).

Lemma sign_lt e : sign_of e = Some Lt <-> negative e.
Proof.
  unfold negative. destruct e as [s|s|z|n d|f|a b|l]; cbn [sign_of]; split; intro H; try discriminate H;
    try (destruct H as [[x [K _]]|[x [K _]]]; discriminate K).
  - injection H as H. left. exists z. split; [reflexivity|exact H].
  - destruct H as [[x [K L]]|[x [K _]]]; [injection K as <-; f_equal; exact L|discriminate K].
  - injection H as H. right. exists f. auto.
  - destruct H as [[x [K _]]|[x [K L]]]; [discriminate K|injection K as <-; rewrite L; reflexivity].
Qed.
Lemma sign_gt e : sign_of e = Some Gt <-> positive e.
Proof.
  unfold positive. destruct e as [s|s|z|n d|f|a b|l]; cbn [sign_of]; split; intro H; try discriminate H;
    try (destruct H as [[x [K _]]|[x [K _]]]; discriminate K).
  - injection H as H. left. exists z. split; [reflexivity|]. apply Z.compare_gt_iff. exact H.
  - destruct H as [[x [K L]]|[x [K _]]]; [injection K as <-; f_equal; apply Z.compare_gt_iff; exact L|discriminate K].
  - injection H as H. right. exists f. auto.
  - destruct H as [[x [K _]]|[x [K L]]]; [discriminate K|injection K as <-; rewrite L; reflexivity].
Qed.
Lemma sign_eq e : sign_of e = Some Eq <-> zero e.
Proof.
  unfold zero. destruct e as [s|s|z|n d|f|a b|l]; cbn [sign_of]; split; intro H; try discriminate H;
    try (destruct H as [K|[x [K _]]]; discriminate K).
  - injection H as H. left. f_equal. apply Z.compare_eq. exact H.
  - destruct H as [K|[x [K _]]]; [injection K as ->; reflexivity|discriminate K].
  - injection H as H. right. exists f. auto.
  - destruct H as [K|[x [K L]]]; [discriminate K|injection K as <-; rewrite L; reflexivity].
Qed.
Lemma one_iff p : (match p with EFlt f => match fcmp f flt1 with Eq => true | _ => false end | EInt z => z =? 1 | _ => false end) = true <-> is_one p.
Proof.
  unfold is_one. destruct p as [s|s|z|n d|f|a b|l]; split; intro H; try discriminate H;
    try (destruct H as [K|[x [K _]]]; discriminate K).
  - left. f_equal. apply Z.eqb_eq. exact H.
  - destruct H as [K|[x [K _]]]; [injection K as ->; reflexivity|discriminate K].
  - right. exists f. destruct (fcmp f flt1); try discriminate H. auto.
  - destruct H as [K|[x [K L]]]; [discriminate K|injection K as <-; rewrite L; reflexivity].
Qed.

Lemma not_one p : ~ is_one p ->
  (match p with EFlt f => match fcmp f flt1 with Eq => true | _ => false end | EInt z => z =? 1 | _ => false end) = false.
Proof. intro H. apply Bool.not_true_iff_false. rewrite one_iff. exact H. Qed.

(* x^1 and x^1. are x, whatever x is. *)
Theorem C124_power_one : forall pow ev fuel b p, is_one p -> power_fn pow ev fuel [b; p] = Done b.
Proof. intros pow ev fuel b p H. unfold power_fn. rewrite (proj2 (one_iff p) H). reflexivity. Qed.
Print Assumptions C124_power_one.

Lemma zero_not_one p : zero p -> ~ is_one p.
Proof.
  intros [-> |[f [-> Z]]] [K|[g [K O]]]; try discriminate K. injection K as <-.
  destruct f as [b|s m e a].
  - destruct b; discriminate Z.
  - cbn [fcmp flt0] in Z. apply Z.compare_eq in Z. revert Z O. cbn [fcmp]. 
    change flt1 with (FFin false 4503599627370496 (-52) 0). cbn [fcmp]. intros Z O. apply Z.compare_eq in O.
    pose proof (pow2_pos (-52 - Z.min e (-52)) ltac:(lia)) as P1.
    pose proof (pow2_pos (e - Z.min e (-52)) ltac:(lia)) as P2.
    pose proof (pow2_pos (e - Z.min e 0) ltac:(lia)) as P3.
    change (smant false 0) with 0 in Z. rewrite Z.mul_0_l in Z. apply Z.mul_eq_0 in Z as [Z|Z]; [|lia]. rewrite Z in O.
    change (smant false 4503599627370496) with 4503599627370496 in O. lia.
Qed.

(* x^0 and x^0. are 1 for a nonzero number x, and Indeterminate for 0. *)
Theorem C124_power_zero : forall pow ev fuel b p, signed_num b -> zero p ->
  (zero b -> power_fn pow ev fuel [b; p] = Done (sys "Indeterminate")) /\
  (~ zero b -> power_fn pow ev fuel [b; p] = Done (EInt 1)).
Proof.
  intros pow ev fuel b p N Z. unfold power_fn. rewrite (not_one _ (zero_not_one p Z)).
  rewrite (proj2 (sign_eq p) Z). split; intro H.
  - rewrite (proj2 (sign_eq b) H). reflexivity.
  - rewrite <- sign_eq in H. destruct N as [[z ->]|[f ->]]; cbn [sign_of] in *.
    + destruct (z ?= 0); try reflexivity. contradiction.
    + destruct (fcmp f flt0); try reflexivity. contradiction.
Qed.
Print Assumptions C124_power_zero.

(* 0 to a positive power is that 0. *)
Theorem C124_zero_base : forall pow ev fuel b p, zero b -> positive p -> power_fn pow ev fuel [b; p] = Done b.
Proof.
  intros pow ev fuel b p B P. unfold power_fn.
  destruct (match p with EFlt f => match fcmp f flt1 with Eq => true | _ => false end | EInt z => z =? 1 | _ => false end); [reflexivity|].
  rewrite (proj2 (sign_eq b) B), (proj2 (sign_gt p) P). reflexivity.
Qed.
Print Assumptions C124_zero_base.

(* With a machine real as base or power, and a base that is not negative (or an
   integer power), the power is a machine real, except in the cases above. *)
Theorem C124_real : forall pow ev fuel b p, signed_num b -> signed_num p ->
  (exists f, b = EFlt f) \/ (exists f, p = EFlt f) ->
  (~ negative b \/ exists z, p = EInt z) -> ~ zero p -> ~ is_one p -> ~ (zero b /\ positive p) ->
  exists r, power_fn pow ev fuel [b; p] = Done (EFlt r).
Proof.
  intros pow ev fuel b p B P F N Z O ZP. unfold power_fn. rewrite (not_one _ O).
  rewrite <- sign_eq in Z. rewrite <- sign_lt in N. rewrite <- sign_eq, <- sign_gt in ZP.
  destruct B as [[x ->]|[x ->]], P as [[y ->]|[y ->]].
  - destruct F as [[f F]|[f F]]; discriminate F.
  - assert (L : sign_of (EInt x) <> Some Lt) by (destruct N as [N|[z N]]; [exact N|discriminate N]).
    destruct (sign_of (EFlt y)) as [[]|] eqn:S1; try contradiction; destruct (sign_of (EInt x)) as [[]|] eqn:S2;
      try contradiction; try (exfalso; apply ZP; split; reflexivity); eexists; reflexivity.
  - destruct (sign_of (EInt y)) as [[]|] eqn:S1; try contradiction; destruct (sign_of (EFlt x)) as [[]|] eqn:S2;
      try (exfalso; apply ZP; split; reflexivity); eexists; reflexivity.
  - assert (L : sign_of (EFlt x) <> Some Lt) by (destruct N as [N|[z N]]; [exact N|discriminate N]).
    destruct (sign_of (EFlt y)) as [[]|] eqn:S1; try contradiction; destruct (sign_of (EFlt x)) as [[]|] eqn:S2;
      try contradiction; try (exfalso; apply ZP; split; reflexivity); eexists; reflexivity.
Qed.
Print Assumptions C124_real.

(* ... the one Pow returns for the base and the power, in this order *)
Definition as_real (e : ex) : flt := match e with EInt z => int_to_flt z | EFlt f => f | _ => flt0 end.
Theorem C124_real_value : forall pow ev fuel b p, signed_num b -> signed_num p ->
  (exists f, b = EFlt f) \/ (exists f, p = EFlt f) ->
  (~ negative b \/ exists z, p = EInt z) -> ~ zero p -> ~ is_one p -> ~ (zero b /\ positive p) ->
  power_fn pow ev fuel [b; p] = Done (EFlt (pow (as_real b) (as_real p))).
Proof.
  intros pow ev fuel b p B P F N Z O ZP. unfold power_fn. rewrite (not_one _ O).
  rewrite <- sign_eq in Z. rewrite <- sign_lt in N. rewrite <- sign_eq, <- sign_gt in ZP.
  destruct B as [[x ->]|[x ->]], P as [[y ->]|[y ->]].
  - destruct F as [[f F]|[f F]]; discriminate F.
  - assert (L : sign_of (EInt x) <> Some Lt) by (destruct N as [N|[z N]]; [exact N|discriminate N]).
    destruct (sign_of (EFlt y)) as [[]|] eqn:S1; try contradiction; destruct (sign_of (EInt x)) as [[]|] eqn:S2;
      try contradiction; try (exfalso; apply ZP; split; reflexivity); reflexivity.
  - destruct (sign_of (EInt y)) as [[]|] eqn:S1; try contradiction; destruct (sign_of (EFlt x)) as [[]|] eqn:S2;
      try (exfalso; apply ZP; split; reflexivity); reflexivity.
  - assert (L : sign_of (EFlt x) <> Some Lt) by (destruct N as [N|[z N]]; [exact N|discriminate N]).
    destruct (sign_of (EFlt y)) as [[]|] eqn:S1; try contradiction; destruct (sign_of (EFlt x)) as [[]|] eqn:S2;
      try contradiction; try (exfalso; apply ZP; split; reflexivity); reflexivity.
Qed.
Print Assumptions C124_real_value.

(* the test for whole numbers that decides between a real and a complex power *)
Theorem C124_whole_power : forall f,
  flt_is_int f = true <-> exists z y, flt_q f = Some y /\ (y == inject_Z z)%Q.
Proof.
  intros [n|n m e a]; cbn [flt_is_int flt_q]; [split; [discriminate|intros [z [y [H _]]]; discriminate H]|].
  assert (S : forall q z, ((if n then - q else q) == inject_Z z)%Q <-> (q == inject_Z (if n then - z else z))%Q).
  { intros q z. destruct n; [|reflexivity]. rewrite inject_Z_opp. split; intro H; [rewrite <- H|rewrite H]; ring. }
  assert (V : (exists z y, Some ((if n then - inject_Z (Z.of_N m) else inject_Z (Z.of_N m)) * (2 # 1) ^ e)%Q = Some y /\ (y == inject_Z z)%Q)
              <-> exists z, (inject_Z (Z.of_N m) * (2 # 1) ^ e == inject_Z z)%Q).
  { assert (R : forall q : Q, ((if n then (- q) else q) * (2#1)^e == (if n then - (q * (2#1)^e) else q * (2#1)^e))%Q) by (intro q; destruct n; ring).
    split.
    - intros [z [y [H E]]]. injection H as <-. exists (if n then - z else z). rewrite <- S, <- R. destruct n; exact E.
    - intros [z E]. exists (if n then - z else z). eexists. split; [reflexivity|].
      rewrite (R (inject_Z (Z.of_N m))). rewrite S. destruct n; [rewrite Z.opp_involutive|]; exact E. }
  rewrite V. clear V S. rewrite !Bool.orb_true_iff, N.eqb_eq, Z.leb_le, Z.eqb_eq.
  destruct (Z.leb_spec 0 e) as [P|P].
  - split; [|auto]. intros _. exists (Z.of_N m * 2 ^ e). rewrite inject_Z_mult, Zpower_Qpower by exact P. reflexivity.
  - assert (T : (2 ^ (- e) <> 0)%Z) by (apply Z.pow_nonzero; lia).
    assert (Q2 : ((2#1) ^ e == / inject_Z (2 ^ (- e)))%Q).
    { rewrite Zpower_Qpower by lia. rewrite <- Qpower_opp. rewrite Z.opp_involutive. reflexivity. }
    assert (W : (~ inject_Z (2 ^ (- e)) == 0)%Q) by (intro H; apply T; apply (inject_Z_injective _ 0); exact H).
    split.
    + intros [[-> | H]|H]; [exists 0; reflexivity|lia|]. apply Z.div_exact in H; [|exact T].
      exists (Z.of_N m / 2 ^ (- e)). rewrite Q2. rewrite H at 1. rewrite inject_Z_mult. field. exact W.
    + intros [z H]. right. rewrite Q2 in H.
      assert (E : Z.of_N m = z * 2 ^ (- e)).
      { apply inject_Z_injective. rewrite inject_Z_mult, <- H. field. exact W. }
      rewrite E. apply Z.mod_mul. exact T.
Qed.
Print Assumptions C124_whole_power.

Lemma power_lt pow ev fuel b f : negative b -> ~ zero (EFlt f) -> ~ is_one (EFlt f) ->
  power_fn pow ev fuel [b; EFlt f] = power_negative pow ev b f.
Proof.
  intros B Z O. unfold power_fn. rewrite (not_one _ O). rewrite <- sign_eq in Z.
  pose proof B as B'. rewrite <- sign_lt in B'. rewrite B'.
  destruct (sign_of (EFlt f)) as [[]|] eqn:S1; try contradiction;
    (destruct B as [[z [-> _]]|[g [-> _]]]; reflexivity).
Qed.

(* A negative integer to a machine-real power other than 0., 1. and -1. stops
   the program, whatever Pow and the evaluator do: (-2)^0.5. *)
Theorem C124_total_refuted : forall pow ev fuel z f, z < 0 ->
  ~ zero (EFlt f) -> ~ is_one (EFlt f) -> fcmp f flt_m1 <> Eq ->
  power_fn pow ev fuel [EInt z; EFlt f] = Crash.
Proof.
  intros pow ev fuel z f L Z O M. rewrite power_lt; [|left; exists z; auto|exact Z|exact O].
  unfold power_negative. destruct (fcmp f flt_m1); [contradiction|reflexivity|reflexivity].
Qed.
Print Assumptions C124_total_refuted.

(* The only calls that stop the program are those, and powers of negative machine
   reals for which the evaluator does not return machine reals. *)
Theorem C124_crash_only : forall pow ev fuel args, power_fn pow ev fuel args = Crash ->
  exists b f, args = [b; EFlt f] /\ negative b /\ fcmp f flt_m1 <> Eq /\
    ((exists z, b = EInt z) \/
     exists e, (forall r, ev e <> EFlt r) /\ exists h t, e = EExpr (h :: t)).
Proof.
  intros pow ev fuel args H. destruct args as [|b [|p [|]]]; try discriminate H.
  unfold power_fn in H.
  destruct (match p with EFlt f => match fcmp f flt1 with Eq => true | _ => false end | EInt z => z =? 1 | _ => false end); [discriminate H|].
  assert (K : sign_of b = Some Lt /\ exists f, p = EFlt f /\ power_negative pow ev b f = Crash).
  { destruct (sign_of p) as [[]|], (sign_of b) as [[]|] eqn:SB; try discriminate H;
      (destruct p as [s|s|z|n d|f|x y|l]; destruct b as [s'|s'|z'|n' d'|f'|x' y'|l']; try discriminate H;
        try (split; [reflexivity|]; eexists; split; [reflexivity|exact H]);
        try (destruct (power_rat fuel z' n d); discriminate H)). }
  destruct K as [SB [f [-> C]]]. exists b, f. split; [reflexivity|]. split; [apply sign_lt; exact SB|].
  unfold power_negative in C. apply sign_lt in SB. destruct SB as [[z [-> _]]|[g [-> _]]].
  - split; [|left; exists z; reflexivity]. intro E. rewrite E in C. discriminate C.
  - assert (NE : fcmp f flt_m1 <> Eq) by (intro E; rewrite E in C; discriminate C).
    split; [exact NE|]. right.
    assert (C' : (let coeff := ev (EExpr [sys "Power"; EExpr [sys "Power"; EFlt g; EInt 2]; EExpr [sys "Times"; EFlt f; ERat 1 2]]) in
      match flt_of coeff with
      | None => Crash
      | Some c =>
        match flt_of (ev (EExpr [sys "Times"; EFlt f; EExpr [sys "Arg"; EFlt g]])) with
        | None => Crash
        | Some inner =>
          match flt_of (ev (EExpr [sys "Times"; EFlt c; EExpr [sys "Cos"; EFlt inner]])) with
          | None => Crash
          | Some re =>
            if flt_is_int f then Done (EFlt re)
            else match flt_of (ev (EExpr [sys "Times"; EFlt c; EExpr [sys "Sin"; EFlt inner]])) with
                 | None => Crash
                 | Some im => Done (ECplx (EFlt re) (EFlt im))
                 end
          end
        end
      end) = Crash) by (destruct (fcmp f flt_m1); [contradiction|exact C|exact C]).
    clear C. cbn zeta in C'.
    assert (D : forall e h t, e = EExpr (h :: t) -> flt_of (ev e) = None -> exists e, (forall r, ev e <> EFlt r) /\ exists h t, e = EExpr (h :: t)).
    { intros e h t E N. exists e. split; [|exists h, t; exact E]. intros r R. rewrite R in N. discriminate N. }
    destruct (flt_of (ev (EExpr [sys "Power"; _; _]))) as [c|] eqn:E1; [|eapply D; [reflexivity|exact E1]].
    destruct (flt_of (ev (EExpr [sys "Times"; EFlt f; EExpr [sys "Arg"; EFlt g]]))) as [i|] eqn:E2; [|eapply D; [reflexivity|exact E2]].
    destruct (flt_of (ev (EExpr [sys "Times"; EFlt c; EExpr [sys "Cos"; EFlt i]]))) as [re|] eqn:E3; [|eapply D; [reflexivity|exact E3]].
    destruct (flt_is_int f); [discriminate C'|].
    destruct (flt_of (ev (EExpr [sys "Times"; EFlt c; EExpr [sys "Sin"; EFlt i]]))) as [im|] eqn:E4; [discriminate C'|eapply D; [reflexivity|exact E4]].
Qed.
Print Assumptions C124_crash_only.

(* A negative machine real g to a machine-real power f: with c the value of
   (g^2)^(f/2) and i that of f Arg[g], the value of c Cos[i] for a whole power,
   otherwise the complex number with parts c Cos[i] and c Sin[i]. *)
Theorem C124_negative_base : forall pow ev fuel g f c i re im, negative (EFlt g) -> ~ zero (EFlt f) -> ~ is_one (EFlt f) ->
  fcmp f flt_m1 <> Eq ->
  ev (EExpr [sys "Power"; EExpr [sys "Power"; EFlt g; EInt 2]; EExpr [sys "Times"; EFlt f; ERat 1 2]]) = EFlt c ->
  ev (EExpr [sys "Times"; EFlt f; EExpr [sys "Arg"; EFlt g]]) = EFlt i ->
  ev (EExpr [sys "Times"; EFlt c; EExpr [sys "Cos"; EFlt i]]) = EFlt re ->
  ev (EExpr [sys "Times"; EFlt c; EExpr [sys "Sin"; EFlt i]]) = EFlt im ->
  (flt_is_int f = true -> power_fn pow ev fuel [EFlt g; EFlt f] = Done (EFlt re)) /\
  (flt_is_int f = false -> power_fn pow ev fuel [EFlt g; EFlt f] = Done (ECplx (EFlt re) (EFlt im))).
Proof.
  intros pow ev fuel g f c i re im B Z O M Vc Vi Vr Vm. rewrite (power_lt pow ev fuel _ f B Z O). unfold power_negative.
  destruct (fcmp f flt_m1) eqn:E; [contradiction| |]; cbn zeta; rewrite Vc; cbn [flt_of]; rewrite Vi; cbn [flt_of];
    rewrite Vr; cbn [flt_of]; (split; intro I; rewrite I; [reflexivity|rewrite Vm; reflexivity]).
Qed.
Print Assumptions C124_negative_base.

(* Bases and powers that are not numbers of these kinds are left to the rules. *)
Theorem C124_others : forall pow ev fuel b p,
  (~ is_one p -> ~ signed_num b -> power_fn pow ev fuel [b; p] = Same) /\
  (~ signed_num p -> (forall n d, p <> ERat n d) -> power_fn pow ev fuel [b; p] = Same).
Proof.
  intros pow ev fuel b p. split.
  - intros O N. unfold power_fn. rewrite (not_one _ O).
    destruct b as [s|s|z|n d|f|x y|l]; try solve [exfalso; apply N; unfold signed_num; eauto];
      (destruct (sign_of p) as [[]|]; cbn [sign_of]; destruct p; reflexivity).
  - intros N R. unfold power_fn.
    destruct p as [s|s|z|n d|f|x y|l]; try solve [exfalso; apply N; unfold signed_num; eauto];
      try solve [exfalso; eapply R; reflexivity];
      (cbn [sign_of]; destruct (sign_of b) as [[]|]; destruct b; reflexivity).
Qed.
Print Assumptions C124_others.

Definition half : flt := FFin false (2 ^ 52) (-53) 0.
Example C124_crash_ex : forall pow ev fuel, power_fn pow ev fuel [EInt (-2); EFlt half] = Crash.
Proof.
  intros. apply C124_total_refuted; [reflexivity| | |vm_compute; discriminate].
  - intros [K|[f [K E]]]; [discriminate K|]. injection K as <-. vm_compute in E. discriminate E.
  - intros [K|[f [K E]]]; [discriminate K|]. injection K as <-. vm_compute in E. discriminate E.
Qed.

(* ---- C125: Sin, Cos, Tan, Cot, ArcTan, Exp, Log of machine reals ---- *)
(* A machine real goes to a machine real or, if the function has no value there,
   the program stops; every other call is left alone. *)
Theorem C125_math_functions : forall fn args,
  match math_fn fn args with
  | Done e => exists f r, args = [EFlt f] /\ fn f = Some r /\ e = EFlt r
  | Crash => exists f, args = [EFlt f] /\ fn f = None
  | Same => (forall f, args <> [EFlt f]) \/ exists f, args = [EFlt f] /\ is_f64 f = false
  end.
Proof.
  intros fn args. destruct args as [|[s|s|z|n d|f|a b|l] [|? ?]]; cbn [math_fn];
    try (left; intros g H; discriminate H).
  destruct (is_f64 f) eqn:E; [|right; exists f; split; [reflexivity|exact E]].
  destruct (fn f) as [r|] eqn:V; [exists f, r; auto|exists f; auto].
Qed.
Print Assumptions C125_math_functions.

(* The machine reals it is evaluated for are the values of float64. *)
Theorem C125_representable : forall s m e a x, (2 ^ 52 <= m < 2 ^ 53)%N -> flt_q (FFin s m e a) = Some x ->
  is_f64 (FFin s m e a) = true <->
  exists n k, Z.abs n < 2 ^ 53 /\ -1074 <= k <= 971 /\ (x == inject_Z n * (2 # 1) ^ k)%Q.
Proof.
  intros s m e a x B X. destruct (flt_q_smant _ _ X) as [s0 [m0 [e0 [a0 [K V]]]]]. injection K as <- <- <- <-.
  assert (Bm : 2 ^ 52 <= Z.of_N m < 2 ^ 53) by lia.
  cbn [is_f64]. destruct (N.eqb_spec m 0) as [->|_]; [exfalso; lia|]. cbn [orb].
  rewrite Bool.andb_true_iff, Z.leb_le, Z.eqb_eq. split.
  - intros [L D]. destruct (Z.le_gt_cases (-1074) e) as [H|H].
    + exists (smant s m), e. split; [destruct s; cbn [smant]; lia|]. split; [lia|exact V].
    + rewrite (Z.max_r 0 (-1074 - e)) in D by lia.
      pose proof (pow2_pos (-1074 - e) ltac:(lia)) as P. apply Z.mod_divide in D; [|lia]. destruct D as [q D].
      exists ((if s then -1 else 1) * q), (-1074). split; [|split; [lia|]].
      * destruct s; nia.
      * rewrite V. rewrite <- (p2_shift (-1074) e) by lia. rewrite Qmult_assoc, <- inject_Z_mult.
        assert (EQ : smant s m = (if s then -1 else 1) * q * 2 ^ (-1074 - e)).
        { unfold smant. destruct s; rewrite D; ring. }
        rewrite EQ. reflexivity.
  - intros [n [k [N [Kk E]]]]. rewrite V in E.
    assert (Z1 : smant s m * 2 ^ (e - Z.min e k) = n * 2 ^ (k - Z.min e k)).
    { apply inject_Z_injective. rewrite !inject_Z_mult.
      assert (NZ : ~ ((2 # 1) ^ Z.min e k == 0)%Q) by apply p2_nz.
      apply (Qmult_inj_r _ _ _ NZ). rewrite <- !Qmult_assoc, !p2_shift by lia. exact E. }
    assert (A : Z.of_N m * 2 ^ (e - Z.min e k) = Z.abs n * 2 ^ (k - Z.min e k)).
    { pose proof (pow2_pos (e - Z.min e k) ltac:(lia)). pose proof (pow2_pos (k - Z.min e k) ltac:(lia)).
      destruct s; cbn [smant] in Z1; nia. }
    split.
    + destruct (Z.le_gt_cases (e + 52) 1023) as [|L]; [assumption|]. exfalso.
      rewrite Z.min_r in A by lia. rewrite Z.sub_diag, Z.pow_0_r, Z.mul_1_r in A.
      assert (2 ^ 1 <= 2 ^ (e - k)) by (apply Z.pow_le_mono_r; lia). lia.
    + destruct (Z.le_gt_cases (-1074) e) as [H|H].
      * rewrite (Z.max_l 0 (-1074 - e)) by lia. apply Z.mod_1_r.
      * rewrite (Z.max_r 0 (-1074 - e)) by lia. rewrite Z.min_l in A by lia. rewrite Z.sub_diag, Z.pow_0_r, Z.mul_1_r in A.
        apply Z.mod_divide; [pose proof (pow2_pos (-1074 - e) ltac:(lia)); lia|].
        exists (Z.abs n * 2 ^ (k + 1074)). rewrite A. rewrite <- Z.mul_assoc, <- Z.pow_add_r by lia. do 2 f_equal. lia.
Qed.
Print Assumptions C125_representable.

(* Log of a machine real that is not positive is left alone, of a positive one
   is a machine real. *)
Theorem C125_log : forall log f,
  (fcmp f flt0 = Gt -> big_fn log true [EFlt f] = Done (EFlt (log f))) /\
  (fcmp f flt0 <> Gt -> big_fn log true [EFlt f] = Same).
Proof.
  intros log f. unfold big_fn. split; intro H.
  - rewrite H. reflexivity.
  - destruct (fcmp f flt0); try reflexivity. contradiction.
Qed.
Print Assumptions C125_log.

(* Sin of an infinite machine real stops the program, and Cot gives one:
   Sin[Cot[0.]], as math.Tan(0) = 0, 1/0 = +Inf and math.Sin(+Inf) = NaN. *)
Theorem C125_total_refuted : forall sin tan recip, tan flt0 = Some flt0 -> recip flt0 = Some (FInf false) -> sin (FInf false) = None ->
  exists f, math_fn (cot_fn tan recip) [EFlt flt0] = Done (EFlt f) /\ math_fn sin [EFlt f] = Crash.
Proof.
  intros sin tan recip T R S. exists (FInf false). unfold math_fn, cot_fn. cbn [is_f64 flt0 N.eqb orb]. 
  fold flt0. rewrite T, R, S. split; reflexivity.
Qed.
Print Assumptions C125_total_refuted.

Example C125_ex : math_fn (fun f => Some f) [EFlt half] = Done (EFlt half) /\ is_f64 (FFin false (2 ^ 52) 5000 0) = false /\
  is_f64 (FFin false (2 ^ 52) (-1100) 0) = true /\ is_f64 (FFin false (2 ^ 52 + 1) (-1100) 0) = false.
Proof. repeat split. Qed.
