(* Lemmas for Expand: the multinomial theorem in a field, and the list of exponents. *)
From Verif Require Import M_Syntax M_Float M_Hash M_Num M_NumTheory M_Comb M_Compare M_List M_LibExpand S_Comb S_Field P_Comb P_Hash.
From Coq Require Import List Permutation Lia Arith ZArith Field.
Import ListNotations.
Open Scope nat_scope.

(* ---- counting ---- *)
Fixpoint binom (n k : nat) : nat :=
  match n, k with
  | _, O => 1
  | O, S _ => 0
  | S n', S k' => binom n' k' + binom n' k
  end.
Lemma binom_0 n : binom n 0 = 1. Proof. destruct n; reflexivity. Qed.
Lemma binom_big n : forall k, n < k -> binom n k = 0.
Proof. induction n; intros [|k] H; try lia; [reflexivity|]. cbn. rewrite !IHn by lia. reflexivity. Qed.
Lemma binom_S n k : binom (S n) (S k) = binom n k + binom n (S k). Proof. reflexivity. Qed.

Lemma binom_fact : forall s i j, i + j = s -> (Z.of_nat (binom s i) * (fact_loop i * fact_loop j) = fact_loop s)%Z.
Proof.
  induction s as [|s IH]; intros i j H.
  - assert (i = 0) by lia. assert (j = 0) by lia. subst. reflexivity.
  - destruct i as [|i].
    + rewrite binom_0. replace j with (S s) by lia. change (fact_loop 0) with 1%Z. change (Z.of_nat 1) with 1%Z. lia.
    + rewrite binom_S. destruct j as [|j].
      * rewrite (binom_big s (S i)) by lia. rewrite Nat.add_0_r.
        pose proof (IH i 0 ltac:(lia)) as E. replace i with s in * by lia.
        change (fact_loop 0) with 1%Z in *. change (fact_loop (S s)) with (Z.of_nat (S s) * fact_loop s)%Z. rewrite <- E at 2. ring.
      * pose proof (IH i (S j) ltac:(lia)) as E1. pose proof (IH (S i) j ltac:(lia)) as E2.
        rewrite Nat2Z.inj_add.
        change (fact_loop (S s)) with (Z.of_nat (S s) * fact_loop s)%Z.
        replace (Z.of_nat (S s)) with (Z.of_nat (S i) + Z.of_nat (S j))%Z by lia.
        replace ((Z.of_nat (S i) + Z.of_nat (S j)) * fact_loop s)%Z with (Z.of_nat (S i) * fact_loop s + Z.of_nat (S j) * fact_loop s)%Z by ring.
        rewrite <- E1 at 1. rewrite <- E2.
        change (fact_loop (S i)) with (Z.of_nat (S i) * fact_loop i)%Z.
        change (fact_loop (S j)) with (Z.of_nat (S j) * fact_loop j)%Z. ring.
Qed.

(* the multinomial coefficient *)
Fixpoint multi (e : list nat) : nat :=
  match e with [] => 1 | k :: t => binom (nsum e) k * multi t end.
Lemma fact_pos n : (0 < fact_loop n)%Z.
Proof. induction n; [reflexivity|]. cbn [fact_loop]. nia. Qed.
Lemma multi_fact e : (Z.of_nat (multi e) * zprodl (map fact_loop e) = fact_loop (nsum e))%Z.
Proof.
  induction e as [|k t IH]; [reflexivity|].
  cbn [multi map zprodl fold_right]. fold (zprodl (map fact_loop t)).
  rewrite Nat2Z.inj_mul. rewrite <- (binom_fact (nsum (k :: t)) k (nsum t)) by reflexivity. rewrite <- IH. ring.
Qed.
Lemma zprodl_pos e : (0 < zprodl (map fact_loop e))%Z.
Proof. induction e as [|k t IH]; [reflexivity|]. cbn [map zprodl fold_right]. fold (zprodl (map fact_loop t)). pose proof (fact_pos k). nia. Qed.

Definition ints (e : list nat) : list ex := map (fun k => EInt (Z.of_nat k)) e.
Lemma as_ints_ints e : as_ints (ints e) = Some (map Z.of_nat e).
Proof. induction e as [|k t IH]; [reflexivity|]. cbn. unfold ints in IH. rewrite IH. reflexivity. Qed.
Lemma zsum_nat e : zsum (map Z.of_nat e) = Z.of_nat (nsum e).
Proof. induction e as [|k t IH]; [reflexivity|]. cbn [map zsum fold_right nsum]. fold (zsum (map Z.of_nat t)). rewrite IH. fold (nsum t). lia. Qed.
Lemma eval_rational_exact a b : (0 < b)%Z -> (0 < a)%Z -> eval_rational (a * b) b = EInt a.
Proof.
  intros Hb Ha. unfold eval_rational.
  destruct (Z.eqb_spec (a * b) 0); [nia|]. destruct (Z.eqb_spec b 0); [lia|]. cbn [andb].
  assert (G : Z.gcd (Z.abs (a * b)) (Z.abs b) = b).
  { rewrite (Z.abs_eq b) by lia. rewrite Z.abs_eq by nia. rewrite Z.gcd_comm. rewrite Z.mul_comm, Z.gcd_mul_diag_l; lia. }
  rewrite G. rewrite (Z.abs_eq b) by lia. rewrite Z.abs_eq by nia. rewrite Z.div_same by lia. rewrite Z.div_mul by lia.
  change (1 =? 1)%Z with true. cbv iota. destruct (Z.ltb_spec (a*b) 0); [nia|]. destruct (Z.ltb_spec b 0); [lia|]. reflexivity.
Qed.
Lemma multi_pos e : 0 < multi e.
Proof. pose proof (multi_fact e). pose proof (zprodl_pos e). pose proof (fact_pos (nsum e)). destruct (multi e); [|lia]. cbn in H. lia. Qed.
Lemma multinomial_ints e : multinomial_eval (ints e) = Some (EInt (Z.of_nat (multi e))).
Proof.
  unfold multinomial_eval. rewrite as_ints_ints.
  replace (forallb (fun z => (0 <=? z)%Z) (map Z.of_nat e)) with true by
    (symmetry; rewrite forallb_forall; intros z Hz; apply in_map_iff in Hz; destruct Hz as [k [<- _]]; apply Z.leb_le; lia).
  rewrite zsum_nat, Nat2Z.id, map_map.
  replace (map (fun x => fact_loop (Z.to_nat (Z.of_nat x))) e) with (map fact_loop e) by (apply map_ext; intro; rewrite Nat2Z.id; reflexivity).
  rewrite <- multi_fact. rewrite eval_rational_exact; [reflexivity|apply zprodl_pos|pose proof (multi_pos e); lia].
Qed.

(* ---- canonical list of exponents ---- *)
Fixpoint all_exps (n m : nat) : list (list nat) :=
  match m with
  | O => match n with O => [[]] | _ => [] end
  | S m' => flat_map (fun k => map (cons k) (all_exps (n - k) m')) (seq 0 (S n))
  end.
Lemma all_exps_in : forall m n e, In e (all_exps n m) <-> length e = m /\ nsum e = n.
Proof.
  induction m as [|m IH]; intros n e.
  - destruct n; cbn.
    + split; [intros [<-|[]]; auto|]. intros [H _]. destruct e; [auto|discriminate].
    + split; [intros []|]. intros [H H']. destruct e; [|discriminate]. discriminate.
  - cbn [all_exps]. rewrite in_flat_map. split.
    + intros [k [Hk He]]. apply in_seq in Hk. apply in_map_iff in He. destruct He as [t [<- Ht]].
      apply IH in Ht. destruct Ht as [H1 H2]. cbn [length]. rewrite nsum_cons. lia.
    + intros [H1 H2]. destruct e as [|k t]; [discriminate|]. rewrite nsum_cons in H2. exists k. split; [apply in_seq; lia|].
      apply in_map_iff. exists t. split; [reflexivity|]. apply IH. cbn in H1. lia.
Qed.
Lemma NoDup_flat {A B} (f : A -> list B) l : NoDup l -> (forall x, In x l -> NoDup (f x)) ->
  (forall x y b, In x l -> In y l -> In b (f x) -> In b (f y) -> x = y) -> NoDup (flat_map f l).
Proof.
  induction l as [|x l IH]; intros ND H1 H2; [constructor|]. inversion ND; subst. cbn [flat_map].
  assert (D : NoDup (flat_map f l)) by (apply IH; [assumption|intros; apply H1; right; assumption|intros y z b Hy Hz; apply H2; right; assumption]).
  pose proof (H1 x (or_introl eq_refl)) as D1.
  assert (X : forall b, In b (f x) -> ~ In b (flat_map f l)).
  { intros b Hb Hf. apply in_flat_map in Hf. destruct Hf as [y [Hy Hb']]. apply H3. rewrite (H2 x y b); auto; [left; auto|right; auto]. }
  clear - D D1 X. induction (f x) as [|b t IHt]; [exact D|]. cbn. inversion D1; subst. constructor.
  - rewrite in_app_iff. intros [Hb|Hb]; [contradiction|]. apply (X b); [left; auto|exact Hb].
  - apply IHt; [assumption|]. intros b' Hb'. apply X. right; exact Hb'.
Qed.
Lemma all_exps_nodup : forall m n, NoDup (all_exps n m).
Proof.
  induction m as [|m IH]; intro n.
  - destruct n; cbn; [constructor; [intros []|constructor]|constructor].
  - cbn [all_exps]. apply NoDup_flat; [apply seq_NoDup| |].
    + intros k _. apply FinFun.Injective_map_NoDup; [|apply IH]. intros a b E. injection E. auto.
    + intros x y b _ _ Hx Hy. apply in_map_iff in Hx. apply in_map_iff in Hy. destruct Hx as [t [<- _]], Hy as [t' [E _]]. injection E. auto.
Qed.

(* ---- the multinomial theorem ---- *)
Section with_field.
  Variable F : field.
  Add Field ff : (f_theory F).
  Fixpoint nat_f (n : nat) : F := match n with O => f0 | S k => fadd f1 (nat_f k) end.
  Lemma nat_f_add a b : nat_f (a + b) = fadd (nat_f a) (nat_f b).
  Proof. induction a; cbn [nat_f plus]; [ring|]. rewrite IHa. ring. Qed.
  Lemma nat_f_mul a b : nat_f (a * b) = fmul (nat_f a) (nat_f b).
  Proof. induction a; cbn [nat_f Nat.mul]; [ring|]. rewrite nat_f_add, IHa. ring. Qed.
  Lemma gen_phiPOS_nat p : gen_phiPOS f1 fadd fmul p = nat_f (Pos.to_nat p).
  Proof.
    induction p as [p IH|p IH|].
    - rewrite Pos2Nat.inj_xI. cbn [nat_f]. rewrite Nat.mul_comm, nat_f_mul. rewrite <- IH. destruct p; cbn [gen_phiPOS nat_f]; ring.
    - rewrite Pos2Nat.inj_xO. rewrite Nat.mul_comm, nat_f_mul. rewrite <- IH. destruct p; cbn [gen_phiPOS nat_f]; ring.
    - change (Pos.to_nat 1) with 1. cbn [nat_f gen_phiPOS]. ring.
  Qed.
  Lemma of_int_nat n : of_int (Z.of_nat n) = nat_f n :> F.
  Proof.
    destruct n; [reflexivity|]. unfold of_int. cbn [Z.of_nat gen_phiZ]. rewrite gen_phiPOS_nat, SuccNat2Pos.id_succ. reflexivity.
  Qed.
  Lemma fpow_S (x : F) n : fpow x (S n) = fmul x (fpow x n). Proof. reflexivity. Qed.
  Lemma fpow_0 (x : F) : fpow x 0 = f1. Proof. reflexivity. Qed.
  Lemma fsum_cons (x : F) l : fsum (x :: l) = fadd x (fsum l). Proof. reflexivity. Qed.
  Lemma fprod_cons (x : F) l : fprod (x :: l) = fmul x (fprod l). Proof. reflexivity. Qed.
  Lemma fsum_app (a b : list F) : fsum (a ++ b) = fadd (fsum a) (fsum b).
  Proof. induction a; cbn [app]; [cbn; ring|]. rewrite !fsum_cons, IHa. ring. Qed.
  Lemma fprod_app (a b : list F) : fprod (a ++ b) = fmul (fprod a) (fprod b).
  Proof. induction a; cbn [app]; [cbn; ring|]. rewrite !fprod_cons, IHa. ring. Qed.
  Lemma fsum_perm (a b : list F) : Permutation a b -> fsum a = fsum b.
  Proof. induction 1; rewrite ?fsum_cons; [reflexivity|congruence|ring|congruence]. Qed.
  Lemma fprod_perm (a b : list F) : Permutation a b -> fprod a = fprod b.
  Proof. induction 1; rewrite ?fprod_cons; [reflexivity|congruence|ring|congruence]. Qed.
  Lemma fsum_scale {A} (c : F) (f : A -> F) l : fsum (map (fun x => fmul c (f x)) l) = fmul c (fsum (map f l)).
  Proof. induction l; cbn [map]; [cbn; ring|]. rewrite !fsum_cons, IHl. ring. Qed.
  Lemma fsum_plus {A} (f g : A -> F) l : fsum (map (fun x => fadd (f x) (g x)) l) = fadd (fsum (map f l)) (fsum (map g l)).
  Proof. induction l; cbn [map]; [cbn; ring|]. rewrite !fsum_cons, IHl. ring. Qed.
  Lemma fsum_flat {A B} (f : A -> list B) (g : B -> F) l : fsum (map g (flat_map f l)) = fsum (map (fun x => fsum (map g (f x))) l).
  Proof. induction l; cbn [flat_map map]; [reflexivity|]. rewrite map_app, fsum_app, fsum_cons, IHl. reflexivity. Qed.
  Lemma fsum_ext {A} (f g : A -> F) l : (forall x, In x l -> f x = g x) -> fsum (map f l) = fsum (map g l).
  Proof. intro H. f_equal. apply map_ext_in. exact H. Qed.

  Definition bterm (x y : F) (n k : nat) : F := fmul (nat_f (binom n k)) (fmul (fpow x k) (fpow y (n - k))).
  Lemma fsum_seq_shift (f : nat -> F) n : fsum (map f (seq 1 n)) = fsum (map (fun k => f (S k)) (seq 0 n)).
  Proof. rewrite <- seq_shift, map_map. reflexivity. Qed.
  Lemma binomial (x y : F) n : fpow (fadd x y) n = fsum (map (bterm x y n) (seq 0 (S n))).
  Proof.
    induction n as [|n IH]; [unfold bterm; cbn; ring|].
    rewrite fpow_S, IH.
    change (seq 0 (S (S n))) with (0 :: seq 1 (S n)). cbn [map]. rewrite fsum_cons, fsum_seq_shift.
    assert (E1 : fmul x (fsum (map (bterm x y n) (seq 0 (S n)))) = fsum (map (fun k => fmul (nat_f (binom n k)) (fmul (fpow x (S k)) (fpow y (S n - S k)))) (seq 0 (S n)))).
    { rewrite <- fsum_scale. apply fsum_ext. intros k _. unfold bterm. rewrite fpow_S. change (S n - S k) with (n - k). ring. }
    assert (E2 : fmul y (fsum (map (bterm x y n) (seq 0 (S n)))) =
       fadd (bterm x y (S n) 0) (fsum (map (fun k => fmul (nat_f (binom n (S k))) (fmul (fpow x (S k)) (fpow y (S n - S k)))) (seq 0 (S n))))).
    { rewrite <- fsum_scale.
      transitivity (fsum (map (fun k => fmul (nat_f (binom n k)) (fmul (fpow x k) (fpow y (S n - k)))) (seq 0 (S n)))).
      - apply fsum_ext. intros k Hk. apply in_seq in Hk. unfold bterm. replace (S n - k) with (S (n - k)) by lia. rewrite fpow_S. ring.
      - change (seq 0 (S n)) with (0 :: seq 1 n) at 1. cbn [map]. rewrite fsum_cons, fsum_seq_shift. unfold bterm. rewrite !binom_0.
        f_equal. rewrite seq_S, map_app, fsum_app. cbn [map plus]. rewrite fsum_cons. rewrite (binom_big n (S n)) by lia. cbn [nat_f].
        change (fsum []) with (f0 : F). ring. }
    transitivity (fadd (fmul x (fsum (map (bterm x y n) (seq 0 (S n))))) (fmul y (fsum (map (bterm x y n) (seq 0 (S n)))))); [ring|].
    rewrite E1, E2.
    rewrite (fsum_ext (fun k => bterm x y (S n) (S k)) (fun k => fadd (fmul (nat_f (binom n k)) (fmul (fpow x (S k)) (fpow y (S n - S k)))) (fmul (nat_f (binom n (S k))) (fmul (fpow x (S k)) (fpow y (S n - S k)))))).
    - rewrite fsum_plus. ring.
    - intros k _. unfold bterm. rewrite binom_S, nat_f_add. ring.
  Qed.

  Definition mono (xs : list F) (e : list nat) : F := fprod (map (fun '(x, k) => fpow x k) (combine xs e)).
  Definition mterm (xs : list F) (e : list nat) : F := fmul (nat_f (multi e)) (mono xs e).
  Lemma fpow_f0 n : 0 < n -> fpow (f0 : F) n = f0.
  Proof. destruct n; [lia|]. intros _. rewrite fpow_S. ring. Qed.
  Lemma multinomial_thm : forall xs n, fpow (fsum xs) n = fsum (map (mterm xs) (all_exps n (length xs))).
  Proof.
    induction xs as [|x xs IH]; intro n.
    - destruct n; [cbn; unfold mterm, mono; cbn; ring|]. change (fsum []) with (f0 : F). rewrite fpow_f0 by lia. reflexivity.
    - rewrite fsum_cons, binomial. cbn [length all_exps]. rewrite fsum_flat. apply fsum_ext. intros k Hk. apply in_seq in Hk.
      unfold bterm. rewrite IH, map_map.
      rewrite (fsum_ext (fun t => mterm (x :: xs) (k :: t)) (fun t => fmul (fmul (nat_f (binom n k)) (fpow x k)) (mterm xs t))).
      + rewrite fsum_scale. ring.
      + intros t Ht. apply all_exps_in in Ht. destruct Ht as [_ Hs]. unfold mterm, mono. cbn [combine map]. rewrite fprod_cons.
        cbn [multi]. rewrite nsum_cons. replace (k + nsum t) with n by lia. rewrite nat_f_mul. ring.
  Qed.
End with_field.
