From Verif Require Import M_Syntax M_Num M_NumTheory M_LibNum S_NumTheory S_LibNum P_NumTheory P_LibNum P_LibNum2.
From Coq Require Import QArith Qabs Qpower Qround Znumtheory Zpow_facts Permutation Qfield.
Open Scope Z_scope.

Lemma prime_divisor n : 2 <= n -> exists q, prime q /\ (q | n).
Proof.
  intro H. destruct (factor_loop_ok (Z.to_nat n) n ltac:(lia) ltac:(lia)) as [l [_ [P [Pr _]]]].
  destruct l as [|q t]; [cbn in P; lia|]. exists q. split; [apply Pr; left; reflexivity|].
  rewrite zprod_cons in P. exists (zprod t). lia.
Qed.

Lemma prime_divides_value q l : prime q -> (forall p k, In (p, k) l -> prime p /\ 1 <= k) ->
  forall n, (factor_value l == inject_Z n)%Q -> (q | n) -> In q (map fst l).
Proof.
  intro Pq. induction l as [|[p k] t IH]; intros P n V D.
  - change (factor_value []) with (inject_Z 1) in V. apply (proj1 (inject_Z_injective 1 n)) in V. subst n.
    pose proof (prime_ge_2 q Pq). apply Z.divide_1_r_nonneg in D; lia.
  - destruct (P p k (or_introl eq_refl)) as [Pp Kp].
    assert (Pt : forall p k, In (p, k) t -> prime p /\ 1 <= k) by (intros a b X; apply (P a b); right; exact X).
    assert (Iv : exists m, (factor_value t == inject_Z m)%Q).
    { clear - Pt. induction t as [|[a b] s IHs]; [exists 1; reflexivity|].
      destruct IHs as [m Hm]; [intros c d Hcd; apply (Pt c d); right; exact Hcd|].
      exists (a ^ b * m). destruct (Pt a b (or_introl eq_refl)).
      rewrite factor_value_cons, Qpower_Z, inject_Z_mult, Hm by lia. reflexivity. }
    destruct Iv as [m Hm].
    assert (E : n = p ^ k * m).
    { apply inject_Z_injective. rewrite <- V, factor_value_cons, Qpower_Z, inject_Z_mult, Hm by lia. reflexivity. }
    subst n. apply prime_mult in D; [|exact Pq]. cbn [map fst]. destruct D as [D|D].
    + left. symmetry. apply (prime_power_prime q p k); auto; lia.
    + right. apply (IH Pt m Hm D).
Qed.

Lemma zprod_divides l n : NoDup l -> (forall p, In p l -> prime p) -> (forall p, In p l -> (p | n)) -> (zprod l | n).
Proof.
  induction l as [|p t IH]; intros N P D; [apply Z.divide_1_l|]. inversion N as [|? ? N1 N2]; subst.
  rewrite zprod_cons.
  assert (Dt : (zprod t | n)) by (apply IH; auto; intros; [apply P|apply D]; right; assumption).
  assert (Pp : prime p) by (apply P; left; reflexivity).
  destruct Dt as [c Hc]. assert (Dp : (p | c * zprod t)) by (rewrite <- Hc; apply D; left; reflexivity).
  apply prime_mult in Dp; [|exact Pp]. destruct Dp as [[e He]|Dp].
  - exists e. rewrite Hc, He. ring.
  - exfalso. clear - Dp Pp P N1. induction t as [|q t IH].
    + pose proof (prime_ge_2 p Pp). apply Z.divide_1_r_nonneg in Dp; lia.
    + rewrite zprod_cons in Dp. apply prime_mult in Dp; [|exact Pp]. destruct Dp as [Dp|Dp].
      * apply prime_div_prime in Dp; auto; [|apply P; right; left; reflexivity]. subst q. apply N1. left. reflexivity.
      * apply IH; auto; [|intro; apply N1; right; assumption].
        intros x [<-|X]; apply P; [left; reflexivity|right; right; exact X].
Qed.

Lemma phi_fold l : forall a, (fold_left (fun acc pk => acc * (1 - 1 / inject_Z (fst pk))) l a
  == a * phi_prod (map (@fst Z Z) l))%Q.
Proof.
  induction l as [|[p k] t IH]; intro a.
  - change (phi_prod (map fst [])) with 1%Q. cbn [fold_left]. ring.
  - cbn [fold_left map]. rewrite IH. cbn [phi_prod fold_right fst]. fold (phi_prod (map (@fst Z Z) t)). ring.
Qed.

Lemma cntb_coprime n : 2 <= n -> coprime_count n = cntb (fun k => Z.gcd k n =? 1) (Z.to_nat n).
Proof.
  intro H. unfold coprime_count, cntb. f_equal.
  set (f := fun k => Z.gcd (Z.of_nat k) n =? 1).
  assert (E : Z.to_nat n = S (Z.to_nat n - 1)) by lia. set (m := (Z.to_nat n - 1)%nat) in *. rewrite E.
  assert (A : filter f (seq 1 (S m)) = filter f (seq 1 m)).
  { rewrite seq_S, filter_app. replace (filter f [(1 + m)%nat]) with (@nil nat); [apply app_nil_r|].
    cbn [filter]. unfold f. replace (Z.of_nat (1 + m)) with n by lia. rewrite Z.gcd_diag, Z.abs_eq by lia.
    destruct (Z.eqb_spec n 1); [lia|reflexivity]. }
  rewrite A. cbn [seq filter]. unfold f at 2. change (Z.of_nat 0) with 0. rewrite Z.gcd_0_l, Z.abs_eq by lia.
  destruct (Z.eqb_spec n 1); [lia|reflexivity].
Qed.

Lemma euler_phi_ok n fuel : 2 <= n -> (Z.to_nat n <= fuel)%nat ->
  exists v, euler_phi_pos fuel n = Some v /\ (v == inject_Z (coprime_count n))%Q.
Proof.
  intros Hn Hf. unfold euler_phi_pos. destruct (Z.eqb_spec n 1); [lia|].
  destruct (factor_integer_ok n fuel) as [l [E [V [Inc P0]]]]; [lia|lia|]. rewrite E.
  assert (P : forall p k, In (p, k) l -> prime p /\ 1 <= k).
  { intros p k X. destruct (P0 p k X) as [[? _]|?]; [lia|assumption]. }
  eexists. split; [reflexivity|]. rewrite phi_fold, Qmult_1_l.
  assert (Pf : forall p, In p (map fst l) -> prime p).
  { intros p X. apply in_map_iff in X. destruct X as [[q k] [<- X]]. apply (P q k X). }
  assert (Df : forall p, In p (map fst l) -> (p | n)).
  { intros p X. apply in_map_iff in X. destruct X as [[q k] [<- X]].
    apply (factor_value_divides l n q k V); [|exact X]. intros a b Y. apply (P a b Y). }
  pose proof (increasing_nodup _ Inc) as ND.
  rewrite <- (avoid_count (map fst l) n ND Pf ltac:(lia) (zprod_divides _ n ND Pf Df)).
  rewrite cntb_coprime by exact Hn. apply inject_Z_injective. apply cntb_ext. intros k Hk.
  rewrite Z2Nat.id in Hk by lia.
  destruct (Z.eqb_spec (Z.gcd k n) 1) as [G|G].
  - unfold avoids. apply forallb_forall. intros p X. destruct (Z.eqb_spec (k mod p) 0) as [M|M]; [|reflexivity].
    exfalso. pose proof (prime_ge_2 p (Pf p X)). apply Z.mod_divide in M; [|lia].
    assert (D : (p | 1)) by (rewrite <- G; apply Z.gcd_greatest; [exact M|apply Df, X]).
    apply Z.divide_1_r_nonneg in D; lia.
  - assert (G2 : 2 <= Z.gcd k n).
    { pose proof (Z.gcd_nonneg k n). assert (Z.gcd k n <> 0) by (intro C; apply Z.gcd_eq_0_r in C; lia). lia. }
    destruct (prime_divisor _ G2) as [q [Pq Dq]].
    assert (Dk : (q | k)) by (apply (Z.divide_trans _ _ _ Dq), Z.gcd_divide_l).
    assert (Dn : (q | n)) by (apply (Z.divide_trans _ _ _ Dq), Z.gcd_divide_r).
    pose proof (prime_divides_value q l Pq P n V Dn) as X.
    destruct (avoids (map fst l) k) eqn:A; [|reflexivity]. exfalso.
    unfold avoids in A. rewrite forallb_forall in A. specialize (A q X).
    destruct (Z.eqb_spec (k mod q) 0) as [M|M]; [discriminate|]. apply M, Z.mod_divide; [|exact Dk].
    pose proof (prime_ge_2 q Pq). lia.
Qed.

(* ---- rational gcd ---- *)
Lemma rden_pos x : 0 < rden x. Proof. reflexivity. Qed.
Lemma Q_rnum x : (x == inject_Z (rnum x) / inject_Z (rden x))%Q.
Proof.
  unfold rnum, rden. rewrite <- (Qred_correct x) at 1. destruct (Qred x) as [a b]. cbn [Qnum Qden].
  unfold Qeq, Qdiv, Qinv, inject_Z. cbn. lia.
Qed.
Lemma inj_nz z : z <> 0 -> ~ (inject_Z z == 0)%Q.
Proof. intros H C. apply (proj1 (inject_Z_injective z 0)) in C. auto. Qed.

Lemma zgcd_list_eval zs : gcd_eval (map EInt zs) = Some (EInt (zgcd_list zs)).
Proof.
  unfold gcd_eval, zgcd_list. rewrite all_ints_map.
  destruct (map Z.abs (filter (fun z => negb (z =? 0)) zs)); reflexivity.
Qed.
Lemma zgcd_list_ok zs : 0 <= zgcd_list zs /\ (forall z, In z zs -> (zgcd_list zs | z)) /\
  (forall d, (forall z, In z zs -> (d | z)) -> (d | zgcd_list zs)).
Proof.
  destruct (gcd_eval_ints zs) as [g [E H]]. rewrite zgcd_list_eval in E. injection E as ->. exact H.
Qed.

Lemma rdivides_comb h x y u v : rdivides h x -> rdivides h y -> rdivides h (inject_Z u * x + inject_Z v * y).
Proof.
  intros [k Hk] [m Hm]. exists (u * k + v * m). rewrite Hk, Hm, inject_Z_plus, !inject_Z_mult. ring.
Qed.
Lemma rdivides_eq h x y : (x == y)%Q -> rdivides h x -> rdivides h y.
Proof. intros E [k Hk]. exists k. rewrite <- E. exact Hk. Qed.

Lemma fold_gcd_comb h c zs : forall g, rdivides h (inject_Z g * c) -> (forall z, In z zs -> rdivides h (inject_Z z * c)) ->
  rdivides h (inject_Z (fold_left Z.gcd zs g) * c).
Proof.
  induction zs as [|z t IH]; intros g Hg H; [exact Hg|]. cbn [fold_left]. apply IH; [|intros; apply H; right; assumption].
  destruct (Z.gcd_bezout g z (Z.gcd g z) eq_refl) as [u [v E]].
  apply (rdivides_eq h (inject_Z u * (inject_Z g * c) + inject_Z v * (inject_Z z * c))).
  - rewrite <- E, inject_Z_plus, !inject_Z_mult. ring.
  - apply rdivides_comb; [exact Hg|apply H; left; reflexivity].
Qed.
Lemma rdivides_neg h x : rdivides h x -> rdivides h (- x).
Proof. intros [k Hk]. exists (- k). rewrite Hk, inject_Z_opp. ring. Qed.
Lemma rdivides_abs h z c : rdivides h (inject_Z z * c) -> rdivides h (inject_Z (Z.abs z) * c).
Proof.
  intro H. destruct (Z.abs_spec z) as [[_ ->]|[_ ->]]; [exact H|].
  apply (rdivides_eq h (- (inject_Z z * c))); [rewrite inject_Z_opp; ring|apply rdivides_neg, H].
Qed.
Lemma zgcd_list_comb h c zs : (forall z, In z zs -> rdivides h (inject_Z z * c)) -> rdivides h (inject_Z (zgcd_list zs) * c).
Proof.
  intro H. unfold zgcd_list.
  assert (A : forall y, In y (map Z.abs (filter (fun z => negb (z =? 0)) zs)) -> rdivides h (inject_Z y * c)).
  { intros y Hy. apply in_map_iff in Hy. destruct Hy as [z [<- Hz]]. apply filter_In in Hz. apply rdivides_abs, H, Hz. }
  destruct (map Z.abs (filter (fun z => negb (z =? 0)) zs)) as [|g t].
  - exists 0. change (inject_Z 0) with 0%Q. ring.
  - apply fold_gcd_comb; [apply A; left; reflexivity|intros; apply A; right; assumption].
Qed.

(* common divisors are kept by every step *)
Definition cdiv (h : Q) (l : list Q) : Prop := forall x, In x l -> rdivides h x.

Lemma gcd_pair_l x y a b D : D <> 0 -> (x == inject_Z a / inject_Z D)%Q -> (y == inject_Z b / inject_Z D)%Q ->
  forall h, rdivides h x -> rdivides h y -> rdivides h (inject_Z (zgcd_list [a; b]) / inject_Z D).
Proof.
  intros ND Ex Ey h Hx Hy. unfold Qdiv. apply zgcd_list_comb. intros z [<-|[<-|[]]].
  - apply (rdivides_eq h x); [exact Ex|exact Hx].
  - apply (rdivides_eq h y); [exact Ey|exact Hy].
Qed.
Lemma gcd_pair_r x y a b D : D <> 0 -> (x == inject_Z a / inject_Z D)%Q -> (y == inject_Z b / inject_Z D)%Q ->
  forall h, rdivides h (inject_Z (zgcd_list [a; b]) / inject_Z D) -> rdivides h x /\ rdivides h y.
Proof.
  intros ND Ex Ey h [k Hk]. destruct (zgcd_list_ok [a; b]) as [_ [Dv _]].
  assert (Da : (zgcd_list [a; b] | a)) by (apply Dv; left; reflexivity).
  assert (Db : (zgcd_list [a; b] | b)) by (apply Dv; right; left; reflexivity).
  destruct Da as [u Hu], Db as [v Hv]. split.
  - exists (u * k). rewrite Ex, inject_Z_mult, <- Qmult_assoc, <- Hk. rewrite Hu at 1. rewrite inject_Z_mult. unfold Qdiv. ring.
  - exists (v * k). rewrite Ey, inject_Z_mult, <- Qmult_assoc, <- Hk. rewrite Hv at 1. rewrite inject_Z_mult. unfold Qdiv. ring.
Qed.

Lemma gcd_rr_div x y h : rdivides h (gcd_rr x y) <-> rdivides h x /\ rdivides h y.
Proof.
  pose proof (rden_pos x). pose proof (rden_pos y). unfold gcd_rr.
  assert (ND : rden x * rden y <> 0) by nia.
  assert (Nx : ~ (inject_Z (rden x) == 0)%Q) by (apply inj_nz; lia).
  assert (Ny : ~ (inject_Z (rden y) == 0)%Q) by (apply inj_nz; lia).
  assert (Ex : (x == inject_Z (rnum x * rden y) / inject_Z (rden x * rden y))%Q).
  { rewrite (Q_rnum x) at 1. rewrite !inject_Z_mult. field. auto. }
  assert (Ey : (y == inject_Z (rnum y * rden x) / inject_Z (rden x * rden y))%Q).
  { rewrite (Q_rnum y) at 1. rewrite !inject_Z_mult. field. auto. }
  split; [apply (gcd_pair_r x y _ _ _ ND Ex Ey)|]. intros [A B]. apply (gcd_pair_l x y _ _ _ ND Ex Ey); assumption.
Qed.
Lemma gcd_ri_div x y h : rden y = 1 -> rdivides h (gcd_ri x y) <-> rdivides h x /\ rdivides h y.
Proof.
  intro Dy. pose proof (rden_pos x). unfold gcd_ri.
  assert (ND : rden x <> 0) by lia.
  assert (Nx : ~ (inject_Z (rden x) == 0)%Q) by (apply inj_nz; lia).
  assert (Ey : (y == inject_Z (rnum y * rden x) / inject_Z (rden x))%Q).
  { rewrite (Q_rnum y) at 1. rewrite Dy, !inject_Z_mult. change (inject_Z 1) with 1%Q. field. exact Nx. }
  split; [apply (gcd_pair_r x y _ _ _ ND (Q_rnum x) Ey)|].
  intros [A B]. apply (gcd_pair_l x y _ _ _ ND (Q_rnum x) Ey); assumption.
Qed.

Lemma cdiv_app h l l' : cdiv h (l ++ l') <-> cdiv h l /\ cdiv h l'.
Proof.
  unfold cdiv. split; [intro H; split; intros x Hx; apply H, in_app_iff; tauto|].
  intros [A B] x Hx. apply in_app_iff in Hx. destruct Hx; auto.
Qed.
Lemma cdiv_cons h x l : cdiv h (x :: l) <-> rdivides h x /\ cdiv h l.
Proof.
  unfold cdiv. split; [intro H; split; [apply H; left; reflexivity|intros; apply H; right; assumption]|].
  intros [A B] y [<-|Hy]; auto.
Qed.
Lemma gcd_step_cdiv l l' h : gcd_step l l' -> cdiv h l <-> cdiv h l'.
Proof.
  intros [l1 l2 l3 x y Hx Hy|l1 l2 l3 x y Hx Hy|l1 l2 l3 x y Hx Hy];
    rewrite ?cdiv_app, ?cdiv_cons, ?cdiv_app, ?cdiv_cons, ?cdiv_app;
    rewrite ?gcd_rr_div, ?(gcd_ri_div x y h Hy); tauto.
Qed.
Lemma gcd_final_cdiv l g h : gcd_final l g -> cdiv h l <-> rdivides h g.
Proof.
  intros [l0 Hl|x Hx].
  - assert (V : forall x, In x l0 -> (x == inject_Z (rnum x))%Q).
    { intros x X. rewrite (Q_rnum x) at 1. rewrite (Hl x X). change (inject_Z 1) with 1%Q. field. }
    split.
    + intro C. apply (rdivides_eq h (inject_Z (zgcd_list (map rnum l0)) * 1)); [ring|]. apply zgcd_list_comb.
      intros z Hz. apply in_map_iff in Hz. destruct Hz as [x [<- X]].
      apply (rdivides_eq h x); [rewrite (V x X) at 1; ring|apply C, X].
    + intros [k Hk] x X. destruct (zgcd_list_ok (map rnum l0)) as [_ [Dv _]].
      destruct (Dv (rnum x) (in_map rnum l0 x X)) as [u Hu]. exists (u * k).
      rewrite (V x X), Hu, inject_Z_mult, inject_Z_mult, <- Qmult_assoc, <- Hk. reflexivity.
  - unfold cdiv. split.
    + intro C. specialize (C x (or_introl eq_refl)). apply (Qabs_case x (fun y => rdivides h y)); intros _; [exact C|apply rdivides_neg, C].
    + intros H y [<-|[]]. revert H. apply (Qabs_case x (fun y => rdivides h y -> rdivides h x)); intros _ H; [exact H|].
      apply (rdivides_eq h (- - x)); [ring|apply rdivides_neg, H].
Qed.
Lemma gcd_final_nonneg l g : gcd_final l g -> (0 <= g)%Q.
Proof.
  intros [l0 _|x _]; [|apply Qabs_nonneg]. destruct (zgcd_list_ok (map rnum l0)) as [H _].
  change 0%Q with (inject_Z 0). rewrite <- Zle_Qle. exact H.
Qed.

(* ---- lcm ---- *)
Lemma zgcd_two a b : zgcd_list [a; b] = Z.gcd a b.
Proof.
  destruct (zgcd_list_ok [a; b]) as [N [D G]]. apply Z.divide_antisym_nonneg; [exact N|apply Z.gcd_nonneg| |].
  - apply Z.gcd_greatest; apply D; [left|right; left]; reflexivity.
  - apply G. intros z [<-|[<-|[]]]; [apply Z.gcd_divide_l|apply Z.gcd_divide_r].
Qed.
Lemma lcm2_ok a b : a <> 0 -> b <> 0 -> exists c, lcm2 a b = Some c /\ Z.abs c = Z.lcm a b /\ c <> 0.
Proof.
  intros Ha Hb. unfold lcm2. rewrite zgcd_two. assert (G : Z.gcd a b <> 0) by (intro C; apply Z.gcd_eq_0_l in C; lia).
  destruct (Z.eqb_spec (Z.gcd a b) 0); [contradiction|]. eexists. split; [reflexivity|].
  assert (E : a / Z.gcd a b * b = a * (b / Z.gcd a b)).
  { destruct (Z.gcd_divide_l a b) as [u Hu], (Z.gcd_divide_r a b) as [v Hv]. set (g := Z.gcd a b) in *.
    rewrite Hu, Hv, !Z.div_mul by exact G. ring. }
  split; [unfold Z.lcm; rewrite E; reflexivity|]. rewrite E.
  destruct (Z.gcd_divide_r a b) as [v Hv]. rewrite Hv at 1. rewrite Z.div_mul by exact G. nia.
Qed.
Lemma lcm_list_ok rest : forall a, a <> 0 -> (forall z, In z rest -> z <> 0) ->
  exists c, lcm_list a rest = Some c /\ c <> 0 /\ (forall z, z = a \/ In z rest -> (z | c)) /\
    (forall m, (forall z, z = a \/ In z rest -> (z | m)) -> (c | m)).
Proof.
  induction rest as [|b t IH]; intros a Ha H; cbn [lcm_list].
  - exists a. split; [reflexivity|]. split; [exact Ha|]. split; [intros z [->|[]]; apply Z.divide_refl|].
    intros m Hm. apply Hm. left. reflexivity.
  - destruct (lcm2_ok a b Ha (H b (or_introl eq_refl))) as [c [E [V Nc]]]. rewrite E.
    destruct (IH c Nc) as [m [Em [Nm [D L]]]]; [intros z Hz; apply H; right; exact Hz|].
    exists m. split; [exact Em|]. split; [exact Nm|]. split.
    + assert (Dc : (c | m)) by (apply D; left; reflexivity).
      intros z [->|[->|Hz]]; [| |apply D; right; exact Hz]; apply (Z.divide_trans _ c); try exact Dc; apply Z.divide_abs_r; rewrite V;
        [apply Z.divide_lcm_l|apply Z.divide_lcm_r].
    + intros k Hk. apply L. intros z [->|Hz]; [|apply Hk; right; right; exact Hz].
      apply Z.divide_abs_l. rewrite V. apply Z.lcm_least; apply Hk; [left; reflexivity|right; left; reflexivity].
Qed.

(* ---- Mod and parts of a rational ---- *)
Lemma mod_rat_ok x c : c <> 0 -> (0 <= mod_rat x c)%Q /\ (mod_rat x c < inject_Z (Z.abs c))%Q /\
  exists k : Z, (x - mod_rat x c == inject_Z (k * c))%Q.
Proof.
  intro Hc. pose proof (rden_pos x) as Dp. unfold mod_rat, big_mod. set (d := rden x) in *. set (m := rnum x mod Z.abs (c * d)).
  assert (Nd : ~ (inject_Z d == 0)%Q) by (apply inj_nz; lia).
  assert (MB : 0 <= m < Z.abs (c * d)) by (apply Z.mod_pos_bound; nia).
  assert (Ab : Z.abs (c * d) = Z.abs c * d) by (rewrite Z.abs_mul, (Z.abs_eq d) by lia; reflexivity).
  assert (Pd : (0 < inject_Z d)%Q) by (change 0%Q with (inject_Z 0); rewrite <- Zlt_Qlt; exact Dp).
  split; [|split].
  - apply Qle_shift_div_l; [exact Pd|]. rewrite Qmult_0_l. change 0%Q with (inject_Z 0). rewrite <- Zle_Qle. lia.
  - apply Qlt_shift_div_r; [exact Pd|]. rewrite <- inject_Z_mult, <- Zlt_Qlt. lia.
  - exists (Z.sgn c * (rnum x / Z.abs (c * d))). pose proof (Z.div_mod (rnum x) (Z.abs (c * d)) ltac:(nia)) as DM.
    fold m in DM. rewrite (Q_rnum x) at 1. fold d.
    assert (E : (rnum x - m) = Z.sgn c * (rnum x / Z.abs (c * d)) * c * d).
    { rewrite DM at 1. rewrite Ab. replace (Z.abs c) with (Z.sgn c * c) by lia. ring. }
    assert (E2 : (inject_Z (rnum x) - inject_Z m == inject_Z (Z.sgn c * (rnum x / Z.abs (c * d)) * c) * inject_Z d)%Q).
    { rewrite <- inject_Z_mult, <- E. unfold Z.sub. rewrite inject_Z_plus, inject_Z_opp. reflexivity. }
    transitivity ((inject_Z (rnum x) - inject_Z m) / inject_Z d)%Q; [field; exact Nd|]. rewrite E2. field. exact Nd.
Qed.
