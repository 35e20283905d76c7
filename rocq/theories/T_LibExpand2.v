(* Property theorems: the rules of Expand cannot be applied for ever (C76). *)
From Verif Require Import M_Syntax M_Float M_Hash M_Num M_NumTheory M_Comb M_Compare M_List M_LibExpand S_Comb S_Field P_Comb P_Hash P_LibExpand P_LibExpand2 T_LibMat T_LibExpand.
From Coq Require Import List Permutation Lia Arith ZArith.
Import ListNotations.
Open Scope nat_scope.

Definition nprod (l : list nat) : nat := fold_right Nat.mul 1 l.
(* the number that every step makes smaller *)
Definition arith_weight (s : string) (args : list ex) (ws : list nat) : nat :=
  if String.eqb s (sysname "Times") then Nat.max 2 (nprod ws)
  else if String.eqb s (sysname "Power") then
    match args, ws with [_; EInt n], w :: _ => 4 ^ (w * S (Z.to_nat n)) | _, _ => 2 + nsum ws end
  else 2 + nsum ws.
Fixpoint weight (e : ex) : nat :=
  match e with
  | EExpr (ESym s :: t) => arith_weight s t (map weight t)
  | EExpr (_ :: t) => 2 + nsum (map weight t)
  | _ => 2
  end.

Lemma pow4_ge2 k : 1 <= k -> 2 <= 4 ^ k.
Proof. intro H. destruct k; [lia|]. cbn [Nat.pow]. pose proof (Nat.pow_nonzero 4 k ltac:(lia)). lia. Qed.
Lemma weight_ge2 e : 2 <= weight e.
Proof.
  induction e as [s|s|z|n d|f|a1 a2 _ _|l IH] using ex_ind'; cbn [weight]; try lia.
  destruct l as [|[s| | | | | |] t]; cbn [weight]; try lia.
  unfold arith_weight. destruct (String.eqb s _); [lia|]. destruct (String.eqb s _); [|lia].
  destruct t as [|a [|[| |n| | | |] [|]]]; cbn [map]; try lia.
  apply pow4_ge2. inversion IH as [|? ? _ IH2]; subst. inversion IH2 as [|? ? H _]; subst. nia.
Qed.
Lemma nsum_app a b : nsum (a ++ b) = nsum a + nsum b.
Proof. induction a as [|x a IH]; [reflexivity|]. cbn [app]. rewrite !nsum_cons, IH. lia. Qed.
Lemma nprod_app a b : nprod (a ++ b) = nprod a * nprod b.
Proof. unfold nprod. induction a as [|x a IH]; cbn [app fold_right]; [lia|]. rewrite IH. lia. Qed.
Lemma nprod_pos l : Forall (fun x => 2 <= x) l -> 1 <= nprod l.
Proof. unfold nprod. induction 1; cbn [fold_right]; [lia|nia]. Qed.
Lemma nprod_ge2 l : Forall (fun x => 2 <= x) l -> l <> [] -> 2 <= nprod l.
Proof. intros H N. destruct H as [|x l H1 H2]; [congruence|]. apply nprod_pos in H2. unfold nprod in *. cbn [fold_right]. nia. Qed.
Lemma weights_ge2 l : Forall (fun x => 2 <= x) (map weight l).
Proof. apply Forall_map, Forall_forall. intros x _. apply weight_ge2. Qed.
Lemma nprod_perm a b : Permutation a b -> nprod a = nprod b.
Proof. unfold nprod. induction 1; cbn [fold_right]; lia. Qed.
Lemma w_times l : l <> [] -> weight (xTimes l) = nprod (map weight l).
Proof.
  intro N. unfold xTimes. change (weight (EExpr (sys "Times" :: l))) with (Nat.max 2 (nprod (map weight l))).
  pose proof (nprod_ge2 (map weight l) (weights_ge2 l)). destruct l; [congruence|]. cbn [map] in *. specialize (H ltac:(discriminate)). lia.
Qed.
Lemma w_plus l : weight (xPlus l) = 2 + nsum (map weight l).
Proof. reflexivity. Qed.
Lemma w_factor cs : cs <> [] -> weight (factor_of cs) = nprod (map weight cs).
Proof. intro N. destruct cs as [|c [|d cs]]; [congruence| |]. - cbn [factor_of map nprod fold_right]. lia. - apply w_times. discriminate. Qed.

(* c (x1 + ... + xk) -> c x1 + ... + c xk *)
Lemma distribute_less cs l rest : cs <> [] -> weight (distribute cs l rest) < weight (xTimes (cs ++ xPlus l :: rest)).
Proof.
  intro N. rewrite w_times by (destruct cs; discriminate). rewrite map_app, nprod_app. cbn [map]. 
  change (nprod (weight (xPlus l) :: map weight rest)) with (weight (xPlus l) * nprod (map weight rest)). rewrite w_plus.
  assert (C2 : 2 <= nprod (map weight cs)) by (apply nprod_ge2; [apply weights_ge2|destruct cs; [congruence|discriminate]]).
  pose proof (nprod_pos _ (weights_ge2 rest)) as R1.
  assert (E : weight (xPlus (map (fun x => xTimes [factor_of cs; x]) l)) = 2 + nprod (map weight cs) * nsum (map weight l)).
  { rewrite w_plus. f_equal. rewrite map_map. induction l as [|x l IH]; [cbn; lia|]. cbn [map]. rewrite !nsum_cons, IH.
    rewrite w_times by discriminate. cbn [map nprod fold_right]. rewrite w_factor by exact N. lia. }
  unfold distribute. cbv zeta. destruct rest as [|r rest].
  - rewrite E. cbn [map nprod fold_right]. nia.
  - rewrite w_times by discriminate. set (R := r :: rest) in *. cbn [map].
    change (nprod (weight (xPlus (map (fun x => xTimes [factor_of cs; x]) l)) :: map weight R)) with
      (weight (xPlus (map (fun x => xTimes [factor_of cs; x]) l)) * nprod (map weight R)). rewrite E.
    set (P := nprod (map weight R)) in *. set (C := nprod (map weight cs)) in *. set (X := nsum (map weight l)). clearbody P C X. nia.
Qed.

(* the number of terms and their size *)
Definition nmono (ys e : list nat) : nat := nprod (map (fun '(y, k) => y ^ k) (combine ys e)).
Lemma geometric y t n : nsum (map (fun k => y ^ k * t ^ (n - k)) (seq 0 (S n))) <= (y + t) ^ n.
Proof.
  induction n as [|n IH]; [cbn; lia|]. rewrite seq_S, map_app, nsum_app. cbn [map Nat.add]. rewrite Nat.sub_diag.
  assert (E : nsum (map (fun k => y ^ k * t ^ (S n - k)) (seq 0 (S n))) = t * nsum (map (fun k => y ^ k * t ^ (n - k)) (seq 0 (S n)))).
  { assert (G : forall l, (forall k, In k l -> k <= n) -> nsum (map (fun k => y ^ k * t ^ (S n - k)) l) = t * nsum (map (fun k => y ^ k * t ^ (n - k)) l)).
    { induction l as [|k l IHl]; intro H; [cbn; lia|]. cbn [map]. rewrite !nsum_cons, IHl by (intros; apply H; right; assumption).
      replace (S n - k) with (S (n - k)) by (specialize (H k (or_introl eq_refl)); lia). cbn [Nat.pow]. lia. }
    apply G. intros k Hk. apply in_seq in Hk. lia. }
  rewrite E. rewrite nsum_cons. cbn [Nat.pow].
  assert (y ^ n <= (y + t) ^ n) by (apply Nat.pow_le_mono_l; lia). change (nsum []) with 0.
  set (A := nsum _) in *. set (B := (y + t) ^ n) in *. set (C := y ^ n) in *. clearbody A B C. nia.
Qed.
Lemma nsum_flat {A} (f : A -> list nat) l : nsum (flat_map f l) = nsum (map (fun a => nsum (f a)) l).
Proof. induction l as [|a l IH]; [reflexivity|]. cbn [flat_map map]. rewrite nsum_app, nsum_cons, IH. reflexivity. Qed.
Lemma nsum_le {A} (f g : A -> nat) l : (forall a, In a l -> f a <= g a) -> nsum (map f l) <= nsum (map g l).
Proof. induction l as [|a l IH]; intro H; [cbn; lia|]. cbn [map]. rewrite !nsum_cons. specialize (IH (fun x Hx => H x (or_intror Hx))). specialize (H a (or_introl eq_refl)). lia. Qed.
Lemma nsum_scale {A} c (f : A -> nat) l : nsum (map (fun a => c * f a) l) = c * nsum (map f l).
Proof. induction l as [|a l IH]; [cbn; lia|]. cbn [map]. rewrite !nsum_cons, IH. lia. Qed.
Lemma monomials ys : forall n, nsum (map (nmono ys) (all_exps n (length ys))) <= (nsum ys) ^ n.
Proof.
  induction ys as [|y ys IH]; intro n; [destruct n; cbn; lia|].
  cbn [length all_exps]. rewrite flat_map_concat_map, concat_map, map_map, <- flat_map_concat_map, nsum_flat, nsum_cons.
  etransitivity; [|apply geometric]. apply nsum_le. intros k Hk. rewrite map_map.
  rewrite (map_ext (fun x => nmono (y :: ys) (k :: x)) (fun x => y ^ k * nmono ys x)) by reflexivity.
  rewrite nsum_scale. apply Nat.mul_le_mono_l, IH.
Qed.
Lemma sum_of_powers l : Forall (fun x => 2 <= x) l -> l <> [] -> nsum (map (fun x => 4 ^ x) l) <= 4 ^ nsum l.
Proof.
  intros H N. destruct H as [|x l Hx H]; [congruence|]. clear N. revert x Hx. induction H as [|y l Hy H IH]; intros x Hx.
  - cbn [map]. rewrite !nsum_cons. cbn. rewrite !Nat.add_0_r. lia.
  - cbn [map] in *. rewrite (nsum_cons (4 ^ x)), (nsum_cons x). rewrite Nat.pow_add_r. specialize (IH y Hy).
    assert (2 <= 4 ^ x) by (apply pow4_ge2; lia). assert (2 <= 4 ^ nsum (y :: l)) by (apply pow4_ge2; rewrite nsum_cons; lia).
    set (A := 4 ^ x) in *. set (B := 4 ^ nsum (y :: l)) in *. clearbody A B. nia.
Qed.
Lemma w_power a k : weight (xPower a (EInt (Z.of_nat k))) = 4 ^ (weight a * S k).
Proof. change (weight (xPower a (EInt (Z.of_nat k)))) with (4 ^ (weight a * S (Z.to_nat (Z.of_nat k)))). rewrite Nat2Z.id. reflexivity. Qed.
Lemma w_gen_vars l e : l <> [] -> length e = length l -> weight (gen_vars l (ints e)) = 4 ^ nsum (map weight l) * nmono (map (fun x => 4 ^ weight x) l) e.
Proof.
  intros N L. unfold gen_vars. rewrite w_times by (destruct l, e; try congruence; discriminate). rewrite map_map. clear N.
  revert e L. induction l as [|x l IH]; intros [|k e] L; try discriminate L; [reflexivity|]. injection L as L.
  cbn [ints map combine]. fold (ints e). unfold nmono. cbn [map combine nprod fold_right]. fold (nprod (map (fun '(y, k) => y ^ k) (combine (map (fun x => 4 ^ weight x) l) e))).
  fold (nmono (map (fun x => 4 ^ weight x) l) e). fold (nprod (map (fun x => weight (let '(a, b) := x in xPower a b)) (combine l (ints e)))).
  rewrite (IH e L). rewrite w_power, nsum_cons, Nat.pow_add_r. replace (weight x * S k) with (weight x + weight x * k) by lia. rewrite Nat.pow_add_r, Nat.pow_mul_r. lia.
Qed.
Lemma power_less l n r : (0 < n < 256)%Z -> (Z.of_nat (length l) < 2 ^ 63)%Z -> expand_power l n = Some r ->
  weight r < weight (xPower (xPlus l) (EInt n)).
Proof.
  intros Hn Hm H. unfold expand_power in H. destruct (Z.ltb_spec 0 n); [|lia].
  destruct (exps_list n (length l)) as [X [E1 [E2 E3]]]; [lia|exact Hm|apply apart_ok, (apart_le _ 255); [lia|apply bytes_apart]|].
  rewrite E1 in H. unfold gen_expand in H. change (list_parts (mkList (map (fun e => mkList (ints e)) X))) with (Some (map (fun e => mkList (ints e)) X)) in H. cbv iota in H.
  rewrite (omap_map _ _ (fun e => xTimes [EInt (Z.of_nat (multi e)); gen_vars l (ints e)])) in H.
  2:{ intros x _. unfold expand_term. change (list_parts (mkList (ints x))) with (Some (ints x)). cbv iota. rewrite multinomial_ints. reflexivity. }
  injection H as <-. rewrite <- (Z2Nat.id n) by lia. rewrite w_power, !w_plus, map_map.
  set (k := Z.to_nat n) in *. assert (Hk : 1 <= k) by (unfold k; lia). clearbody k.
  assert (P : Permutation X (all_exps k (length l))) by (apply NoDup_Permutation; [exact E2|apply all_exps_nodup|]; intro e; rewrite E3, all_exps_in; reflexivity).
  destruct l as [|x l].
  - assert (X = []) by (apply Permutation_nil; rewrite P; destruct k; [lia|reflexivity]). subst X. cbn [map].
    change (nsum []) with 0. replace ((2 + 0) * S k) with (S (S (2 * k))) by lia. cbn [Nat.pow]. pose proof (Nat.pow_nonzero 4 (2 * k) ltac:(lia)). lia.
  - set (L := x :: l) in *.
    assert (E : nsum (map (fun e => weight (xTimes [EInt (Z.of_nat (multi e)); gen_vars L (ints e)])) X) =
                2 * 4 ^ nsum (map weight L) * nsum (map (nmono (map (fun x => 4 ^ weight x) L)) (all_exps k (length L)))).
    { assert (Q : nsum (map (nmono (map (fun x => 4 ^ weight x) L)) (all_exps k (length L))) = nsum (map (nmono (map (fun x => 4 ^ weight x) L)) X)).
      { assert (Pm := Permutation_map (nmono (map (fun x => 4 ^ weight x) L)) P). clear - Pm. revert Pm. generalize (map (nmono (map (fun x => 4 ^ weight x) L)) X) (map (nmono (map (fun x => 4 ^ weight x) L)) (all_exps k (length L))).
        unfold nsum. induction 1; cbn [fold_right]; lia. }
      rewrite Q, <- nsum_scale. f_equal. apply map_ext_in. intros e He. apply E3 in He. rewrite w_times by discriminate. cbn [map nprod fold_right].
      rewrite w_gen_vars by (try discriminate; apply He). change (weight (EInt (Z.of_nat (multi e)))) with 2. lia. }
    rewrite E. pose proof (monomials (map (fun x => 4 ^ weight x) L) k) as M. rewrite map_length in M.
    pose proof (sum_of_powers (map weight L) (weights_ge2 L) ltac:(discriminate)) as S1. rewrite map_map in S1.
    assert (M2 : nsum (map (nmono (map (fun x => 4 ^ weight x) L)) (all_exps k (length L))) <= 4 ^ (nsum (map weight L) * k)).
    { rewrite Nat.pow_mul_r. etransitivity; [exact M|]. apply Nat.pow_le_mono_l, S1. }
    set (T := nsum (map (nmono _) _)) in *. set (s := nsum (map weight L)) in *. clearbody T s. clear - M2 Hk.
    replace ((2 + s) * S k) with (2 + (2 * k) + (s + s * k)) by lia. rewrite !Nat.pow_add_r. change (4 ^ 2) with 16.
    pose proof (Nat.pow_nonzero 4 (2 * k) ltac:(lia)). pose proof (Nat.pow_nonzero 4 s ltac:(lia)). pose proof (Nat.pow_nonzero 4 (s * k) ltac:(lia)).
    set (A := 4 ^ (2 * k)) in *. set (B := 4 ^ s) in *. set (C := 4 ^ (s * k)) in *. clearbody A B C.
    assert (B * T <= B * C) by (apply Nat.mul_le_mono_l, M2). assert (1 <= B * C) by nia. assert (16 * (B * C) <= 16 * A * (B * C)) by nia. nia.
Qed.

(* a smaller argument makes everything around it smaller *)
Lemma step_expr N a b : expand_step N a b -> is_expr a = true /\ is_expr b = true.
Proof.
  destruct 1 as [l n r Hn E|args cs l rest P H|h s t a b St]; (split; [reflexivity|]); [|unfold distribute; destruct rest; reflexivity|reflexivity].
  unfold expand_power in E. destruct (0 <? n)%Z; [|discriminate]. destruct (possible_exponents _ _); [|discriminate]. unfold gen_expand in E.
  destruct (list_parts e); [|discriminate]. destruct (omap _ _); [|discriminate]. injection E as <-. reflexivity.
Qed.
Lemma inside_less h s t a b : is_expr a = true -> is_expr b = true -> weight b < weight a ->
  weight (EExpr (h :: s ++ b :: t)) < weight (EExpr (h :: s ++ a :: t)).
Proof.
  intros Ia Ib H. assert (G : 2 + nsum (map weight (s ++ b :: t)) < 2 + nsum (map weight (s ++ a :: t))).
  { rewrite !map_app, !nsum_app. cbn [map]. rewrite !nsum_cons. lia. }
  destruct h as [f| | | | | |]; try exact G. cbn [weight]. unfold arith_weight. destruct (String.eqb f (sysname "Times")).
  - rewrite !map_app, !nprod_app. cbn [map]. change (nprod (weight b :: map weight t)) with (weight b * nprod (map weight t)). change (nprod (weight a :: map weight t)) with (weight a * nprod (map weight t)).
    pose proof (nprod_pos _ (weights_ge2 s)). pose proof (nprod_pos _ (weights_ge2 t)). pose proof (weight_ge2 b).
    set (A := nprod (map weight s)) in *. set (B := nprod (map weight t)) in *. set (x := weight a) in *. set (y := weight b) in *. clearbody A B x y.
    assert (A * (y * B) < A * (x * B)) by nia. assert (2 <= A * (y * B)) by nia. lia.
  - destruct (String.eqb f (sysname "Power")); [|exact G].
    destruct s as [|s1 s].
    + cbn [app map] in *. destruct t as [|[| |n| | | |] [|]]; try exact G. apply Nat.pow_lt_mono_r; [lia|]. nia.
    + cbn [app map] in *. destruct s as [|s2 s].
      * cbn [app] in *. destruct a; try discriminate Ia. destruct b; try discriminate Ib. exact G.
      * cbn [app] in *. destruct s2; try exact G. destruct s; exact G.
Qed.
Lemma small_arg h s a t : small (EExpr (h :: s ++ a :: t)) -> small a.
Proof. cbn [small]. intros [_ [_ Sm]]. induction s as [|x s IHs]; [exact (proj1 Sm)|]. apply IHs. exact (proj2 Sm). Qed.
Lemma step_less a b : small a -> expand_step 255 a b -> weight b < weight a.
Proof.
  intros Sm St. induction St as [l n r Hn E|args cs l rest P H|h s t a b St IH].
  - assert (0 < n)%Z by (unfold expand_power in E; destruct (Z.ltb_spec 0 n); [assumption|discriminate]). apply power_less; [lia| |exact E].
    cbn [small xPower] in Sm. destruct Sm as [_ [_ [[Sm _] _]]]. cbn [length] in Sm. lia.
  - assert (N : args <> []) by (intros ->; apply Permutation_nil in P; destruct cs; discriminate).
    rewrite (w_times args N), (nprod_perm _ _ (Permutation_map weight P)), <- w_times by (destruct cs; discriminate). apply distribute_less, H.
  - destruct (step_expr _ _ _ St). apply inside_less; auto. apply IH, (small_arg h s a t), Sm.
Qed.

(* k applications of the two rules, each anywhere in the expression *)
Inductive applications : nat -> ex -> ex -> Prop :=
| ap_none a : applications 0 a a
| ap_one k a b c : small a -> expand_step 255 a b -> applications k b c -> applications (S k) a c.
(* The rules of Expand cannot be applied to an expression more often than a
   number that depends only on the expression, whatever the places and factors
   the matcher chooses.  Not included: the simplifications the evaluator makes
   between two applications. *)
Theorem C76_terminates_partial : forall a, exists bound, forall k b, applications k a b -> k <= bound.
Proof.
  intro a. exists (weight a). intros k b H. induction H as [a|k a b c Sm St H IH]; [lia|]. pose proof (step_less a b Sm St). lia.
Qed.
Print Assumptions C76_terminates_partial.
Theorem C76_no_infinite_partial : forall f : nat -> ex, ~ (forall i, small (f i) /\ expand_step 255 (f i) (f (S i))).
Proof.
  intros f H. assert (G : forall i, weight (f i) + i <= weight (f 0)).
  { induction i as [|i IH]; [lia|]. destruct (H i) as [Sm St]. pose proof (step_less _ _ Sm St). lia. }
  specialize (G (S (weight (f 0)))). lia.
Qed.
Print Assumptions C76_no_infinite_partial.
(* a (b + a (a + b)) takes two applications *)
Example C76_ex_applications : applications 2 (xTimes [xa; xPlus [xb; xTimes [xa; xPlus [xa; xb]]]])
  (xPlus [xTimes [xa; xb]; xTimes [xa; xPlus [xTimes [xa; xa]; xTimes [xa; xb]]]]).
Proof.
  apply (ap_one 1 _ (xPlus [xTimes [xa; xb]; xTimes [xa; xTimes [xa; xPlus [xa; xb]]]])).
  - cbn. lia.
  - apply (es_times 255 _ [xa] [xb; xTimes [xa; xPlus [xa; xb]]] []); [reflexivity|discriminate].
  - apply (ap_one 0 _ (xPlus [xTimes [xa; xb]; xTimes [xa; xPlus [xTimes [xa; xa]; xTimes [xa; xb]]]])); [cbn; lia| |apply ap_none].
    apply (es_inside 255 (sys "Plus") [xTimes [xa; xb]] []). apply (es_inside 255 (sys "Times") [xa] []).
    apply (es_times 255 _ [xa] [xa; xb] []); [reflexivity|discriminate].
Qed.
