(* Property theorems: D and Grad (C77). *)
From Verif Require Import M_Syntax M_LibCalc S_Real.
From Coq Require Import Reals Lra List Permutation.
Import ListNotations.
Open Scope R_scope.

Section meaning.
Variable fn : string -> list R -> R.
Notation D_ := (den fn).

Lemma den_plus r l : D_ r (cPlus l) = rsum (map (D_ r) l).
Proof. destruct l as [|a [|b l]]; reflexivity. Qed.
Lemma den_times r l : D_ r (cTimes l) = rprod (map (D_ r) l).
Proof. destruct l as [|a [|b l]]; reflexivity. Qed.
Lemma den_power_int r a n : D_ r (cPower a (EInt n)) = powerRZ (D_ r a) n.
Proof. reflexivity. Qed.
Lemma den_power r a b : int_lit b = None -> D_ r (cPower a b) = exp (D_ r b * ln (D_ r a)).
Proof. intro H. unfold cPower. cbn [den ex_eqb map]. rewrite H. reflexivity. Qed.
Lemma den_log r a : D_ r (app1 "Log" a) = ln (D_ r a). Proof. reflexivity. Qed.
Lemma den_sin r a : D_ r (app1 "Sin" a) = sin (D_ r a). Proof. reflexivity. Qed.
Lemma den_cos r a : D_ r (app1 "Cos" a) = cos (D_ r a). Proof. reflexivity. Qed.
Lemma den_abs r a : D_ r (app1 "Abs" a) = Rabs (D_ r a). Proof. reflexivity. Qed.
Lemma den_dabs r a : D_ r (dAbs a) = rsign (D_ r a). Proof. reflexivity. Qed.
Lemma den_var r x : D_ r (var_ex x) = r x. Proof. destruct x; reflexivity. Qed.
Lemma den_recip r a : D_ r (cPower a (EInt (-1))) = / D_ r a.
Proof. rewrite den_power_int. unfold powerRZ. change (Pos.to_nat 1) with 1%nat. rewrite pow_1. reflexivity. Qed.

Lemma rsum_app a b : rsum (a ++ b) = rsum a + rsum b.
Proof. induction a as [|x a IHa]; cbn [app]; [change (rsum []) with 0; lra|]. change (rsum (x :: a)) with (x + rsum a). change (rsum (x :: a ++ b)) with (x + rsum (a ++ b)). rewrite IHa. lra. Qed.
Lemma rprod_app a b : rprod (a ++ b) = rprod a * rprod b.
Proof. induction a as [|x a IHa]; cbn [app]; [change (rprod []) with 1; lra|]. change (rprod (x :: a)) with (x * rprod a). change (rprod (x :: a ++ b)) with (x * rprod (a ++ b)). rewrite IHa. ring. Qed.
Lemma rsum_perm a b : Permutation a b -> rsum a = rsum b.
Proof. induction 1 as [|x l l' P IH|x y l|l l' l'' P1 IH1 P2 IH2]; [reflexivity| | |congruence]; unfold rsum in *; cbn [fold_right] in *; [rewrite IH; reflexivity|ring]. Qed.
Lemma rprod_perm a b : Permutation a b -> rprod a = rprod b.
Proof. induction 1 as [|x l l' P IH|x y l|l l' l'' P1 IH1 P2 IH2]; [reflexivity| | |congruence]; unfold rprod in *; cbn [fold_right] in *; [rewrite IH; reflexivity|ring]. Qed.
Lemma den_grouped_plus r l : l <> [] -> D_ r (grouped "Plus" l) = rsum (map (D_ r) l).
Proof. destruct l as [|a [|b l]]; intro H; [congruence|cbn [grouped map]; unfold rsum; cbn [fold_right]; lra|]. cbn [grouped]. apply den_plus. Qed.
Lemma den_grouped_times r l : l <> [] -> D_ r (grouped "Times" l) = rprod (map (D_ r) l).
Proof. destruct l as [|a [|b l]]; intro H; [congruence|cbn [grouped map]; unfold rprod; cbn [fold_right]; lra|]. cbn [grouped]. apply den_times. Qed.
Lemma split_plus r args l1 l2 : Permutation args (l1 ++ l2) -> l1 <> [] -> l2 <> [] ->
  D_ r (cPlus args) = D_ r (grouped "Plus" l1) + D_ r (grouped "Plus" l2).
Proof. intros P H1 H2. rewrite den_plus, !den_grouped_plus, <- rsum_app, <- map_app by assumption. apply rsum_perm, Permutation_map, P. Qed.
Lemma split_times r args l1 l2 : Permutation args (l1 ++ l2) -> l1 <> [] -> l2 <> [] ->
  D_ r (cTimes args) = D_ r (grouped "Times" l1) * D_ r (grouped "Times" l2).
Proof. intros P H1 H2. rewrite den_times, !den_grouped_times, <- rprod_app, <- map_app by assumption. apply rprod_perm, Permutation_map, P. Qed.

(* ---- free variables ---- *)
Lemma freeq_not v : ~ freeq v v.
Proof. unfold freeq. intro H. destruct v; cbn [occurs] in H; rewrite (proj2 (ex_eqb_eq _ _) eq_refl) in H; discriminate. Qed.
Lemma freeq_ne v e : freeq v e -> e <> v.
Proof. intros H ->. exact (freeq_not v H). Qed.
Lemma freeq_parts v l : freeq v (EExpr l) -> forall a, In a l -> freeq v a.
Proof.
  unfold freeq. cbn [occurs]. intros H a Ha. apply orb_false_iff in H. destruct H as [_ H].
  destruct (occurs v a) eqn:E; [|reflexivity]. assert (existsb (occurs v) l = true) by (apply existsb_exists; eauto). congruence.
Qed.
Lemma upd_var r x t : upd r x t x = t.
Proof. unfold upd, var_eqb. destruct x; [rewrite String.eqb_refl|]; reflexivity. Qed.
Lemma upd_other r x y t : x <> y -> upd r x t y = r y.
Proof. unfold upd, var_eqb. intro H. destruct x, y; try reflexivity; [|congruence]. destruct (String.eqb_spec s s0); [congruence|reflexivity]. Qed.
Lemma upd_same r x : forall y, upd r x (r x) y = r y.
Proof. intro y. unfold upd. destruct (var_eqb x y) eqn:E; [|reflexivity]. destruct x, y; try discriminate; [|reflexivity]. apply String.eqb_eq in E. subst. reflexivity. Qed.
Lemma den_ext r r' e : (forall y, r y = r' y) -> D_ r e = D_ r' e.
Proof.
  intro H. induction e as [s|s|z|n d|f|a1 a2 IH1 IH2|l IH] using ex_ind'; try reflexivity; [apply H|].
  assert (M : map (D_ r) l = map (D_ r') l). { apply map_ext_in. rewrite Forall_forall in IH. exact IH. }
  cbn [den]. destruct (ex_eqb slot1 (EExpr l)); [apply H|]. destruct l as [|h args]; [reflexivity|]. cbn [map] in M.
  injection M as M1 M2. destruct h; [rewrite M2; reflexivity| | | | | |]; (destruct args as [|b [|c args]]; [reflexivity| |reflexivity]); cbn [map] in M2; injection M2 as M2; rewrite M2; reflexivity.
Qed.
Lemma den_free r x t e : freeq (var_ex x) e -> D_ (upd r x t) e = D_ r e.
Proof.
  induction e as [s|s|z|n d|f|a1 a2 IH1 IH2|l IH] using ex_ind'; intro F; try reflexivity.
  - cbn [den]. apply upd_other. intros ->. apply (freeq_not _ F).
  - assert (M : map (D_ (upd r x t)) l = map (D_ r) l).
    { apply map_ext_in. intros a Ha. rewrite Forall_forall in IH. apply IH; [exact Ha|]. apply (freeq_parts _ _ F a Ha). }
    cbn [den]. destruct (ex_eqb slot1 (EExpr l)) eqn:E.
    + apply upd_other. intros ->. apply ex_eqb_eq in E. rewrite <- E in F. apply (freeq_not _ F).
    + destruct l as [|h args]; [reflexivity|]. cbn [map] in M.
      injection M as M1 M2. destruct h; [rewrite M2; reflexivity| | | | | |]; (destruct args as [|b [|c args]]; [reflexivity| |reflexivity]); cbn [map] in M2; injection M2 as M2; rewrite M2; reflexivity.
Qed.
Lemma freeq_grouped v h l l' args : freeq v (EExpr (sys h :: args)) -> Permutation args (l ++ l') -> freeq v (EExpr [sys h]) -> 
  (forall b, v <> EExpr b \/ v = slot1) -> h <> "Slot"%string -> freeq v (grouped h l).
Proof.
  intros F P F0 V Hs. assert (A : forall a, In a l -> freeq v a).
  { intros a Ha. apply (freeq_parts _ _ F). right. apply (Permutation_in _ (Permutation_sym P)). apply in_or_app; left; exact Ha. }
  destruct l as [|a [|b l]]; cbn [grouped]; [exact F0|apply A; left; reflexivity|].
  unfold freeq in *. cbn [occurs]. apply orb_false_iff. split.
  - destruct (ex_eqb v _) eqn:E; [|reflexivity]. apply ex_eqb_eq in E. destruct (V (sys h :: a :: b :: l)) as [K|K]; [congruence|]. rewrite K in E. discriminate E.
  - cbn [existsb]. apply orb_false_iff. split.
    + apply (freeq_parts v (sys h :: args) F). left; reflexivity.
    + change (existsb (occurs v) (a :: b :: l) = false). destruct (existsb (occurs v) (a :: b :: l)) eqn:E; [|reflexivity]. apply existsb_exists in E. destruct E as [c [Hc Oc]]. rewrite (A c Hc) in Oc. discriminate.
Qed.
Lemma var_shape x b : var_ex x <> EExpr b \/ var_ex x = slot1.
Proof. destruct x; [left; discriminate|right; reflexivity]. Qed.
Lemma freeq_head x h args : freeq (var_ex x) (EExpr (sys h :: args)) -> freeq (var_ex x) (EExpr [sys h]).
Proof.
  intro F. unfold freeq in *. cbn [occurs existsb] in *. apply orb_false_iff in F. destruct F as [_ F]. apply orb_false_iff in F. destruct F as [F _].
  apply orb_false_iff. split; [|rewrite F; reflexivity]. destruct (ex_eqb _ _) eqn:E; [|reflexivity]. apply ex_eqb_eq in E. destruct x; discriminate E.
Qed.
(* whatever rule is used, what is free of the variable gets derivative 0 *)
Lemma deriv_free v e d : deriv v e d -> forall x, v = var_ex x -> freeq v e -> forall r, D_ r d = 0.
Proof.
  intro H. induction H as [v|v e F|v args l1 l2 d1 d2 P N1 N2 H1 IH1 H2 IH2|v args l1 l2 d1 d2 P N1 N2 H1 IH1 H2 IH2|f g x df dg H1 IH1 H2 IH2|v a b da db H1 IH1 H2 IH2|v a F|v a F|v a da H IH|v a da H IH|v a da H IH]; intros y -> Fr r.
  - destruct (freeq_not _ Fr).
  - reflexivity.
  - assert (E1 : D_ r d1 = 0). { apply (IH1 y eq_refl). apply (freeq_grouped _ _ l1 l2 args); auto using var_shape; [apply (freeq_head y _ _ Fr)|discriminate]. }
    assert (E2 : D_ r d2 = 0). { apply (IH2 y eq_refl). apply (freeq_grouped _ _ l2 l1 args); auto using var_shape; [rewrite P; apply Permutation_app_comm|apply (freeq_head y _ _ Fr)|discriminate]. }
    rewrite den_plus. unfold rsum; cbn [map fold_right]; rewrite E1, E2; lra.
  - assert (E1 : D_ r d1 = 0). { apply (IH1 y eq_refl). apply (freeq_grouped _ _ l1 l2 args); auto using var_shape; [apply (freeq_head y _ _ Fr)|discriminate]. }
    assert (E2 : D_ r d2 = 0). { apply (IH2 y eq_refl). apply (freeq_grouped _ _ l2 l1 args); auto using var_shape; [rewrite P; apply Permutation_app_comm|apply (freeq_head y _ _ Fr)|discriminate]. }
    rewrite den_plus. cbn [map]. rewrite !den_times. cbn [map]. rewrite E1, E2. unfold rprod, rsum; cbn [map fold_right]; lra.
  - exfalso. pose proof (freeq_parts _ _ Fr (EExpr [ESym g; var_ex y]) (or_intror (or_introl eq_refl))) as F1.
    exact (freeq_not _ (freeq_parts _ _ F1 (var_ex y) (or_intror (or_introl eq_refl)))).
  - assert (Fa : freeq (var_ex y) a) by (apply (freeq_parts _ _ Fr); right; left; reflexivity).
    assert (Fb : freeq (var_ex y) b) by (apply (freeq_parts _ _ Fr); right; right; left; reflexivity).
    rewrite den_times. cbn [map]. rewrite den_plus. cbn [map]. rewrite !den_times. cbn [map]. rewrite (IH1 y eq_refl Fa), (IH2 y eq_refl Fb). unfold rprod, rsum; cbn [map fold_right]; lra.
  - reflexivity.
  - exfalso. apply F. apply (freeq_parts _ _ Fr). right; left; reflexivity.
  - rewrite den_times. cbn [map]. rewrite (IH y eq_refl); [unfold rprod, rsum; cbn [map fold_right]; lra|]. apply (freeq_parts _ _ Fr). right; left; reflexivity.
  - rewrite den_times. cbn [map]. rewrite (IH y eq_refl); [unfold rprod, rsum; cbn [map fold_right]; lra|]. apply (freeq_parts _ _ Fr). right; left; reflexivity.
  - rewrite den_times. cbn [map]. rewrite (IH y eq_refl); [unfold rprod, rsum; cbn [map fold_right]; lra|]. apply (freeq_parts _ _ Fr). right; left; reflexivity.
Qed.

(* ---- substitution for the slot ---- *)
Definition gx (g x : string) : ex := EExpr [ESym g; ESym x].
Lemma apply_lit g x b : int_lit (apply_slot (gx g x) b) = int_lit b.
Proof. destruct b; try reflexivity. cbn [apply_slot]. destruct (ex_eqb slot1 (EExpr parts)); reflexivity. Qed.
Lemma apply_slot_not g x l : ex_eqb slot1 (EExpr l) = false -> ex_eqb slot1 (EExpr (map (apply_slot (gx g x)) l)) = false.
Proof.
  intro H. destruct (ex_eqb slot1 (EExpr (map _ l))) eqn:E; [|reflexivity]. apply ex_eqb_eq in E. unfold slot1 in E. injection E as E.
  destruct l as [|h [|a [|b l]]]; try discriminate E. cbn [map] in E. injection E as E1 E2.
  assert (K1 : h = sys "Slot"). { clear H. destruct h; try discriminate E1; [exact (eq_sym E1)|]. cbn [apply_slot] in E1. destruct (ex_eqb slot1 (EExpr parts)); discriminate E1. }
  assert (K2 : a = EInt 1). { clear H. destruct a; try discriminate E2; [exact (eq_sym E2)|]. cbn [apply_slot] in E2. destruct (ex_eqb slot1 (EExpr parts)); discriminate E2. }
  subst. discriminate H.
Qed.
Definition hAbs : ex := EExpr [EExpr [sys "Derivative"; EInt 1]; sys "Abs"].
Lemma apply_habs g x h : ex_eqb (apply_slot (gx g x) h) hAbs = ex_eqb h hAbs.
Proof.
  destruct (ex_eqb h hAbs) eqn:E; [apply ex_eqb_eq in E; subst; reflexivity|].
  destruct (ex_eqb (apply_slot (gx g x) h) hAbs) eqn:E'; [|reflexivity]. exfalso. apply ex_eqb_eq in E'.
  assert (K : h = hAbs); [|subst; discriminate E].
  assert (S1 : forall b s, apply_slot (gx g x) b = ESym s -> b = ESym s).
  { intros b s H. destruct b; try discriminate H; [exact H|]. cbn [apply_slot] in H. destruct (ex_eqb slot1 _); discriminate H. }
  assert (S2 : forall b s, apply_slot (gx g x) b = EInt s -> b = EInt s).
  { intros b s H. destruct b; try discriminate H; [exact H|]. cbn [apply_slot] in H. destruct (ex_eqb slot1 _); discriminate H. }
  destruct h as [| | | | | |l]; try discriminate E'. cbn [apply_slot] in E'. destruct (ex_eqb slot1 (EExpr l)); [discriminate E'|].
  unfold hAbs in E'. injection E' as E'. destruct l as [|h [|a [|b l]]]; try discriminate E'. cbn [map] in E'. injection E' as E1 E2.
  apply S1 in E2. subst a. unfold hAbs. f_equal. f_equal.
  destruct h as [| | | | | |l]; try discriminate E1. cbn [apply_slot] in E1. destruct (ex_eqb slot1 (EExpr l)); [discriminate E1|].
  injection E1 as E1. destruct l as [|h [|a [|b l]]]; try discriminate E1. cbn [map] in E1. injection E1 as E1 E2.
  apply S1 in E1. apply S2 in E2. subst. reflexivity.
Qed.
Lemma den_apply r g x e : D_ r (apply_slot (gx g x) e) = D_ (upd r VSlot (D_ r (gx g x))) e.
Proof.
  induction e as [s|s|z|n d|f|a1 a2 IH1 IH2|l IH] using ex_ind'; try reflexivity.
  assert (M : map (fun a => D_ r (apply_slot (gx g x) a)) l = map (D_ (upd r VSlot (D_ r (gx g x)))) l).
  { apply map_ext_in. rewrite Forall_forall in IH. exact IH. }
  remember (D_ r (gx g x)) as y eqn:Ey.
  cbn [apply_slot]. destruct (ex_eqb slot1 (EExpr l)) eqn:E.
  - apply ex_eqb_eq in E. rewrite <- E. change slot1 with (var_ex VSlot). rewrite den_var, upd_var. symmetry. exact Ey.
  - cbn [den]. rewrite E, (apply_slot_not g x l E). destruct l as [|h args]; [reflexivity|]. cbn [map] in *. injection M as M1 M2.
    destruct h as [s|s|z|n d|f|a1 a2|l'].
    + cbn [apply_slot]. change (ex_eqb slot1 (ESym s)) with false. cbv iota. f_equal.
      * rewrite map_map. apply map_ext. intro. apply apply_lit.
      * rewrite map_map. exact M2.
    + destruct args as [|b [|c args]]; reflexivity.
    + destruct args as [|b [|c args]]; reflexivity.
    + destruct args as [|b [|c args]]; reflexivity.
    + destruct args as [|b [|c args]]; reflexivity.
    + destruct args as [|b [|c args]]; reflexivity.
    + pose proof (apply_habs g x (EExpr l')) as K. fold hAbs.
      destruct args as [|b [|c args]].
      * cbn [map]. cbn [apply_slot]. destruct (ex_eqb slot1 (EExpr l')) eqn:E'; [|reflexivity]. 
        reflexivity.
      * cbn [map] in *. injection M2 as M2. rewrite <- M2.
        destruct (apply_slot (gx g x) (EExpr l')) as [s|s|z|n d|f|a1 a2|l''] eqn:EA;
          try (cbn [apply_slot] in EA; destruct (ex_eqb slot1 (EExpr l')); discriminate EA).
        fold hAbs. rewrite K. reflexivity.
      * cbn [map]. destruct (apply_slot (gx g x) (EExpr l')) as [s|s|z|n d|f|a1 a2|l''] eqn:EA;
          try (cbn [apply_slot] in EA; destruct (ex_eqb slot1 (EExpr l')); discriminate EA). reflexivity.
Qed.

(* ---- derivatives ---- *)
Lemma dlim_ext f g z l : (forall t, f t = g t) -> derivable_pt_lim f z l -> derivable_pt_lim g z l.
Proof. intros E H eps He. destruct (H eps He) as [dl Hd]. exists dl. intros h Hh Hb. rewrite <- !E. auto. Qed.
Lemma dlim_powerRZ n : forall y, y <> 0 -> derivable_pt_lim (fun t => powerRZ t n) y (IZR n * powerRZ y n / y).
Proof.
  intros y Hy. destruct n as [|p|p].
  - apply (dlim_ext (fct_cte 1)); [reflexivity|]. replace (0 * powerRZ y 0 / y) with 0 by (field; exact Hy). apply derivable_pt_lim_const.
  - replace (IZR (Z.pos p) * powerRZ y (Z.pos p) / y) with (INR (Pos.to_nat p) * y ^ pred (Pos.to_nat p)).
    + apply (derivable_pt_lim_pow y (Pos.to_nat p)).
    + rewrite INR_IZR_INZ, positive_nat_Z. cbn [powerRZ]. pose proof (Pos2Nat.is_pos p) as Hp. destruct (Pos.to_nat p) as [|k]; [inversion Hp|]. cbn [pred pow]. field. exact Hy.
  - pose proof (Pos2Nat.is_pos p) as Hp. 
    assert (Hn : y ^ Pos.to_nat p <> 0) by (apply pow_nonzero, Hy).
    apply (dlim_ext (div_fct (fct_cte 1) (fun t => t ^ Pos.to_nat p))).
    { intro t. unfold div_fct, fct_cte. cbn [powerRZ]. unfold Rdiv. apply Rmult_1_l. }
    replace (IZR (Z.neg p) * powerRZ y (Z.neg p) / y) with ((0 * y ^ Pos.to_nat p - (INR (Pos.to_nat p) * y ^ pred (Pos.to_nat p)) * fct_cte 1 y) / Rsqr (y ^ Pos.to_nat p)).
    + apply (derivable_pt_lim_div (fct_cte 1) (fun t => t ^ Pos.to_nat p) y 0); [apply derivable_pt_lim_const|apply derivable_pt_lim_pow|exact Hn].
    + unfold fct_cte, Rsqr. rewrite INR_IZR_INZ, positive_nat_Z. change (Z.neg p) with (- Z.pos p)%Z at 1. rewrite opp_IZR. cbn [powerRZ].
      destruct (Pos.to_nat p) as [|k]; [inversion Hp|]. cbn [pred pow] in *. field. split; [|exact Hy]. intro K. apply Hn. rewrite K. ring.
Qed.
Lemma upd_id r x e : D_ (upd r x (r x)) e = D_ r e.
Proof. apply den_ext, upd_same. Qed.
Lemma dlim_const_free r x e : freeq (var_ex x) e -> derivable_pt_lim (fun t => D_ (upd r x t) e) (r x) 0.
Proof. intro F. apply (dlim_ext (fct_cte (D_ r e))); [intro t; symmetry; apply den_free, F|]. apply derivable_pt_lim_const. Qed.
Lemma comp_lim (f g : R -> R) z l l' : derivable_pt_lim g z l -> derivable_pt_lim f (g z) l' -> derivable_pt_lim (fun t => f (g t)) z (l' * l).
Proof. intros Hg Hf. apply (dlim_ext (comp f g)); [reflexivity|]. apply derivable_pt_lim_comp; assumption. Qed.

Ltac reginv H := inversion H; subst; try contradiction; try discriminate;
  try match goal with K : var_ex ?x = _ |- _ => destruct x; discriminate K end.
Lemma reg_plus_inv r x l : regular fn r x (cPlus l) -> ~ freeq (var_ex x) (cPlus l) -> forall a, In a l -> regular fn r x a.
Proof. intros H N. reginv H; auto. Qed.
Lemma reg_times_inv r x l : regular fn r x (cTimes l) -> ~ freeq (var_ex x) (cTimes l) -> forall a, In a l -> regular fn r x a.
Proof. intros H N. reginv H; auto. Qed.
Lemma reg_grouped_plus r x l : (forall a, In a l -> regular fn r x a) -> regular fn r x (grouped "Plus" l).
Proof. intro H. destruct l as [|a [|b l]]; cbn [grouped]; [apply reg_plus; intros a []|apply H; left; reflexivity|apply reg_plus, H]. Qed.
Lemma reg_grouped_times r x l : (forall a, In a l -> regular fn r x a) -> regular fn r x (grouped "Times" l).
Proof. intro H. destruct l as [|a [|b l]]; cbn [grouped]; [apply reg_times; intros a []|apply H; left; reflexivity|apply reg_times, H]. Qed.

Definition goal (r : var -> R) (x : var) (e d : ex) : Prop := derivable_pt_lim (fun t => D_ (upd r x t) e) (r x) (D_ r d).
Lemma goal_power r x a b da db : deriv (var_ex x) b db -> regular fn r x (cPower a b) -> ~ freeq (var_ex x) (cPower a b) ->
  (regular fn r x a -> goal r x a da) -> (regular fn r x b -> goal r x b db) ->
  goal r x (cPower a b) (cTimes [cPower a b; cPlus [cTimes [db; app1 "Log" a]; cTimes [da; cPower a (EInt (-1)); b]]]).
Proof.
  intros Db Reg N Ga Gb. unfold goal in *.
  assert (V : D_ r (cTimes [cPower a b; cPlus [cTimes [db; app1 "Log" a]; cTimes [da; cPower a (EInt (-1)); b]]]) =
              D_ r (cPower a b) * (D_ r db * ln (D_ r a) + D_ r da * / D_ r a * D_ r b)).
  { rewrite den_times. cbn [map]. rewrite den_plus. cbn [map]. rewrite !den_times. cbn [map]. rewrite den_recip, den_log. unfold rprod, rsum. cbn [fold_right]. ring. }
  rewrite V. clear V.
  destruct (int_lit b) as [n|] eqn:L.
  - destruct b; try discriminate L. injection L as ->.
    assert (Dz : D_ r db = 0). { apply (deriv_free _ _ _ Db x eq_refl). destruct x; reflexivity. }
    assert (A : regular fn r x a /\ D_ r a <> 0) by (reginv Reg; split; auto; lra).
    destruct A as [Ra Na]. rewrite Dz. change (D_ r (EInt n)) with (IZR n). rewrite den_power_int.
    apply (dlim_ext (fun t => powerRZ (D_ (upd r x t) a) n)); [reflexivity|].
    replace (powerRZ (D_ r a) n * (0 * ln (D_ r a) + D_ r da * / D_ r a * IZR n)) with (IZR n * powerRZ (D_ r a) n / D_ r a * D_ r da) by (field; exact Na).
    apply (comp_lim (fun t => powerRZ t n) (fun t => D_ (upd r x t) a)); [apply Ga, Ra|]. rewrite upd_id. apply dlim_powerRZ, Na.
  - assert (A : regular fn r x a /\ regular fn r x b /\ 0 < D_ r a) by (reginv Reg; auto).
    destruct A as [Ra [Rb Pa]]. rewrite (den_power r a b L).
    apply (dlim_ext (fun t => exp (D_ (upd r x t) b * ln (D_ (upd r x t) a)))); [intro t; symmetry; apply den_power, L|].
    apply (comp_lim exp (fun t => D_ (upd r x t) b * ln (D_ (upd r x t) a))).
    + replace (D_ r db * ln (D_ r a) + D_ r da * / D_ r a * D_ r b) with
        (D_ r db * ln (D_ (upd r x (r x)) a) + D_ (upd r x (r x)) b * (/ D_ r a * D_ r da)) by (rewrite !upd_id; ring).
      apply (derivable_pt_lim_mult (fun t => D_ (upd r x t) b) (fun t => ln (D_ (upd r x t) a))); [apply Gb, Rb|].
      apply (comp_lim ln (fun t => D_ (upd r x t) a)); [apply Ga, Ra|]. rewrite upd_id. apply derivable_pt_lim_ln, Pa.
    + rewrite !upd_id. apply derivable_pt_lim_exp.
Qed.
Lemma dlim_abs y : y <> 0 -> derivable_pt_lim Rabs y (rsign y).
Proof.
  intro H. unfold rsign. destruct (Rlt_dec y 0) as [L|L].
  - apply Rabs_derive_2, L.
  - destruct (Rlt_dec 0 y) as [P|P]; [apply Rabs_derive_1, P|lra].
Qed.

(* functions of one argument depend on its value only *)
Lemma den_one r r' f u w : int_lit u = None -> int_lit w = None -> D_ r u = D_ r' w -> D_ r (EExpr [ESym f; u]) = D_ r' (EExpr [ESym f; w]).
Proof.
  intros Hu Hw E. 
  assert (N : forall u, int_lit u = None -> ex_eqb slot1 (EExpr [ESym f; u]) = false).
  { intros v Hv. destruct (ex_eqb slot1 _) eqn:K; [|reflexivity]. apply ex_eqb_eq in K. injection K as K1 K2. subst v. discriminate Hv. }
  cbn [den]. rewrite (N u Hu), (N w Hw). cbn [map]. rewrite Hu, Hw, E. reflexivity.
Qed.
Lemma reg_one_slot r x f g : regular fn r (VSym x) (EExpr [ESym f; gx g x]) -> regular fn (upd r VSlot (D_ r (gx g x))) VSlot (EExpr [ESym f; slot1]) /\ regular fn r (VSym x) (gx g x).
Proof.
  intro H. set (r' := upd r VSlot (D_ r (gx g x))).
  assert (V : regular fn r' VSlot slot1) by apply (reg_var fn r' VSlot).
  assert (DV : D_ r' slot1 = D_ r (gx g x)) by (change slot1 with (var_ex VSlot); rewrite den_var; apply upd_var).
  assert (NF : forall e, In (gx g x) e -> ~ freeq (ESym x) (EExpr e)).
  { intros e Hin F. pose proof (freeq_parts _ _ F _ Hin) as F1. exact (freeq_not _ (freeq_parts _ _ F1 (ESym x) (or_intror (or_introl eq_refl)))). }
  inversion H; subst.
  - exfalso. apply (NF [ESym f; gx g x]); [right; left; reflexivity|assumption].
  - split; [apply (reg_plus _ _ _ [slot1]); intros a [<-|[]]; exact V|]. match goal with K : forall a, In a _ -> _ |- _ => apply K; left; reflexivity end.
  - split; [apply (reg_times _ _ _ [slot1]); intros a [<-|[]]; exact V|]. match goal with K : forall a, In a _ -> _ |- _ => apply K; left; reflexivity end.
  - split; [apply reg_log; [exact V|rewrite DV; assumption]|assumption].
  - split; [apply reg_sin; exact V|assumption].
  - split; [apply reg_cos; exact V|assumption].
Qed.

Lemma deriv_ok v e d : deriv v e d -> forall x, v = var_ex x -> forall r, regular fn r x e -> goal r x e d.
Proof.
  intro H. induction H as [v|v e F|v args l1 l2 d1 d2 P N1 N2 H1 IH1 H2 IH2|v args l1 l2 d1 d2 P N1 N2 H1 IH1 H2 IH2|f g x df dg H1 IH1 H2 IH2|v a b da db H1 IH1 H2 IH2|v a F|v a F|v a da H IH|v a da H IH|v a da H IH]; intros y E r Reg.
  - subst v. unfold goal. apply (dlim_ext id); [intro t; rewrite den_var, upd_var; reflexivity|]. apply derivable_pt_lim_id.
  - subst v. apply dlim_const_free, F.
  - subst v. destruct (occurs (var_ex y) (cPlus args)) eqn:Fr.
    2:{ unfold goal. rewrite (deriv_free (var_ex y) (cPlus args) _ (d_plus _ _ _ _ _ _ P N1 N2 H1 H2) y eq_refl Fr). apply dlim_const_free, Fr. }
    assert (NF : ~ freeq (var_ex y) (cPlus args)) by (unfold freeq; congruence).
    pose proof (reg_plus_inv r y args Reg NF) as RA. unfold goal.
    apply (dlim_ext (fun t => D_ (upd r y t) (grouped "Plus" l1) + D_ (upd r y t) (grouped "Plus" l2))); [intro t; symmetry; apply split_plus; assumption|].
    rewrite den_plus. cbn [map]. unfold rsum. cbn [fold_right]. rewrite Rplus_0_r.
    apply (derivable_pt_lim_plus (fun t => D_ (upd r y t) (grouped "Plus" l1)) (fun t => D_ (upd r y t) (grouped "Plus" l2))).
    + apply (IH1 y eq_refl), reg_grouped_plus. intros a Ha. apply RA, (Permutation_in _ (Permutation_sym P)), in_or_app. left; exact Ha.
    + apply (IH2 y eq_refl), reg_grouped_plus. intros a Ha. apply RA, (Permutation_in _ (Permutation_sym P)), in_or_app. right; exact Ha.
  - subst v. destruct (occurs (var_ex y) (cTimes args)) eqn:Fr.
    2:{ unfold goal. rewrite (deriv_free (var_ex y) (cTimes args) _ (d_times _ _ _ _ _ _ P N1 N2 H1 H2) y eq_refl Fr). apply dlim_const_free, Fr. }
    assert (NF : ~ freeq (var_ex y) (cTimes args)) by (unfold freeq; congruence).
    pose proof (reg_times_inv r y args Reg NF) as RA. unfold goal.
    apply (dlim_ext (fun t => D_ (upd r y t) (grouped "Times" l1) * D_ (upd r y t) (grouped "Times" l2))); [intro t; symmetry; apply split_times; assumption|].
    replace (D_ r (cPlus [cTimes [d1; grouped "Times" l2]; cTimes [grouped "Times" l1; d2]])) with
      (D_ r d1 * D_ (upd r y (r y)) (grouped "Times" l2) + D_ (upd r y (r y)) (grouped "Times" l1) * D_ r d2).
    2:{ rewrite !upd_id, den_plus. cbn [map]. rewrite !den_times. cbn [map]. unfold rsum, rprod. cbn [fold_right]. ring. }
    apply (derivable_pt_lim_mult (fun t => D_ (upd r y t) (grouped "Times" l1)) (fun t => D_ (upd r y t) (grouped "Times" l2))).
    + apply (IH1 y eq_refl), reg_grouped_times. intros a Ha. apply RA, (Permutation_in _ (Permutation_sym P)), in_or_app. left; exact Ha.
    + apply (IH2 y eq_refl), reg_grouped_times. intros a Ha. apply RA, (Permutation_in _ (Permutation_sym P)), in_or_app. right; exact Ha.
  - destruct y as [s|]; [|discriminate E]. injection E as <-. fold (gx g x) in *. 
    destruct (reg_one_slot r x f g Reg) as [R1 R2]. set (y := D_ r (gx g x)) in *.
    unfold goal. rewrite den_times. cbn [map]. unfold rprod. cbn [fold_right]. rewrite Rmult_1_r, den_apply. fold y.
    specialize (IH1 VSlot eq_refl _ R1). specialize (IH2 (VSym x) eq_refl r R2). unfold goal in *. rewrite upd_var in IH1.
    apply (dlim_ext (fun t => D_ (upd (upd r VSlot y) VSlot (D_ (upd r (VSym x) t) (gx g x))) (EExpr [ESym f; slot1]))).
    + intro t. apply den_one; [reflexivity|reflexivity|]. change slot1 with (var_ex VSlot). rewrite den_var. apply upd_var.
    + apply (comp_lim (fun z => D_ (upd (upd r VSlot y) VSlot z) (EExpr [ESym f; slot1])) (fun t => D_ (upd r (VSym x) t) (gx g x))); [exact IH2|].
      change (r (VSym x)) with (r (VSym x)). rewrite upd_id. exact IH1.
  - subst v. destruct (occurs (var_ex y) (cPower a b)) eqn:Fr.
    2:{ unfold goal. rewrite (deriv_free (var_ex y) (cPower a b) _ (d_power _ _ _ _ _ H1 H2) y eq_refl Fr). apply dlim_const_free, Fr. }
    apply goal_power; [exact H2|exact Reg|unfold freeq; congruence|apply (IH1 y eq_refl)|apply (IH2 y eq_refl)].
  - subst v. unfold goal. apply (dlim_ext (fct_cte (Rabs (D_ r a)))).
    + intro t. rewrite den_abs, den_free by exact F. reflexivity.
    + apply derivable_pt_lim_const.
  - subst v. assert (A : a = var_ex y /\ r y <> 0).
    { inversion Reg; subst; try discriminate; [|destruct y; discriminate|auto].
      exfalso. apply F. apply (freeq_parts _ [sys "Abs"; a] H). right; left; reflexivity. }
    destruct A as [-> Hy]. unfold goal. apply (dlim_ext Rabs); [intro t; rewrite den_abs, den_var, upd_var; reflexivity|].
    rewrite den_dabs, den_var. apply dlim_abs, Hy.
  - subst v. destruct (occurs (var_ex y) (app1 "Log" a)) eqn:Fr.
    2:{ unfold goal. rewrite (deriv_free (var_ex y) (app1 "Log" a) _ (d_log _ _ _ H) y eq_refl Fr). apply dlim_const_free, Fr. }
    assert (NF : ~ freeq (var_ex y) (app1 "Log" a)) by (unfold freeq; congruence).
    assert (A : regular fn r y a /\ 0 < D_ r a) by (reginv Reg; auto). destruct A as [Ra Pa].
    unfold goal. apply (dlim_ext (fun t => ln (D_ (upd r y t) a))); [reflexivity|].
    replace (D_ r (cTimes [da; cPower a (EInt (-1))])) with (/ D_ r a * D_ r da).
    2:{ rewrite den_times. cbn [map]. rewrite den_recip. unfold rprod. cbn [fold_right]. ring. }
    apply (comp_lim ln (fun t => D_ (upd r y t) a)); [apply (IH y eq_refl), Ra|]. rewrite upd_id. apply derivable_pt_lim_ln, Pa.
  - subst v. destruct (occurs (var_ex y) (app1 "Sin" a)) eqn:Fr.
    2:{ unfold goal. rewrite (deriv_free (var_ex y) (app1 "Sin" a) _ (d_sin _ _ _ H) y eq_refl Fr). apply dlim_const_free, Fr. }
    assert (NF : ~ freeq (var_ex y) (app1 "Sin" a)) by (unfold freeq; congruence).
    assert (Ra : regular fn r y a) by (reginv Reg; auto).
    unfold goal. apply (dlim_ext (fun t => sin (D_ (upd r y t) a))); [reflexivity|].
    replace (D_ r (cTimes [da; app1 "Cos" a])) with (cos (D_ r a) * D_ r da).
    2:{ rewrite den_times. cbn [map]. rewrite den_cos. unfold rprod. cbn [fold_right]. ring. }
    apply (comp_lim sin (fun t => D_ (upd r y t) a)); [apply (IH y eq_refl), Ra|]. rewrite upd_id. apply derivable_pt_lim_sin.
  - subst v. destruct (occurs (var_ex y) (app1 "Cos" a)) eqn:Fr.
    2:{ unfold goal. rewrite (deriv_free (var_ex y) (app1 "Cos" a) _ (d_cos _ _ _ H) y eq_refl Fr). apply dlim_const_free, Fr. }
    assert (NF : ~ freeq (var_ex y) (app1 "Cos" a)) by (unfold freeq; congruence).
    assert (Ra : regular fn r y a) by (reginv Reg; auto).
    unfold goal. apply (dlim_ext (fun t => cos (D_ (upd r y t) a))); [reflexivity|].
    replace (D_ r (cTimes [EInt (-1); da; app1 "Sin" a])) with (- sin (D_ r a) * D_ r da).
    2:{ rewrite den_times. cbn [map]. rewrite den_sin. unfold rprod. cbn [fold_right]. change (D_ r (EInt (-1))) with (-1). ring. }
    apply (comp_lim cos (fun t => D_ (upd r y t) a)); [apply (IH y eq_refl), Ra|]. rewrite upd_id. apply derivable_pt_lim_cos.
Qed.
End meaning.

(* ---- C77 ---- *)
(* whatever the rules make of D[e, x] is the derivative of e by x, at every
   point where e is regular and for every meaning of the other functions *)
Theorem C77_derivative : forall fn x e d r, deriv (ESym x) e d -> regular fn r (VSym x) e ->
  derivable_pt_lim (fun t => den fn (upd r (VSym x) t) e) (r (VSym x)) (den fn r d).
Proof. intros fn x e d r H R. exact (deriv_ok fn (ESym x) e d H (VSym x) eq_refl r R). Qed.
Print Assumptions C77_derivative.

(* the rules differentiate every expression built from expressions free of x,
   x itself, sums, products, powers, Log, Sin and Cos *)
Inductive elementary (v : ex) : ex -> Prop :=
| el_free e : freeq v e -> elementary v e
| el_var : elementary v v
| el_plus l : (2 <= length l)%nat -> (forall a, In a l -> elementary v a) -> elementary v (cPlus l)
| el_times l : (2 <= length l)%nat -> (forall a, In a l -> elementary v a) -> elementary v (cTimes l)
| el_power a b : elementary v a -> elementary v b -> elementary v (cPower a b)
| el_log a : elementary v a -> elementary v (app1 "Log" a)
| el_sin a : elementary v a -> elementary v (app1 "Sin" a)
| el_cos a : elementary v a -> elementary v (app1 "Cos" a).
Theorem C77_total : forall v e, elementary v e -> exists d, deriv v e d.
Proof.
  assert (PL : forall v l, (forall a, In a l -> exists d, deriv v a d) -> l <> [] -> exists d, deriv v (grouped "Plus" l) d).
  { intros v l. induction l as [|a [|b l] IH]; intros H N; [congruence|apply H; left; reflexivity|]. cbn [grouped].
    destruct (H a (or_introl eq_refl)) as [da Ha]. destruct IH as [db Hb]; [intros; apply H; right; assumption|discriminate|].
    eexists. apply (d_plus v (a :: b :: l) [a] (b :: l) da db); [reflexivity|discriminate|discriminate|exact Ha|exact Hb]. }
  assert (TI : forall v l, (forall a, In a l -> exists d, deriv v a d) -> l <> [] -> exists d, deriv v (grouped "Times" l) d).
  { intros v l. induction l as [|a [|b l] IH]; intros H N; [congruence|apply H; left; reflexivity|]. cbn [grouped].
    destruct (H a (or_introl eq_refl)) as [da Ha]. destruct IH as [db Hb]; [intros; apply H; right; assumption|discriminate|].
    eexists. apply (d_times v (a :: b :: l) [a] (b :: l) da db); [reflexivity|discriminate|discriminate|exact Ha|exact Hb]. }
  intros v e H. induction H as [e F| |l Hl H IH|l Hl H IH|a b Ha [da IHa] Hb [db IHb]|a Ha [da IHa]|a Ha [da IHa]|a Ha [da IHa]].
  - eexists. apply d_free, F.
  - eexists. apply d_same.
  - destruct (PL v l IH) as [d Hd]; [destruct l; [cbn in Hl; inversion Hl|discriminate]|]. exists d. destruct l as [|a [|b l]]; cbn in Hl; try lia. exact Hd.
  - destruct (TI v l IH) as [d Hd]; [destruct l; [cbn in Hl; inversion Hl|discriminate]|]. exists d. destruct l as [|a [|b l]]; cbn in Hl; try lia. exact Hd.
  - eexists. apply d_power; eassumption.
  - eexists. apply d_log; eassumption.
  - eexists. apply d_sin; eassumption.
  - eexists. apply d_cos; eassumption.
Qed.
Print Assumptions C77_total.

(* whichever rules are used, two results have the same value *)
Theorem C77_unambiguous : forall fn x e d d' r, deriv (ESym x) e d -> deriv (ESym x) e d' -> regular fn r (VSym x) e ->
  den fn r d = den fn r d'.
Proof. intros fn x e d d' r H H' R. eapply uniqueness_limite; apply C77_derivative; eassumption. Qed.
Print Assumptions C77_unambiguous.

(* D of a List and Grad *)
Theorem C77_list : forall fn x l ds r, deriv_list (ESym x) l ds -> (forall e, In e l -> regular fn r (VSym x) e) ->
  length ds = length l /\
  forall i, (i < length l)%nat -> derivable_pt_lim (fun t => den fn (upd r (VSym x) t) (nth i l (EInt 0))) (r (VSym x)) (den fn r (nth i ds (EInt 0))).
Proof.
  intros fn x l ds r H. induction H as [|e d l ds H1 H2 IH]; intro R; [split; [reflexivity|intros i Hi; inversion Hi]|].
  destruct IH as [E IH]; [intros; apply R; right; assumption|]. split; [cbn; rewrite E; reflexivity|].
  intros [|i] Hi; cbn [nth]; [apply C77_derivative; [exact H1|apply R; left; reflexivity]|]. apply IH. cbn in Hi. lia.
Qed.
Print Assumptions C77_list.
Theorem C77_grad : forall fn e xs ds r, grad e (map ESym xs) ds -> (forall x, In x xs -> regular fn r (VSym x) e) ->
  length ds = length xs /\
  forall i, (i < length xs)%nat -> let x := nth i xs EmptyString in
    derivable_pt_lim (fun t => den fn (upd r (VSym x) t) e) (r (VSym x)) (den fn r (nth i ds (EInt 0))).
Proof.
  intros fn e xs. induction xs as [|x xs IH]; intros ds r H R; inversion H; subst; [split; [reflexivity|intros i Hi; inversion Hi]|].
  destruct (IH l' r) as [E IH']; [assumption|intros; apply R; right; assumption|]. split; [cbn; rewrite E; reflexivity|].
  intros [|i] Hi; cbn [nth]; [apply C77_derivative; [assumption|apply R; left; reflexivity]|]. apply IH'. cbn in Hi. lia.
Qed.
Print Assumptions C77_grad.

(* the rule for Abs forgets the chain rule: D[Abs[2 x], x] is sign(x), not 2 sign(2 x) *)
Definition sx := ESym "Global`x".
Lemma dlim_double t : derivable_pt_lim (fun t => 2 * t) t 2.
Proof.
  assert (K : derivable_pt_lim (mult_real_fct 2 id) t (2 * 1)) by (apply derivable_pt_lim_scal, derivable_pt_lim_id).
  rewrite Rmult_1_r in K. exact K.
Qed.
Definition abs2x := app1 "Abs" (cTimes [EInt 2; sx]).
Theorem C77_abs_refuted : exists d, deriv sx abs2x d /\ forall fn, exists r,
  derivable_pt_lim (fun t => den fn (upd r (VSym "Global`x") t) abs2x) (r (VSym "Global`x")) 2 /\ den fn r d = 1.
Proof.
  exists (dAbs sx). split; [apply d_abs; discriminate|]. intro fn. exists (fun _ => 1). split.
  - apply (dlim_ext (fun t => Rabs (2 * t))).
    + intro t. unfold abs2x. rewrite den_abs, den_times. cbn [map]. unfold rprod. cbn [fold_right]. f_equal. cbn [den]. change (den fn (upd (fun _ => 1) (VSym "Global`x") t) sx) with t. lra.
    + assert (K : derivable_pt_lim (fun t => Rabs (2 * t)) 1 (1 * 2)); [|rewrite Rmult_1_l in K; exact K].
      apply (comp_lim Rabs (fun t => 2 * t)); [apply dlim_double|]. apply Rabs_derive_1. lra.
  - rewrite den_dabs. cbn [den sx]. unfold rsign. destruct (Rlt_dec 1 0); [lra|]. destruct (Rlt_dec 0 1); [reflexivity|lra].
Qed.
Print Assumptions C77_abs_refuted.

(* higher derivatives are not recognised: D[x^2, {x, 2}] is 0, while the
   derivative of the derivative 2 x is 2 *)
Definition x2 := cPower sx (EInt 2).
Theorem C77_higher_refuted : deriv (mkList [sx; EInt 2]) x2 (EInt 0) /\
  forall r, exists d1, derivable_pt_lim (fun t => t ^ 2) r (d1 r) /\ (forall t, derivable_pt_lim (fun t => t ^ 2) t (d1 t)) /\ derivable_pt_lim d1 r 2.
Proof.
  split; [apply d_free; reflexivity|]. intro r. exists (fun t => 2 * t).
  assert (A : forall t, derivable_pt_lim (fun t => t ^ 2) t (2 * t)).
  { intro t. replace (2 * t) with (INR 2 * t ^ 1) by (cbn; lra). apply (derivable_pt_lim_pow t 2). }
  split; [apply A|]. split; [exact A|]. apply dlim_double.
Qed.
Print Assumptions C77_higher_refuted.

(* D[x^2 Sin[x], x] at any x other than 0: 2 x Sin[x] + x^2 Cos[x] *)
Definition exf := cTimes [x2; app1 "Sin" sx].
Example C77_ex : exists d, deriv sx exf d /\ forall fn r, r (VSym "Global`x") <> 0 -> regular fn r (VSym "Global`x") exf /\
  let x := r (VSym "Global`x") in den fn r d = 2 * x * sin x + x ^ 2 * cos x.
Proof.
  eexists. split.
  - apply (d_times sx [x2; app1 "Sin" sx] [x2] [app1 "Sin" sx]); [reflexivity|discriminate|discriminate| |].
    + cbn [grouped]. apply d_power; [apply d_same|apply d_free; reflexivity].
    + cbn [grouped]. apply d_sin, d_same.
  - intros fn r Hx. split.
    + apply reg_times. intros a [<-|[<-|[]]].
      * apply reg_power_int; [apply (reg_var fn r (VSym "Global`x"))|exact Hx].
      * apply reg_sin. apply (reg_var fn r (VSym "Global`x")).
    + cbv zeta. rewrite den_plus. cbn [map]. rewrite !den_times. cbn [map grouped]. rewrite !den_times. cbn [map]. rewrite den_plus. cbn [map]. rewrite !den_times. cbn [map].
      rewrite den_recip, den_log, den_sin, den_cos. unfold x2. rewrite !den_power_int. unfold rsum, rprod. cbn [fold_right powerRZ den sx].
      change (Pos.to_nat 2) with 2%nat. field. exact Hx.
Qed.
Example C77_ex_total : elementary sx exf.
Proof.
  apply el_times; [cbn; lia|]. intros a [<-|[<-|[]]]; [apply el_power; [apply el_var|apply el_free; reflexivity]|apply el_sin, el_var].
Qed.
