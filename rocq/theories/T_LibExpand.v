(* Property theorems: Multinomial and Expand (C76). *)
From Verif Require Import M_Syntax M_Float M_Hash M_Num M_NumTheory M_Comb M_Compare M_List M_LibExpand S_Comb S_Field P_Comb P_Hash P_LibExpand P_LibExpand2 T_LibMat.
From Coq Require Import List Permutation Lia Arith ZArith Factorial QArith Qcanon.
Import ListNotations.
Open Scope nat_scope.

(* ---- specification ---- *)
Definition exponents (e : list nat) : list ex := map (fun k => EInt (Z.of_nat k)) e.
Definition facts (e : list nat) : nat := fold_right Nat.mul 1 (map fact e).

Lemma fact_loop_fact n : fact_loop n = Z.of_nat (fact n).
Proof. induction n; [reflexivity|]. cbn [fact_loop]. rewrite IHn. change (fact (S n)) with (S n * fact n). lia. Qed.
Lemma facts_loop e : zprodl (map fact_loop e) = Z.of_nat (facts e).
Proof.
  induction e as [|k e IH]; [reflexivity|]. cbn [map zprodl fold_right]. fold (zprodl (map fact_loop e)). rewrite IH, fact_loop_fact.
  unfold facts. cbn [map fold_right]. lia.
Qed.

(* Multinomial is the number c with c k1! ... km! = (k1 + ... + km)! *)
Theorem C76_multinomial : forall e, exists c, multinomial_eval (exponents e) = Some (EInt (Z.of_nat c)) /\ c * facts e = fact (nsum e).
Proof.
  intro e. exists (multi e). split; [apply multinomial_ints|]. pose proof (multi_fact e) as H. rewrite facts_loop, fact_loop_fact in H. lia.
Qed.
Print Assumptions C76_multinomial.

(* possibleExponents[n, m] lists every way to write n as a sum of m natural
   numbers, once; SameQ has to tell the integers up to n apart, because
   Permutations drops what is SameQ *)
Definition integers_apart (n : nat) : Prop := forall i j, i <= n -> j <= n -> is_sameq (EInt (Z.of_nat i)) (EInt (Z.of_nat j)) = true -> i = j.
Lemma apart_ok n : integers_apart n -> small_ints_apart n.
Proof.
  intros H a b Ha Hb E. apply in_map_iff in Ha. apply in_map_iff in Hb. destruct Ha as [i [<- Hi]], Hb as [j [<- Hj]].
  apply in_seq in Hi. apply in_seq in Hj. rewrite (H i j); auto; lia.
Qed.
Theorem C76_exponents_partial : forall n m, (0 < n < 2 ^ 63)%Z -> (Z.of_nat m < 2 ^ 63)%Z -> integers_apart (Z.to_nat n) ->
  exists X, possible_exponents n (Z.of_nat m) = Some (mkList (map (fun e => mkList (exponents e)) X)) /\
    NoDup X /\ forall e, In e X <-> length e = m /\ nsum e = Z.to_nat n.
Proof. intros n m Hn Hm H. apply exps_list; auto. apply apart_ok, H. Qed.
Print Assumptions C76_exponents_partial.

(* integers of one byte are told apart *)
Lemma odd_cancel x y : (x < 2 ^ 64)%N -> (y < 2 ^ 64)%N -> ((x * fnv_prime) mod 2 ^ 64 = (y * fnv_prime) mod 2 ^ 64)%N -> x = y.
Proof.
  intros Hx Hy E. 
  assert (I : exists q, ((fnv_prime * q) mod 2 ^ 64 = 1)%N) by (exists 14886173955864302971%N; vm_compute; reflexivity).
  destruct I as [q Hq].
  assert (K : forall z, (z < 2 ^ 64)%N -> (((z * fnv_prime) mod 2 ^ 64 * q) mod 2 ^ 64 = z)%N).
  { intros z Hz. rewrite N.mul_mod_idemp_l by discriminate. rewrite <- N.mul_assoc. rewrite <- N.mul_mod_idemp_r by discriminate. rewrite Hq.
    rewrite N.mul_1_r. apply N.mod_small, Hz. }
  rewrite <- (K x Hx), <- (K y Hy), E. reflexivity.
Qed.
Lemma lxor_bound h b : (h < 2 ^ 64)%N -> (b < 2 ^ 64)%N -> (N.lxor h b < 2 ^ 64)%N.
Proof.
  intros Hh Hb. destruct (N.eq_dec (N.lxor h b) 0) as [->|Hne]; [reflexivity|]. apply N.log2_lt_pow2; [lia|].
  eapply N.le_lt_trans; [apply N.log2_lxor|]. apply N.max_lub_lt.
  - destruct (N.eq_dec h 0) as [->|]; [reflexivity|]. apply N.log2_lt_pow2; lia.
  - destruct (N.eq_dec b 0) as [->|]; [reflexivity|]. apply N.log2_lt_pow2; lia.
Qed.
Definition hash0 : N := hash (EInt 0).
Lemma hash_byte k : 0 < k < 256 -> hash (EInt (Z.of_nat k)) = fnv_step hash0 (N.of_nat k).
Proof.
  intro Hk. unfold hash0. cbn [hash]. unfold gob_int.
  replace (Z.of_nat k <? 0)%Z with false by (symmetry; apply Z.ltb_ge; lia).
  change (0 <? 0)%Z with false. cbv iota.
  replace (Z.abs_N (Z.of_nat k)) with (N.of_nat k) by lia.
  replace (be_bytes (N.of_nat k)) with [N.of_nat k].
  2:{ set (n := N.of_nat k). assert (Hn : (0 < n < 256)%N) by lia. unfold be_bytes. 
      destruct (N.to_nat (N.size n)) as [|s] eqn:Es.
      - destruct (N.eq_dec n 0); [lia|]. rewrite N.size_log2 in Es by assumption. lia.
      - cbn [be_bytes_fuel]. rewrite low8_mod, high8_div. destruct (N.eqb_spec n 0); [lia|]. rewrite N.div_small, N.mod_small by lia. destruct s; reflexivity. }
  change (be_bytes (Z.abs_N 0)) with (@nil N).
  unfold fnv. set (l := [242; 99; 84; 113; 102; 46; 118; 94]%N).
  replace (l ++ [2%N; N.of_nat k])%list with ((l ++ [2%N]) ++ [N.of_nat k])%list by (rewrite <- app_assoc; reflexivity).
  rewrite fold_left_app. cbn [fold_left]. reflexivity.
Qed.
Lemma bytes_apart : integers_apart 255.
Proof.
  intros i j Hi Hj E. unfold is_sameq in E. apply N.eqb_eq in E.
  assert (B0 : (hash0 < 2 ^ 64)%N) by (vm_compute; reflexivity).
  assert (Z0 : forall k, 0 < k < 256 -> hash (EInt (Z.of_nat k)) <> hash0).
  { intros k Hk E0. rewrite hash_byte in E0 by exact Hk. rewrite fnv_step_mod in E0.
    assert (X : exists x0, ((x0 * fnv_prime) mod 2 ^ 64 = hash0)%N /\ (x0 < 2 ^ 64)%N /\ (256 <= N.lxor hash0 x0)%N).
    { exists ((hash0 * 14886173955864302971) mod 2 ^ 64)%N. split; [vm_compute; reflexivity|]. split; [vm_compute; reflexivity|]. vm_compute. discriminate. }
    destruct X as [x0 [X1 [X2 X3]]]. 
    assert (N.lxor hash0 (N.of_nat k) = x0) as Hx. { apply odd_cancel; [apply lxor_bound; lia|exact X2|]. rewrite X1. exact E0. }
    rewrite <- Hx in X3. rewrite <- N.lxor_assoc, N.lxor_nilpotent, N.lxor_0_l in X3. lia. }
  destruct (Nat.eq_dec i 0) as [->|Ni], (Nat.eq_dec j 0) as [->|Nj]; [reflexivity| | |].
  - exfalso. apply (Z0 j); [lia|]. symmetry. exact E.
  - exfalso. apply (Z0 i); [lia|]. exact E.
  - rewrite !hash_byte in E by lia. rewrite !fnv_step_mod in E. apply odd_cancel in E; [|apply lxor_bound; lia|apply lxor_bound; lia].
    assert (H : N.of_nat i = N.of_nat j); [|lia].
    rewrite <- (N.lxor_0_l (N.of_nat i)), <- (N.lxor_0_l (N.of_nat j)), <- (N.lxor_nilpotent hash0), !N.lxor_assoc, E. reflexivity.
Qed.
Lemma apart_le n m : n <= m -> integers_apart m -> integers_apart n.
Proof. intros H A i j Hi Hj. apply A; lia. Qed.

Theorem C76_exponents_small_partial : forall n m, (0 < n < 256)%Z -> (Z.of_nat m < 2 ^ 63)%Z ->
  exists X, possible_exponents n (Z.of_nat m) = Some (mkList (map (fun e => mkList (exponents e)) X)) /\
    NoDup X /\ forall e, In e X <-> length e = m /\ nsum e = Z.to_nat n.
Proof. intros n m Hn Hm. apply C76_exponents_partial; [lia|exact Hm|]. apply (apart_le _ 255); [lia|apply bytes_apart]. Qed.
Print Assumptions C76_exponents_small_partial.

(* ---- values ---- *)
(* a value of arithmetic expressions that depends only on the values of the
   arguments: replacing an argument by one of equal value changes nothing *)
Record compositional_valuation (F : field) (v : ex -> F) : Prop := {
  cv_arith : arith_valuation F v;
  cv_args : forall h s t a b, v a = v b -> v (EExpr (h :: s ++ a :: t)) = v (EExpr (h :: s ++ b :: t)) }.

Lemma fpow_ext {F : field} (x : F) n : fzpow x (Z.of_nat n) = fpow x n.
Proof. unfold fzpow. destruct n as [|n]; [reflexivity|]. cbn [Z.of_nat]. replace (Z.to_nat (Z.pos (Pos.of_succ_nat n))) with (S n) by lia. reflexivity. Qed.

Section values.
  Variable F : field.
  Add Field ff : (f_theory F).
  Variable v : ex -> F.
  Hypothesis Hv : arith_valuation F v.
  Lemma v_gen_vars l e : v (gen_vars l (ints e)) = mono F (map v l) e.
  Proof.
    unfold gen_vars, xTimes. rewrite (av_times F v Hv), map_map. unfold mono. f_equal.
    revert e. induction l as [|x l IH]; intros [|k e]; try reflexivity. cbn [ints map combine]. f_equal; [|apply IH].
    unfold xPower. rewrite (av_power F v Hv), fpow_ext. reflexivity.
  Qed.
  Lemma v_term l e : exists t, expand_term l (mkList (ints e)) = Some t /\ v t = mterm F (map v l) e.
  Proof.
    unfold expand_term. change (list_parts (mkList (ints e))) with (Some (ints e)). cbv iota. rewrite multinomial_ints. eexists. split; [reflexivity|].
    unfold xTimes. rewrite (av_times F v Hv). cbn [map]. rewrite !fprod_cons, (av_int F v Hv), v_gen_vars, of_int_nat. unfold mterm. cbn [fprod fold_right]. ring.
  Qed.
  Lemma v_terms l X : exists ts, omap (expand_term l) (map (fun e => mkList (ints e)) X) = Some ts /\ map v ts = map (mterm F (map v l)) X.
  Proof.
    induction X as [|e X [ts [E1 E2]]]; [exists []; split; reflexivity|]. cbn [map omap]. destruct (v_term l e) as [t [T1 T2]]. rewrite T1, E1.
    exists (t :: ts). split; [reflexivity|]. cbn [map]. rewrite T2, E2. reflexivity.
  Qed.
  Lemma v_power l n : (0 < n < 2 ^ 63)%Z -> (Z.of_nat (length l) < 2 ^ 63)%Z -> small_ints_apart (Z.to_nat n) ->
    exists r, expand_power l n = Some r /\ v r = fpow (fsum (map v l)) (Z.to_nat n).
  Proof.
    intros Hn Hm A. unfold expand_power. destruct (Z.ltb_spec 0 n); [|lia].
    destruct (exps_list n (length l) Hn Hm A) as [X [E1 [E2 E3]]]. rewrite E1. unfold gen_expand.
    change (list_parts (mkList (map (fun e => mkList (ints e)) X))) with (Some (map (fun e => mkList (ints e)) X)). cbv iota.
    destruct (v_terms l X) as [ts [T1 T2]]. rewrite T1. eexists. split; [reflexivity|].
    unfold xPlus. rewrite (av_plus F v Hv), T2. rewrite multinomial_thm. apply fsum_perm, Permutation_map.
    apply NoDup_Permutation; [exact E2|apply all_exps_nodup|]. intro e. rewrite E3, all_exps_in, map_length. reflexivity.
  Qed.
  Lemma v_factor cs : cs <> [] -> v (factor_of cs) = fprod (map v cs).
  Proof.
    intro H. destruct cs as [|c [|d cs]]; [congruence| |].
    - cbn. ring.
    - cbn [factor_of]. unfold xTimes. apply (av_times F v Hv).
  Qed.
  Lemma v_distribute cs l rest : cs <> [] -> v (distribute cs l rest) = fmul (fprod (map v cs)) (fmul (fsum (map v l)) (fprod (map v rest))).
  Proof.
    intro H. unfold distribute. cbv zeta.
    assert (E : v (xPlus (map (fun x => xTimes [factor_of cs; x]) l)) = fmul (fprod (map v cs)) (fsum (map v l))).
    { unfold xPlus. rewrite (av_plus F v Hv), map_map. rewrite <- (fsum_scale F (fprod (map v cs)) v l). apply fsum_ext. intros x _.
      unfold xTimes. rewrite (av_times F v Hv). cbn [map]. rewrite !fprod_cons, v_factor by exact H. cbn [fprod fold_right]. ring. }
    destruct rest as [|y rest].
    - rewrite E. cbn [map fprod fold_right]. ring.
    - set (s := xPlus _) in *. unfold xTimes. rewrite (av_times F v Hv). cbn [map]. rewrite fprod_cons, E. ring.
  Qed.
  Lemma v_times_perm args cs l rest : Permutation args (cs ++ xPlus l :: rest) ->
    v (xTimes args) = fmul (fprod (map v cs)) (fmul (fsum (map v l)) (fprod (map v rest))).
  Proof.
    intro P. unfold xTimes. rewrite (av_times F v Hv). rewrite (fprod_perm F _ _ (Permutation_map v P)). rewrite map_app, fprod_app. cbn [map].
    rewrite fprod_cons. unfold xPlus. rewrite (av_plus F v Hv). ring.
  Qed.
End values.

(* (a1 + ... + am)^n is replaced by a sum with the same value *)
Theorem C76_power_partial : forall (F : field) (v : ex -> F) l n, arith_valuation F v ->
  (0 < n < 2 ^ 63)%Z -> (Z.of_nat (length l) < 2 ^ 63)%Z -> integers_apart (Z.to_nat n) ->
  exists r, expand_power l n = Some r /\ v r = v (EExpr [sys "Power"; EExpr (sys "Plus" :: l); EInt n]).
Proof.
  intros F v l n Hv Hn Hm A. destruct (v_power F v Hv l n Hn Hm (apart_ok _ A)) as [r [E1 E2]]. exists r. split; [exact E1|].
  rewrite E2, (av_power F v Hv), (av_plus F v Hv). rewrite <- fpow_ext. rewrite Z2Nat.id by lia. reflexivity.
Qed.
Print Assumptions C76_power_partial.
Theorem C76_power_small_partial : forall (F : field) (v : ex -> F) l n, arith_valuation F v -> (0 < n < 256)%Z -> (Z.of_nat (length l) < 2 ^ 63)%Z ->
  exists r, expand_power l n = Some r /\ v r = v (EExpr [sys "Power"; EExpr (sys "Plus" :: l); EInt n]).
Proof. intros F v l n Hv Hn Hm. apply C76_power_partial; [exact Hv|lia|exact Hm|]. apply (apart_le _ 255); [lia|apply bytes_apart]. Qed.
Print Assumptions C76_power_small_partial.

(* a factor is distributed over a sum without changing the value, whichever
   factors, sum and remaining factors the matcher chooses *)
Theorem C76_distribute : forall (F : field) (v : ex -> F) args cs l rest, arith_valuation F v ->
  Permutation args (cs ++ EExpr (sys "Plus" :: l) :: rest) -> cs <> [] ->
  v (distribute cs l rest) = v (EExpr (sys "Times" :: args)).
Proof. intros F v args cs l rest Hv P H. rewrite (v_distribute F v Hv) by exact H. symmetry. apply (v_times_perm F v Hv), P. Qed.
Print Assumptions C76_distribute.

(* every step of Expand, anywhere in the expression, keeps the value *)
Fixpoint small (e : ex) : Prop :=
  match e with EExpr l => (Z.of_nat (length l) < 2 ^ 63)%Z /\ (fix go l := match l with [] => True | x :: t => small x /\ go t end) l | _ => True end.
Theorem C76_step_partial : forall (F : field) (v : ex -> F) a b, compositional_valuation F v ->
  small a -> expand_step 255 a b -> v b = v a.
Proof.
  intros F v a b [Hv Hc] Sm St. induction St as [l n r Hn E|args cs l rest P H|h s t a b St IH].
  - assert (0 < n)%Z by (unfold expand_power in E; destruct (Z.ltb_spec 0 n); [assumption|discriminate]).
    destruct (C76_power_small_partial F v l n Hv) as [r' [E1 E2]]; [lia| |].
    + cbn [small xPower] in Sm. destruct Sm as [_ [_ [[Sm _] _]]]. cbn [length] in Sm. lia.
    + rewrite E1 in E. injection E as <-. exact E2.
  - apply C76_distribute; assumption.
  - apply Hc. apply IH. clear - Sm. cbn [small] in Sm. destruct Sm as [_ [_ Sm]]. induction s as [|x s IHs]; [exact (proj1 Sm)|]. apply IHs. exact (proj2 Sm).
Qed.
Print Assumptions C76_step_partial.

(* Expand: any sequence of such steps and of evaluation steps that keep the
   value ends with an expression of the same value *)
Inductive expands (F : field) (v : ex -> F) : ex -> ex -> Prop :=
| exp_done a : expands F v a a
| exp_rule a b c : small a -> expand_step 255 a b -> expands F v b c -> expands F v a c
| exp_evaluation a b c : v b = v a -> expands F v b c -> expands F v a c.
Theorem C76_value_partial : forall (F : field) (v : ex -> F) a b, compositional_valuation F v -> expands F v a b -> v b = v a.
Proof.
  intros F v a b Hv H. induction H as [a|a b c Sm St H IH|a b c E H IH]; [reflexivity| |].
  - rewrite IH. apply (C76_step_partial F v a b Hv Sm St).
  - rewrite IH. exact E.
Qed.
Print Assumptions C76_value_partial.

(* where no step applies there is no positive power of a sum and no product
   with a sum among its factors, at any depth of the arguments *)
Inductive within : ex -> ex -> Prop :=
| wi_here e : within e e
| wi_arg e h l a : In a l -> within e a -> within e (EExpr (h :: l)).
Theorem C76_normal_form : forall e, (forall b, ~ expand_step 255 e b) ->
  (forall l n, within (EExpr [sys "Power"; EExpr (sys "Plus" :: l); EInt n]) e -> (0 < n < 256)%Z -> ~ (Z.of_nat (length l) < 2 ^ 63)%Z) /\
  (forall args l, within (EExpr (sys "Times" :: args)) e -> In (EExpr (sys "Plus" :: l)) args -> 2 <= length args -> False).
Proof.
  intros e H.
  assert (W : forall x e, within x e -> forall y, expand_step 255 x y -> exists b, expand_step 255 e b).
  { clear. intros x e W. induction W as [e|e h l a Ha W IH]; intros y St; [eauto|]. destruct (IH y St) as [b Hb].
    apply in_split in Ha. destruct Ha as [s [t ->]]. eexists. apply es_inside, Hb. }
  split.
  - intros l n Hw Hn Hl. pose (vz := fun _ : ex => tt).
    destruct (exps_list n (length l)) as [X [E1 [E2 E3]]]; [lia|exact Hl|apply apart_ok, (apart_le _ 255); [lia|apply bytes_apart]|].
    assert (E : exists r, expand_power l n = Some r).
    { unfold expand_power. destruct (Z.ltb_spec 0 n); [|lia]. rewrite E1. unfold gen_expand.
      change (list_parts (mkList (map (fun e => mkList (ints e)) X))) with (Some (map (fun e => mkList (ints e)) X)). cbv iota.
      rewrite (omap_map _ _ (fun e => xTimes [EInt (Z.of_nat (multi e)); gen_vars l (ints e)])); [eauto|].
      intros x _. unfold expand_term. change (list_parts (mkList (ints x))) with (Some (ints x)). cbv iota. rewrite multinomial_ints. reflexivity. }
    destruct E as [r E]. destruct (W _ _ Hw r) as [b Hb]; [apply es_power; [lia|exact E]|]. exact (H b Hb).
  - intros args l Hw Hin Hlen. apply in_split in Hin. destruct Hin as [s [t ->]].
    destruct s as [|c s].
    + destruct t as [|c t]; [cbn in Hlen; lia|].
      destruct (W _ _ Hw (distribute [c] l t)) as [b Hb]; [|exact (H b Hb)].
      apply es_times; [|discriminate]. cbn [app]. apply perm_swap.
    + destruct (W _ _ Hw (distribute (c :: s) l t)) as [b Hb]; [|exact (H b Hb)]. apply es_times; [reflexivity|discriminate].
Qed.
Print Assumptions C76_normal_form.

(* ---- cases ---- *)
Definition xa := ESym "Global`a". Definition xb := ESym "Global`b".
Example C76_ex_power : expand_power [xa; xb] 2 = Some (EExpr [sys "Plus";
  xTimes [EInt 1; xTimes [xPower xa (EInt 2); xPower xb (EInt 0)]];
  xTimes [EInt 1; xTimes [xPower xa (EInt 0); xPower xb (EInt 2)]];
  xTimes [EInt 2; xTimes [xPower xa (EInt 1); xPower xb (EInt 1)]]]).
Proof. vm_compute. reflexivity. Qed.
Example C76_ex_multinomial : multinomial_eval [EInt 1; EInt 3; EInt 1] = Some (EInt 20).
Proof. reflexivity. Qed.
Example C76_ex_distribute : distribute [xa] [xb; EInt 1] [] = EExpr [sys "Plus"; xTimes [xa; xb]; xTimes [xa; EInt 1]].
Proof. reflexivity. Qed.

(* a compositional valuation in the rational numbers: a is 2, b is 3, anything
   that is not arithmetic is 5 *)
Definition integer_of (q : Qc) : option Z := if Pos.eqb (Qden q) 1 then Some (Qnum q) else None.
Definition qpower (a b : QcF) : QcF := match integer_of b with Some n => fzpow a n | None => f0 end.
Definition qhead (s : string) (args : list QcF) : QcF :=
  if String.eqb s (sysname "Plus") then fsum args
  else if String.eqb s (sysname "Times") then fprod args
  else if String.eqb s (sysname "Power") then match args with [a; b] => qpower a b | _ => f0 end
  else Q2Qc (5#1).
Fixpoint cval (e : ex) : QcF :=
  match e with
  | EInt z => of_int z
  | ERat n d => fdiv (of_int n : QcF) (of_int d)
  | ESym s => if String.eqb s "Global`a" then Q2Qc (2#1) else if String.eqb s "Global`b" then Q2Qc (3#1) else Q2Qc (5#1)
  | EExpr l => match l with ESym s :: t => qhead s (List.map cval t) | _ => f0 end
  | _ => Q2Qc (5#1)
  end.
Lemma qint_add x y : Q2Qc (inject_Z (x + y)) = (Q2Qc (inject_Z x) + Q2Qc (inject_Z y))%Qc.
Proof. apply Qc_is_canon. cbn [this Q2Qc]. rewrite inject_Z_plus. unfold Qcplus. cbn [this Q2Qc]. rewrite !Qred_correct. reflexivity. Qed.
Lemma nat_f_Qc n : nat_f QcF n = Q2Qc (inject_Z (Z.of_nat n)).
Proof. induction n; [reflexivity|]. cbn [nat_f]. rewrite IHn. rewrite Nat2Z.inj_succ. unfold Z.succ. rewrite Z.add_comm, qint_add. reflexivity. Qed.
Lemma of_int_Qc z : of_int z = Q2Qc (inject_Z z) :> QcF.
Proof.
  destruct z as [|p|p].
  - reflexivity.
  - rewrite <- (positive_nat_Z p), of_int_nat. apply nat_f_Qc.
  - change (of_int (Z.neg p) : QcF) with (Qcopp (of_int (Z.pos p) : QcF)). rewrite <- (positive_nat_Z p), of_int_nat, nat_f_Qc.
    rewrite positive_nat_Z. apply Qc_is_canon. cbn [this Q2Qc Qcopp]. unfold Qcopp. cbn [this Q2Qc]. rewrite !Qred_correct. reflexivity.
Qed.
Lemma integer_of_int z : integer_of (of_int z : QcF) = Some z.
Proof.
  rewrite of_int_Qc. unfold integer_of. 
  assert (E : Qred (inject_Z z) = inject_Z z).
  { unfold inject_Z. apply Qred_identity. cbn. rewrite Z.gcd_comm. destruct z; reflexivity || (rewrite Z.gcd_1_l; reflexivity). }
  cbn [Q2Qc this]. rewrite E. reflexivity.
Qed.
Example C76_ex_valuation : compositional_valuation QcF cval.
Proof.
  constructor.
  - constructor; try reflexivity. intros a n. cbn [cval List.map]. unfold qhead.
    change (String.eqb (sysname "Power") (sysname "Plus")) with false. change (String.eqb (sysname "Power") (sysname "Times")) with false.
    change (String.eqb (sysname "Power") (sysname "Power")) with true. cbv iota. unfold qpower. rewrite integer_of_int. reflexivity.
  - intros h s t a b E. destruct h; try reflexivity. cbn [cval]. f_equal. rewrite !map_app. cbn [List.map]. rewrite E. reflexivity.
Qed.
(* (a + b)^2 (a + b) is 125 there, and so is what Expand makes of it *)
Definition xprod := xTimes [xPower (xPlus [xa; xb]) (EInt 2); xPlus [xa; xb]].
Example C76_ex_expand : exists r, expand_step 255 xprod r /\ small xprod /\ cval xprod = Q2Qc (125#1) /\ cval r = Q2Qc (125#1).
Proof.
  exists (distribute [xPower (xPlus [xa; xb]) (EInt 2)] [xa; xb] []). split.
  - apply es_times; [reflexivity|discriminate].
  - split; [cbn; repeat split; lia|]. split; apply Qc_is_canon; vm_compute; reflexivity.
Qed.
