(* C52: input history. *)
From Verif Require Import M_Syntax M_Float M_Hash M_Match M_Defs S_Defs P_Hash P_Defs P_Defs3 P_Defs4.
Open Scope nat_scope.

Definition hrules (h : string) (k : Z) (l : list ex) : list dval :=
  map (fun p => DVal (held (hist_lhs h (k + Z.of_nat (fst p)))) (snd p) 0) (combine (seq 0 (length l)) l).

Lemma seq_snoc s n : seq s (S n) = seq s n ++ [s + n].
Proof. rewrite <- (Nat.add_1_r n), seq_app. reflexivity. Qed.
Lemma combine_snoc {A B} (l : list A) (m : list B) a b : length l = length m -> combine (l ++ [a]) (m ++ [b]) = combine l m ++ [(a, b)].
Proof. revert m. induction l as [|x t IH]; intros [|y u] L; cbn in *; try discriminate; auto. f_equal. apply IH. lia. Qed.
Lemma hrules_snoc h k l x : hrules h k (l ++ [x]) = hrules h k l ++ [DVal (held (hist_lhs h (k + Z.of_nat (length l)))) x 0].
Proof.
  unfold hrules. rewrite app_length. cbn [length]. rewrite Nat.add_1_r, seq_snoc, combine_snoc by (now rewrite seq_length).
  rewrite map_app. reflexivity.
Qed.

Definition nocoll (h : string) (k : Z) (n : nat) : Prop :=
  forall i j, (k <= i < k + Z.of_nat n)%Z -> (k <= j < k + Z.of_nat n)%Z ->
    hash (held (hist_lhs h i)) = hash (held (hist_lhs h j)) -> i = j.

Lemma hrules_in h k l d : In d (hrules h k l) -> exists i, i < length l /\ dv_lhs d = held (hist_lhs h (k + Z.of_nat i)) /\ dv_spec d = 0%Z.
Proof.
  unfold hrules. rewrite in_map_iff. intros ([i e] & <- & I). exists i. apply in_combine_l in I. apply in_seq in I.
  cbn [fst snd dv_lhs dv_spec]. repeat split. lia.
Qed.

Lemma define_hist fl h k l x : nocoll h k (S (length l)) ->
  define_rule fl (sysname h) (held (hist_lhs h (k + Z.of_nat (length l)))) x (hrules h k l) = hrules h k (l ++ [x]).
Proof.
  intro NC. rewrite hrules_snoc. unfold define_rule.
  assert (O : overwrite (held (hist_lhs h (k + Z.of_nat (length l)))) x (hrules h k l) = None).
  { assert (G : Forall (fun d => same_rule (held (hist_lhs h (k + Z.of_nat (length l)))) x d = false) (hrules h k l)).
    { apply Forall_forall. intros d I. apply hrules_in in I. destruct I as (i & L & E & _).
      unfold same_rule. rewrite E, sameq_not_flt_r by exact Logic.I.
      destruct (N.eqb_spec (hash (held (hist_lhs h (k + Z.of_nat i)))) (hash (held (hist_lhs h (k + Z.of_nat (length l)))))) as [Q|Q]; [|reflexivity].
      exfalso. apply NC in Q; lia. }
    clear NC. induction G as [|d t H _ IH]; [reflexivity|]. cbn [overwrite]. now rewrite H, IH. }
  rewrite O. clear O.
  assert (G : Forall (fun d => exists j, dv_lhs d = held (hist_lhs h j) /\ dv_spec d = 0%Z) (hrules h k l)).
  { apply Forall_forall. intros d I. apply hrules_in in I. destruct I as (i & L & E & S0). eauto. }
  assert (SP : forall j y, rule_specificity fl (held (hist_lhs h j)) y (sysname h) = 110%Z).
  { intros j y. unfold rule_specificity. destruct (String.eqb_spec (sysname h) "Rubi`Int") as [E|E]; [discriminate E|]. reflexivity. }
  induction G as [|d t (j & E & S0) _ IH]; cbn [insert_rule app]; [reflexivity|].
  unfold eff_spec. rewrite S0, E, !SP. cbn [Z.eqb Z.ltb Z.compare Pos.compare Pos.compare_cont].
  now rewrite IH.
Qed.

Lemma first_literal h k : forall l i, nocoll h k (length l) -> i < length l ->
  first_rule (literal (hist_lhs h (k + Z.of_nat i))) (hrules h k l) = nth_error l i.
Proof.
  assert (G : forall l i s, (forall a b, s <= a < s + length l -> s <= b < s + length l ->
      hash (held (hist_lhs h (k + Z.of_nat a))) = hash (held (hist_lhs h (k + Z.of_nat b))) -> a = b) -> i < length l ->
    first_rule (literal (hist_lhs h (k + Z.of_nat (s + i))))
      (map (fun p => DVal (held (hist_lhs h (k + Z.of_nat (fst p)))) (snd p) 0) (combine (seq s (length l)) l)) = nth_error l i).
  { induction l as [|x t IH]; intros i s NC L; cbn [length] in *; [lia|].
    cbn [seq combine map first_rule fst snd]. unfold literal at 1. cbn [dv_lhs dv_rhs].
    rewrite sameq_not_flt_r by exact I. destruct i as [|i].
    - rewrite Nat.add_0_r, N.eqb_refl. reflexivity.
    - destruct (N.eqb_spec (hash (held (hist_lhs h (k + Z.of_nat s)))) (hash (held (hist_lhs h (k + Z.of_nat (s + S i)))))) as [Q|Q].
      { exfalso. apply NC in Q; lia. }
      cbn [nth_error]. replace (s + S i) with (S s + i) by lia. apply (IH i (S s)); [|lia].
      intros a b Ha Hb. apply NC; lia. }
  intros l i NC L. apply (G l i 0); [|exact L]. intros a b Ha Hb Q. apply NC in Q; lia.
Qed.

Definition line_rule (st : state) (z : Z) : Prop :=
  exists sp, rules_of st nLine = [DVal (held (ESym nLine)) (EInt z) sp].
Definition hist_inv (st : state) (h : list (ex * ex)) : Prop :=
  st_frozen st = false /\ line_rule st (1 + Z.of_nat (length h)) /\
  rules_of st (sysname "In") = hrules "In" 1 (map fst h) /\ rules_of st (sysname "Out") = hrules "Out" 1 (map snd h).

Lemma same_history_inv st st' h : same_history st st' -> hist_inv st h -> hist_inv st' h.
Proof.
  intros (F & A & B & C) (F0 & (sp & L) & I & O). unfold hist_inv, line_rule, rules_of, nLine in *.
  rewrite F, A, B, C. eauto.
Qed.
Lemma new_def_rules fl h lhs rhs st : d_dvs (new_def fl h lhs rhs (lookup st h)) = define_rule fl h (held lhs) rhs (rules_of st h).
Proof. unfold new_def, rules_of. destruct (lookup st h); reflexivity. Qed.

Lemma in_out_line : sysname "In" <> sysname "Out" /\ sysname "In" <> nLine /\ sysname "Out" <> nLine.
Proof. repeat split; discriminate. Qed.

Lemma process_inv fl st h i o st' : hist_inv st h -> nocoll "In" 1 (S (length h)) -> nocoll "Out" 1 (S (length h)) ->
  process_top_level fl st i o = Some st' -> hist_inv st' (h ++ [(i, o)]).
Proof.
  intros (F & (sp & L) & RI & RO) NI NO H. destruct in_out_line as (D1 & D2 & D3).
  unfold process_top_level in H. remember (1 + Z.of_nat (length h))%Z as kk eqn:K.
  assert (get_sym_def st nLine = Some (EInt kk)) as G.
  { unfold get_sym_def, rules_of in *. destruct (lookup st nLine) as [d|]; [|discriminate L]. rewrite L. reflexivity. }
  rewrite G in H. clear G.
  rewrite define_fun_rule in H; [|exact F|discriminate|discriminate]. cbn [bind_st] in H.
  set (s1 := set_def st (sysname "In") _) in H.
  assert (F1 : st_frozen s1 = false) by exact F.
  rewrite define_fun_rule in H; [|exact F1|discriminate|discriminate]. cbn [bind_st] in H.
  set (s2 := set_def s1 (sysname "Out") _) in H.
  assert (F2 : st_frozen s2 = false) by exact F.
  rewrite (define_rule_lhs fl s2 _ _ nLine F2 (rule_lhs_sym nLine ltac:(discriminate))) in H.
  injection H as <-.
  assert (LN : rules_of s2 nLine = [DVal (held (ESym nLine)) (EInt kk) sp]).
  { unfold s2, s1. rewrite !rules_set_other by congruence. exact L. }
  unfold hist_inv. rewrite !map_app, app_length. cbn [map fst snd length].
  split; [exact F|]. split; [|split].
  - exists sp. rewrite rules_set_same, new_def_rules, LN. unfold define_rule. cbn [overwrite].
    rewrite same_rule_var by reflexivity. cbn [dv_lhs dv_spec].
    replace (1 + Z.of_nat (length h + 1))%Z with (kk + 1)%Z by lia. reflexivity.
  - rewrite rules_set_other by congruence. unfold s2. rewrite rules_set_other by congruence.
    unfold s1. rewrite rules_set_same, new_def_rules, RI, K.
    replace (length h) with (length (map fst h)) by apply map_length.
    apply define_hist. now rewrite map_length.
  - rewrite rules_set_other by congruence. unfold s2. rewrite rules_set_same, new_def_rules.
    unfold s1. rewrite rules_set_other by congruence. rewrite RO, K.
    replace (length h) with (length (map snd h)) by apply map_length.
    apply define_hist. now rewrite map_length.
Qed.

Lemma nocoll_le h k n m : n <= m -> nocoll h k m -> nocoll h k n.
Proof. intros L NC i j Hi Hj. apply NC; lia. Qed.

Lemma session_inv fl st h st' : session fl st h st' -> session_start st -> nocoll "In" 1 (length h) -> nocoll "Out" 1 (length h) -> hist_inv st' h.
Proof.
  induction 1 as [st|st h st1 st2 i o st3 S IH SH P]; intros ST NI NO.
  - destruct ST as (F & A & B & sp & C). split; [exact F|]. split; [exists sp; exact C|]. split; assumption.
  - rewrite app_length in NI, NO. cbn [length] in NI, NO. rewrite Nat.add_1_r in NI, NO.
    eapply process_inv; [| exact NI | exact NO | exact P].
    eapply same_history_inv; [exact SH|]. apply IH; [exact ST| |]; (eapply nocoll_le; [|eassumption]; lia).
Qed.
