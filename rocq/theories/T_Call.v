(* Property theorems: calls of functions defined by rules (C90). *)
From Verif Require Import M_Syntax M_Float M_Hash M_Alloc M_Num M_Arith M_Compare M_Match M_Defs M_Eval S_Match S_Eval S_Call P_Hash P_MatchFuel P_MatchNames P_Eval P_Eval2 P_Eval3 P_Eval4 P_Call T_Match T_Eval T_Eval3 T_Eval4 S_Iter P_Iter T_Iter T_Eval5.
Open Scope nat_scope.

(* ---- the matcher on the left-hand sides ---- *)
(* For patterns made of literals, x_, x_h and function applications, with
   distinct variables: matching is decided exactly.  If nothing fits there is
   no match; otherwise there is one match and no other, and it binds the
   variables to the parts of the expression they stand for. *)
Theorem C90_simple_patterns : forall env p e, simple env p = true -> NoDup (pattern_names p) ->
  (forall bs, fits p e bs <-> fst (match_iter env e p []) = [bs]) /\
  ((forall bs, ~ fits p e bs) <-> fst (match_iter env e p []) = []).
Proof.
  intros env p e H N. destruct (match_simple env p e H N) as [[E F]|[b [E F]]]; rewrite E; split.
  - intro bs. split; [intro K; destruct (F bs K)|discriminate].
  - split; auto.
  - intro bs. split; [intro K; rewrite (fits_fun _ _ _ F bs K); reflexivity|intro K; injection K as <-; exact F].
  - split; [intro K; destruct (K b F)|discriminate].
Qed.
Print Assumptions C90_simple_patterns.

(* ---- selection of a rule ---- *)
Lemma guarded_large c es r o es1 : cfg_mono c -> guarded c es r o es1 ->
  exists n, forall m k, n <= m -> n <= k -> try_cond c k (run c m None) es r = Ret (o, es1).
Proof.
  intro Hc. induction 1 as [es r N1 N2 N3|es body cond es1 o es2 E _ [n IH]|es body cond v es1 E N].
  - exists 1. intros m [|k] _ Hk; [lia|]. cbn [try_cond].
    assert (Q : match r with EExpr [ESym h; vars; body] => if String.eqb h (sysname "With") && has_head body nCondition then
              match apply_with (env_of c es) [vars; body] with Some r0 => if has_head r0 nCondition then r0 else r | None => r end else r | _ => r end = r).
    { destruct r as [| | | | | |[|[h| | | | | |] [|vars [|body [|]]]]]; try reflexivity.
      destruct (String.eqb_spec h (sysname "With")) as [->|]; [|reflexivity]. exfalso. apply N2. eexists. reflexivity. }
    cbv zeta. rewrite Q. rewrite (args_of_not r nCondition N1). reflexivity.
  - destruct (evals_large c _ _ _ _ Hc E) as [n1 K]. exists (S (n + n1)). intros m [|k] Hm Hk; [lia|]. cbn [try_cond].
    change (String.eqb nCondition (sysname "With")) with false. cbn [andb]. cbv zeta. rewrite args_of_eq.
    rewrite K by lia. cbn [obind]. change (trueQ sTrue) with true. cbv iota. apply IH; lia.
  - destruct (evals_large c _ _ _ _ Hc E) as [n1 K]. exists (S n1). intros m [|k] Hm Hk; [lia|]. cbn [try_cond].
    change (String.eqb nCondition (sysname "With")) with false. cbn [andb]. cbv zeta. rewrite args_of_eq.
    rewrite K by lia. cbn [obind]. destruct (trueQ v) eqn:T; [apply trueQ_eq in T; contradiction|reflexivity].
Qed.
Lemma held_match env e l : match_iter env e (held l) [] = match_iter env e l [].
Proof. rewrite match_iter_eq. reflexivity. Qed.
Lemma selects_large c e es rules o es1 : cfg_mono c -> selects c e es rules o es1 ->
  exists n, forall m k, n <= m -> n <= k -> get_def_rules c k (run c m None) es e rules = Ret (o, es1).
Proof.
  intro Hc.
  induction 1 as [es|es l r z rest o es1 [Hs Hn] F _ [n IH]|es l r z rest bs r' es1 o es2 [Hs Hn] F Sb G _ [n IH]|es l r z rest bs r' v es1 [Hs Hn] F Sb G].
  - exists 0. reflexivity.
  - exists n. intros m k Hm Hk. cbn [get_def_rules dv_lhs dv_rhs]. unfold replace_rule. rewrite held_match.
    rewrite (proj1 (proj2 (C90_simple_patterns _ l e Hs Hn)) F). cbn [try_matches obind]. apply IH; assumption.
  - destruct (guarded_large c _ _ _ _ Hc G) as [n1 K]. exists (n + n1). intros m k Hm Hk. cbn [get_def_rules dv_lhs dv_rhs]. unfold replace_rule.
    rewrite held_match, (proj1 (proj1 (C90_simple_patterns _ l e Hs Hn) bs) F). cbn [try_matches].
    rewrite (proj2 (C26_replace_is_substitution bs r r') Sb), K by lia. cbn [obind]. apply IH; lia.
  - destruct (guarded_large c _ _ _ _ Hc G) as [n1 K]. exists n1. intros m k Hm Hk. cbn [get_def_rules dv_lhs dv_rhs]. unfold replace_rule.
    rewrite held_match, (proj1 (proj1 (C90_simple_patterns _ l e Hs Hn) bs) F). cbn [try_matches].
    rewrite (proj2 (C26_replace_is_substitution bs r r') Sb), K by lia. reflexivity.
Qed.

Lemma user_apply c e es f l rules o es1 : cfg_mono c -> defined_by es f rules -> e = EExpr l -> selects c e es rules o es1 ->
  exists n, forall m, n <= m -> apply_head c m (run c m None) es f l l =
    Ret (match o with Some v => (v, true, es1) | None => (EExpr l, false, es1) end).
Proof.
  intros Hc D -> S. destruct (selects_large c _ _ _ _ _ Hc S) as [n K]. exists n. intros m Hm. unfold apply_head, get_def.
  unfold defined_by in D. destruct (lookup (es_defs es) f) as [d|] eqn:L.
  - destruct D as [B <-]. rewrite B. cbn [obind]. rewrite L, (K m m Hm Hm). cbn [obind]. destruct o; reflexivity.
  - subst rules. inversion S; subst. cbn [obind]. rewrite L. reflexivity.
Qed.
Lemma user_pass c es f names args args' es1 rules o es2 : cfg_mono c -> user_fn es f names ->
  evals_args c (holds names) 1 es args args' es1 -> Forall ordinary_arg args' -> defined_by es1 f rules ->
  selects c (EExpr (ESym f :: args')) es1 rules o es2 ->
  exists n, forall m, n <= m -> pass c m (run c m None) es (ESym f :: args) =
    Ret (inr (match o with Some v => (v, true) | None => (EExpr (ESym f :: args'), false) end), es2).
Proof.
  intros Hc [A [NV [T Na]]] E O D S.
  destruct (user_apply c _ es1 f (ESym f :: args') rules o es2 Hc D eq_refl S) as [n1 K1].
  destruct (evals_args_large c _ _ _ _ _ _ Hc (head_arg c es f names args args' es1 NV T E)) as [n2 K2].
  exists (n1 + n2). intros m Hm.
  rewrite (pass_symbol c m (run c m None) es f names args (ESym f :: args') es1 A); try (apply Na; cbn; tauto).
  - rewrite K1 by lia. destruct o; reflexivity.
  - apply K2. lia.
  - constructor; [apply ordinary_sym|exact O].
  - discriminate.
Qed.

(* ---- inside a definition ---- *)
Lemma pass_large c k es parts x : cfg_mono c -> pass c k (run c k None) es parts = Ret x ->
  forall m, k <= m -> pass c m (run c m None) es parts = Ret x.
Proof.
  intros Hc H m Hm. destruct (pass_mono c k m (run c k None) (run c m None) es parts Hc Hm) as [K|K].
  - intros es' e'. apply run_mono; assumption.
  - rewrite K in H. discriminate H.
  - rewrite <- K. exact H.
Qed.
Lemma no_return_value e : ~ headed e (sysname "Return") -> return_value e = None.
Proof. exact (not_return e). Qed.
Lemma inside_same c : cfg_mono c -> forall n last b1 b2 es e x, never_returns c es e ->
  run c n (Some (last, b1)) es e = Ret x -> run c n (Some (last, b2)) es e = Ret x.
Proof.
  intro Hc. induction n as [|k IH]; intros last b1 b2 es e x NR H; [discriminate H|].
  cbn [run] in H |- *. destruct (N.eqb (hash e) last); [exact H|].
  destruct e as [s|s|z|p q|f|re im|parts]; try exact H.
  assert (RV : return_value (EExpr parts) = None) by (apply no_return_value, (NR _ es); constructor).
  rewrite RV in H |- *. destruct b1, b2; cbn [orb] in *; try exact H;
    (destruct (pass c k (run c k None) es parts) as [[[v|[e' b]] es1]| |] eqn:P; cbn [obind] in *; try exact H;
     eapply IH; [|exact H]; intros e2 es2 R; apply (NR e2 es2); apply (RE_step c es _ e' es1); [|exact R];
     exists parts, b, k; split; [reflexivity|]; intros m Hm; apply (pass_large c k es parts _ Hc P m Hm)).
Qed.

(* A call f[args] of a function defined by rules: the arguments are evaluated
   (unless held), the first definition that applies gives the body, and the call
   has the value of the body.  Here: bodies that do not use Return. *)
Theorem C90_call : forall c es f names args args' es1 rules r es2 v es3, cfg_mono c ->
  user_fn es f names -> evals_args c (holds names) 1 es args args' es1 -> Forall ordinary_arg args' ->
  defined_by es1 f rules -> selects c (EExpr (ESym f :: args')) es1 rules (Some r) es2 ->
  hash_ok (EExpr (ESym f :: args)) -> no_clash (EExpr (ESym f :: args)) r ->
  never_returns c es2 r -> evals_to c es2 r v es3 ->
  evals_to c es (EExpr (ESym f :: args)) v es3.
Proof.
  intros c es f names args args' es1 rules r es2 v es3 Hc U E O D S Hz [Nz Nc] NR Ev.
  destruct (user_pass c es f names args args' es1 rules (Some r) es2 Hc U E O D S) as [n1 K1].
  destruct (cont_eval c es2 (hash (EExpr (ESym f :: args))) r v es3 Hc Nz Nc Ev) as [n2 K2].
  exists (Datatypes.S (Datatypes.S (n1 + n2))). unfold eval.
  change (run c (Datatypes.S (Datatypes.S (n1 + n2))) None es (EExpr (ESym f :: args))) with (run c (Datatypes.S (n1 + n2)) (Some (0%N, false)) es (EExpr (ESym f :: args))).
  rewrite run_expr by exact Hz. rewrite K1 by lia. cbn [obind].
  apply (inside_same c Hc _ _ false true); [exact NR|]. apply K2. lia.
Qed.
Print Assumptions C90_call.

(* no definition applies: the call evaluates to itself with evaluated arguments *)
Theorem C90_call_undefined : forall c es f names args args' es1 rules, cfg_mono c ->
  user_fn es f names -> user_fn es1 f names -> evals_args c (holds names) 1 es args args' es1 -> evals_args c (holds names) 1 es1 args' args' es1 ->
  Forall ordinary_arg args' -> defined_by es1 f rules -> selects c (EExpr (ESym f :: args')) es1 rules None es1 ->
  hash_ok (EExpr (ESym f :: args)) ->
  evals_to c es (EExpr (ESym f :: args)) (EExpr (ESym f :: args')) es1.
Proof.
  intros c es f names args args' es1 rules Hc U U1 E E1 O D S Hz.
  destruct (user_pass c es f names args args' es1 rules None es1 Hc U E O D S) as [n K].
  pose proof (user_pass c es1 f names args' args' es1 rules None es1 Hc U1 E1 O D S) as F.
  assert (V : value c es1 (EExpr (ESym f :: args'))) by (apply (evals_fixed c es1 _ false Hc F)).
  destruct (N.eq_dec (hash (EExpr (ESym f :: args'))) (hash (EExpr (ESym f :: args)))) as [Q|Q].
  - exists (Datatypes.S (Datatypes.S (Datatypes.S n))). unfold eval.
    change (run c (Datatypes.S (Datatypes.S (Datatypes.S n))) None es (EExpr (ESym f :: args))) with (run c (Datatypes.S (Datatypes.S n)) (Some (0%N, false)) es (EExpr (ESym f :: args))).
    rewrite run_expr by exact Hz. rewrite (K (Datatypes.S n)) by lia. cbn [obind]. apply run_stop, Q.
  - destruct F as [n1 F]. exists (Datatypes.S (Datatypes.S (Datatypes.S (Datatypes.S (n + n1))))). unfold eval.
    change (run c (Datatypes.S (Datatypes.S (Datatypes.S (Datatypes.S (n + n1))))) None es (EExpr (ESym f :: args))) with (run c (Datatypes.S (Datatypes.S (Datatypes.S (n + n1)))) (Some (0%N, false)) es (EExpr (ESym f :: args))).
    rewrite run_expr by exact Hz. rewrite (K (Datatypes.S (Datatypes.S (n + n1)))) by lia. cbn [obind].
    rewrite run_expr by exact Q. rewrite (F (Datatypes.S (n + n1))) by lia. cbn [obind]. apply run_stop. reflexivity.
Qed.
Print Assumptions C90_call_undefined.

(* Return in a body: the evaluation of the body goes on until the body as a
   whole has become Return[w]; the call then gives w - as it stands, it is not
   evaluated any more. *)
Inductive first_return (c : cfg) : estate -> ex -> ex -> estate -> Prop :=
| FR_value es w t : first_return c es (fn "Return" (w :: t)) w es
| FR_null es : first_return c es (fn "Return" []) sNull es
| FR_step es e e1 es1 w es2 : ~ headed e (sysname "Return") -> steps c es e e1 es1 -> no_clash e e1 ->
    first_return c es1 e1 w es2 -> first_return c es e w es2.
Lemma return_run c es e w es1 : cfg_mono c -> first_return c es e w es1 -> forall last, hash e <> last ->
  exists n, forall m, n <= m -> run c m (Some (last, true)) es e = Ret (w, es1).
Proof.
  intro Hc. induction 1 as [es w t|es|es e e1 es1 w es2 Nr [parts [b [n [-> K]]]] [Nz Nc] _ IH]; intros last Hl.
  - exists 1. intros [|m] Hm; [lia|]. cbn [run]. rewrite (proj2 (N.eqb_neq _ _) Hl). reflexivity.
  - exists 1. intros [|m] Hm; [lia|]. cbn [run]. rewrite (proj2 (N.eqb_neq _ _) Hl). reflexivity.
  - destruct (IH (hash (EExpr parts)) Nc) as [n1 K1]. exists (S (n + n1)). intros [|m] Hm; [lia|]. cbn [run].
    rewrite (proj2 (N.eqb_neq _ _) Hl). rewrite (no_return_value _ Nr), K by lia. cbn [obind orb]. apply K1. lia.
Qed.
Theorem C90_return : forall c es f names args args' es1 rules r es2 w es3, cfg_mono c ->
  user_fn es f names -> evals_args c (holds names) 1 es args args' es1 -> Forall ordinary_arg args' ->
  defined_by es1 f rules -> selects c (EExpr (ESym f :: args')) es1 rules (Some r) es2 ->
  hash_ok (EExpr (ESym f :: args)) -> no_clash (EExpr (ESym f :: args)) r ->
  first_return c es2 r w es3 ->
  evals_to c es (EExpr (ESym f :: args)) w es3.
Proof.
  intros c es f names args args' es1 rules r es2 w es3 Hc U E O D S Hz [Nz Nc] FR.
  destruct (user_pass c es f names args args' es1 rules (Some r) es2 Hc U E O D S) as [n1 K1].
  destruct (return_run c _ _ _ _ Hc FR _ Nc) as [n2 K2].
  exists (Datatypes.S (Datatypes.S (n1 + n2))). unfold eval.
  change (run c (Datatypes.S (Datatypes.S (n1 + n2))) None es (EExpr (ESym f :: args))) with (run c (Datatypes.S (n1 + n2)) (Some (0%N, false)) es (EExpr (ESym f :: args))).
  rewrite run_expr by exact Hz. rewrite K1 by lia. cbn [obind]. apply K2. lia.
Qed.
Print Assumptions C90_return.

(* ---- examples ---- *)
Definition after (es : estate) (e : ex) : estate := match eval c0 60 es e with Ret (_, es') => es' | _ => es end.
(* ret[x_] := Return[x + 1] *)
Definition es_ret : estate := after es0 (fn "SetDelayed" [uf "ret" [var "Global`x"]; fn "Return" [fn "Plus" [gl "x"; EInt 1]]]).
(* the value of a call is not always fully evaluated: ret[2] gives 2 + 1 *)
Theorem C90_return_unevaluated_refuted :
  evals_to c0 es_ret (uf "ret" [EInt 2]) (fn "Plus" [EInt 2; EInt 1]) es_ret /\
  evals_to c0 es_ret (fn "Plus" [EInt 2; EInt 1]) (EInt 3) es_ret.
Proof. split; exists 60; vm_compute; reflexivity. Qed.
Print Assumptions C90_return_unevaluated_refuted.

(* fact[0] := 1; fact[n_] := n fact[n - 1] *)
Definition fact_body : ex := fn "Times" [gl "n"; uf "fact" [fn "Plus" [gl "n"; EInt (-1)]]].
Definition es_fact : estate :=
  after (after es0 (fn "SetDelayed" [uf "fact" [EInt 0]; EInt 1])) (fn "SetDelayed" [uf "fact" [var "Global`n"]; fact_body]).
Definition fact_rules : list dval :=
  [DVal (held (uf "fact" [EInt 0])) (EInt 1) 0; DVal (held (uf "fact" [var "Global`n"])) fact_body 0].
(* the body for the argument k *)
Definition fact_at (k : Z) : ex := fn "Times" [EInt k; uf "fact" [fn "Plus" [EInt k; EInt (-1)]]].
Definition fact_result (k : nat) : ex := match k with O => EInt 1 | S _ => fact_at (Z.of_nat k) end.
(* no accident of the 64 bit hashes on the way *)
Definition fact_quiet (n : nat) : Prop := forall k : nat, k < n -> let z := Z.of_nat (S k) in
  hash (EInt z) <> hash (EInt 0) /\ hash_ok (fact_at z) /\
  quiet "Plus" z (-1) (Z.of_nat k) /\ quiet "Times" z (Z.of_nat (fact k)) (Z.of_nat (fact (S k))) /\
  hash_ok (uf "fact" [fn "Plus" [EInt z; EInt (-1)]]) /\ no_clash (uf "fact" [fn "Plus" [EInt z; EInt (-1)]]) (fact_result k).

Lemma pass_steps c es l x b es1 : (exists n, forall m, n <= m -> pass c m (run c m None) es l = Ret (inr (x, b), es1)) ->
  forall e' es', steps c es (EExpr l) e' es' -> e' = x /\ es' = es1.
Proof.
  intros [n K] e' es' [parts [b' [n' [E K']]]]. injection E as <-.
  pose proof (K (n + n') ltac:(lia)) as A. rewrite (K' (n + n') ltac:(lia)) in A. injection A as -> _ ->. split; reflexivity.
Qed.
Lemma int_reaches c es z e' es' : reaches c es (EInt z) e' es' -> e' = EInt z.
Proof. intro H. inversion H; subst; [reflexivity|]. match goal with K : steps _ _ _ _ _ |- _ => destruct K as [p [b [n [E _]]]]; discriminate E end. Qed.

Lemma fits_one g p h e bs : ~ In g pattern_heads -> fits (EExpr [ESym g; p]) (EExpr [h; e]) bs -> exists bs', fits p e bs'.
Proof.
  intros N H. inversion H as [x Q1|g' x K Q1|x y Q1|x g' y K Q1|a x K1 K2 K3 Q1|g' ps x K1 K2 K3 K4 Q1|g' ps h' es' bs' K1 K2 K3 K4 Q1|g' ps n d bs' K1 K2 Q1|g' ps r i bs' K1 K2 Q1];
    subst.
  - exfalso. apply N. left. reflexivity.
  - cbn [is_expr] in K1. congruence.
  - cbn [is_expr] in K2. congruence.
  - inversion K4; subst. eexists. eassumption.
Qed.
Lemma fits_int a b bs : fits (EInt a) (EInt b) bs -> hash (EInt b) = hash (EInt a).
Proof. intro H. inversion H; subst. apply N.eqb_eq. assumption. Qed.

(* The value of a recursive definition: after fact[0] := 1 and
   fact[n_] := n fact[n - 1], the call fact[n] gives n! for every n >= 0 *)
Theorem C90_factorial_partial : forall c es n, cfg_mono c -> user_fn es "Global`fact" [] -> defined_by es "Global`fact" fact_rules ->
  arith_ready es -> fact_quiet n -> hash_ok (uf "fact" [EInt (Z.of_nat n)]) -> no_clash (uf "fact" [EInt (Z.of_nat n)]) (fact_result n) ->
  evals_to c es (uf "fact" [EInt (Z.of_nat n)]) (EInt (Z.of_nat (fact n))) es.
Proof.
  intros c es n Hc U D [RP RT].
  assert (Hsimp : forall a, simple (env_of c es) a = true -> simple (env_of c es) (uf "fact" [a]) = true).
  { intros a Ha. change (uf "fact" [a]) with (EExpr [ESym "Global`fact"; a]). cbn [simple forallb]. rewrite Ha.
    destruct U as [A _].
    assert (F1 : me_flat (env_of c es) "Global`fact" = false) by (unfold env_of; cbn [me_flat]; rewrite A; reflexivity).
    assert (F2 : me_orderless (env_of c es) "Global`fact" = false) by (unfold env_of; cbn [me_orderless]; rewrite A; reflexivity).
    rewrite F1, F2. destruct a; reflexivity. }
  enough (G : forall n a, fact_quiet n -> evals_to c es a (EInt (Z.of_nat n)) es -> hash_ok (uf "fact" [a]) ->
     no_clash (uf "fact" [a]) (fact_result n) -> evals_to c es (uf "fact" [a]) (EInt (Z.of_nat (fact n))) es).
  { intros Q Hz Nc. apply G; auto. exists 1. reflexivity. }
  clear n. induction n as [|n IH]; intros a Q Ea Hz Nc.
  - apply (C90_call c es "Global`fact" [] [a] [EInt 0] es fact_rules (EInt 1) es (EInt 1) es Hc U); auto.
    + apply EA_eval with es; [unfold holds; cbn; tauto|exact Ea|apply U|apply EA_nil].
    + constructor; [apply ord_int|constructor].
    + eapply SEL_hit with (bs := []).
      * split; [apply Hsimp; reflexivity|]. cbn. constructor.
      * apply F_node; [cbn; intuition discriminate|reflexivity|apply N.eqb_refl|].
        apply (FL_cons (EInt 0) (EInt 0) [] [] [] []); [|constructor]. apply F_atom; [reflexivity|reflexivity|apply N.eqb_refl].
      * apply S_other; reflexivity.
      * apply G_plain; intros [l E]; discriminate E.
    + intros e' es' R. rewrite (int_reaches _ _ _ _ _ R). intros [l E]; discriminate E.
    + exists 1. reflexivity.
  - destruct (Q n (Nat.lt_succ_diag_r n)) as (H1 & H2 & QP & QT & H3 & H4). set (z := Z.of_nat (S n)) in *.
    assert (P : exists n0, forall m, n0 <= m -> pass c m (run c m None) es [sys "Times"; EInt z; uf "fact" [fn "Plus" [EInt z; EInt (-1)]]]
        = Ret (inr (EInt (Z.of_nat (fact (S n))), false), es)).
    { assert (Ei : evals_to c es (uf "fact" [fn "Plus" [EInt z; EInt (-1)]]) (EInt (Z.of_nat (fact n))) es).
      { apply IH; auto.
        - intros k Hk. apply Q. lia.
        - exists 4. unfold eval. replace (Z.of_nat n) with (z + -1)%Z by (unfold z; lia). apply (run_plus c 0); [exact RP|].
          replace (z + -1)%Z with (Z.of_nat n) by (unfold z; lia). exact QP. }
      destruct (evals_large c _ _ _ _ Hc Ei) as [n1 K1]. exists (S n1). intros [|m] Hm; [lia|].
      destruct QT as (_ & T1 & T2).
      assert (Fz : (z * Z.of_nat (fact n) = Z.of_nat (fact (S n)))%Z) by (unfold z; rewrite <- Nat2Z.inj_mul; reflexivity).
      apply (num_pass c m es "Times" times_eval _ z (Z.of_nat (fact n)) _ RT (table_times c)).
      - reflexivity.
      - cbn [eval_parts]. destruct num_attr_vals as (_ & _ & _ & _ & _ & _ & A7). rewrite !A7.
        change (run c (S m) None es (EInt z)) with (Ret (EInt z, es) : outcome (ex * estate)). cbn [obind].
        destruct RT as (_ & _ & Th). rewrite Th. rewrite K1 by lia. cbn [obind]. rewrite Th. reflexivity.
      - rewrite times_ints, Fz. reflexivity.
      - rewrite times_ints, Z.mul_comm, Fz. reflexivity.
      - exact T1.
      - exact T2. }
    apply (C90_call c es "Global`fact" [] [a] [EInt z] es fact_rules (fact_at z) es _ es Hc U); auto.
    + apply EA_eval with es; [unfold holds; cbn; tauto|exact Ea|apply U|apply EA_nil].
    + constructor; [apply ord_int|constructor].
    + apply SEL_skip.
      * split; [apply Hsimp; reflexivity|]. cbn. constructor.
      * intros bs F. destruct (fits_one "Global`fact" _ _ _ _ ltac:(cbn; intuition discriminate) F) as [bs1 F1]. exact (H1 (fits_int _ _ _ F1)).
      * eapply SEL_hit with (bs := [("Global`n"%string, EInt z)]).
        -- split; [apply Hsimp; reflexivity|]. cbn. constructor; [intros []|constructor].
        -- apply F_node; [cbn; intuition discriminate|reflexivity|apply N.eqb_refl|].
           apply (FL_cons (var "Global`n") (EInt z) [("Global`n"%string, EInt z)] [] [] []); [apply F_var|constructor].
        -- apply (proj1 (C26_replace_is_substitution _ _ _)). reflexivity.
        -- apply G_plain; intros [l E]; discriminate E.
    + intros e' es' R. inversion R; subst; [intros [l E]; discriminate E|].
      match goal with K : steps _ _ _ _ _ |- _ => destruct (pass_steps _ _ _ _ _ _ P _ _ K); subst end.
      match goal with K : reaches _ _ (EInt _) _ _ |- _ => rewrite (int_reaches _ _ _ _ _ K) end. intros [l E]; discriminate E.
    + destruct P as [n0 K0]. exists (4 + n0). unfold eval. apply (run_to_int c n0 es _ _ false); [exact H2|]. apply K0. lia.
Qed.
Print Assumptions C90_factorial_partial.

(* ---- the hypotheses are met ---- *)
Example C90_factorial_ex : evals_to c0 es_fact (uf "fact" [EInt 5]) (EInt 120) es_fact.
Proof.
  apply (C90_factorial_partial c0 es_fact 5 c0_mono).
  - split; [vm_compute; reflexivity|split; [vm_compute; reflexivity|split; [vm_compute; reflexivity|]]]. intros a _ [].
  - vm_compute. split; reflexivity.
  - split; (split; [eexists; split; [vm_compute; reflexivity|split; reflexivity]|split; vm_compute; reflexivity]).
  - intros k Hk. do 5 (destruct k as [|k]; [cbv zeta; repeat split; hok|]). lia.
  - hok.
  - split; hok.
Qed.

(* f[{x_, 7}, y_Integer] on f[{a, 7}, 3] and on f[{a, 8}, 3] *)
Definition ex_pat : ex := uf "f" [fn "List" [var "Global`x"; EInt 7]; var_of "Global`y" (sysname "Integer")].
Example C90_simple_patterns_ex : simple env0 ex_pat = true /\ NoDup (pattern_names ex_pat) /\
  fits ex_pat (uf "f" [fn "List" [gl "a"; EInt 7]; EInt 3]) [("Global`x", gl "a"); ("Global`y", EInt 3)]%string /\
  (forall bs, ~ fits ex_pat (uf "f" [fn "List" [gl "a"; EInt 8]; EInt 3]) bs).
Proof.
  assert (S : simple env0 ex_pat = true) by (vm_compute; reflexivity).
  assert (N : NoDup (pattern_names ex_pat)) by (cbn; repeat constructor; cbn; intuition discriminate).
  split; [exact S|]. split; [exact N|]. destruct (C90_simple_patterns env0 ex_pat (uf "f" [fn "List" [gl "a"; EInt 7]; EInt 3]) S N) as [K _].
  split; [apply (proj2 (K _)); vm_compute; reflexivity|].
  apply (proj2 (proj2 (C90_simple_patterns env0 ex_pat _ S N))). vm_compute. reflexivity.
Qed.
(* sgn[x_] := a /; x == 2; sgn[x_] := {x, b}: the call sgn[1 + 2] skips the
   first definition because its condition fails; sgn[1, 2] fits none *)
Definition sgn_l : ex := uf "sgn" [var "Global`x"].
Definition sgn_1 : ex := EExpr [ESym nCondition; gl "a"; fn "Equal" [gl "x"; EInt 2]].
Definition sgn_2 : ex := fn "List" [gl "x"; gl "b"].
Definition sgn_rules : list dval := [DVal (held sgn_l) sgn_1 0; DVal (held sgn_l) sgn_2 0].
Definition es_sgn : estate := after (after es0 (fn "SetDelayed" [sgn_l; sgn_1])) (fn "SetDelayed" [sgn_l; sgn_2]).
Lemma sgn_fn : user_fn es_sgn "Global`sgn" [].
Proof. split; [vm_compute; reflexivity|split; [vm_compute; reflexivity|split; [vm_compute; reflexivity|]]]. intros a _ []. Qed.
Lemma sgn_usable : usable_rule c0 es_sgn sgn_l.
Proof. split; [vm_compute; reflexivity|]. cbn. repeat constructor; cbn; intuition discriminate. Qed.
Lemma sgn_def : defined_by es_sgn "Global`sgn" sgn_rules.
Proof. vm_compute. split; reflexivity. Qed.
Lemma sgn_fits e bs : fst (match_iter (env_of c0 es_sgn) e sgn_l []) = [bs] -> fits sgn_l e bs.
Proof. intro H. apply (proj2 (proj1 (C90_simple_patterns (env_of c0 es_sgn) sgn_l e (proj1 sgn_usable) (proj2 sgn_usable)) bs) H). Qed.
Lemma sgn_misfits e : fst (match_iter (env_of c0 es_sgn) e sgn_l []) = [] -> forall bs, ~ fits sgn_l e bs.
Proof. intro H. apply (proj2 (proj2 (C90_simple_patterns (env_of c0 es_sgn) sgn_l e (proj1 sgn_usable) (proj2 sgn_usable))) H). Qed.
Example C90_call_ex : evals_to c0 es_sgn (uf "sgn" [fn "Plus" [EInt 1; EInt 2]]) (fn "List" [EInt 3; gl "b"]) es_sgn.
Proof.
  assert (P : exists n, forall m, n <= m -> pass c0 m (run c0 m None) es_sgn [sys "List"; EInt 3; gl "b"] = Ret (inr (fn "List" [EInt 3; gl "b"], false), es_sgn)).
  { exists 20. apply (pass_large c0 20 es_sgn); [exact c0_mono|]. vm_compute. reflexivity. }
  apply (C90_call c0 es_sgn "Global`sgn" [] [fn "Plus" [EInt 1; EInt 2]] [EInt 3] es_sgn sgn_rules (fn "List" [EInt 3; gl "b"]) es_sgn _ es_sgn c0_mono sgn_fn).
  - apply EA_eval with es_sgn; [unfold holds; cbn; tauto|exists 20; vm_compute; reflexivity|vm_compute; reflexivity|apply EA_nil].
  - constructor; [apply ord_int|constructor].
  - exact sgn_def.
  - eapply SEL_fail with (bs := [("Global`x"%string, EInt 3)]).
    + exact sgn_usable.
    + apply sgn_fits. vm_compute. reflexivity.
    + apply (proj1 (C26_replace_is_substitution _ _ _)). reflexivity.
    + apply G_false with sFalse; [exists 20; vm_compute; reflexivity|intro K; discriminate K].
    + eapply SEL_hit with (bs := [("Global`x"%string, EInt 3)]).
      * exact sgn_usable.
      * apply sgn_fits. vm_compute. reflexivity.
      * apply (proj1 (C26_replace_is_substitution _ _ _)). reflexivity.
      * apply G_plain; not_headed.
  - hok.
  - split; hok.
  - intros e' es' R. remember es_sgn as est eqn:Ee in R. remember (fn "List" [EInt 3; gl "b"]) as e eqn:E in R.
    induction R as [es e|es e e1 es1 e2 es2 K R IH]; subst.
    + not_headed.
    + destruct (pass_steps _ _ _ _ _ _ P _ _ K) as [-> ->]. apply IH; reflexivity.
  - exists 20. vm_compute. reflexivity.
Qed.
Example C90_call_undefined_ex :
  evals_to c0 es_sgn (uf "sgn" [fn "Plus" [EInt 1; EInt 2]; EInt 4]) (uf "sgn" [EInt 3; EInt 4]) es_sgn.
Proof.
  apply (C90_call_undefined c0 es_sgn "Global`sgn" [] [fn "Plus" [EInt 1; EInt 2]; EInt 4] [EInt 3; EInt 4] es_sgn sgn_rules c0_mono sgn_fn sgn_fn).
  - do 2 (apply EA_eval with es_sgn; [unfold holds; cbn; tauto|exists 20; vm_compute; reflexivity|vm_compute; reflexivity|]). apply EA_nil.
  - do 2 (apply EA_eval with es_sgn; [unfold holds; cbn; tauto|exists 20; vm_compute; reflexivity|vm_compute; reflexivity|]). apply EA_nil.
  - repeat (constructor; [apply ord_int|]). constructor.
  - exact sgn_def.
  - apply SEL_skip; [exact sgn_usable|apply sgn_misfits; vm_compute; reflexivity|].
    apply SEL_skip; [exact sgn_usable|apply sgn_misfits; vm_compute; reflexivity|]. apply SEL_none.
  - hok.
Qed.
Definition ret_l : ex := uf "ret" [var "Global`x"].
Example C90_return_ex : evals_to c0 es_ret (uf "ret" [EInt 2]) (fn "Plus" [EInt 2; EInt 1]) es_ret.
Proof.
  assert (U : usable_rule c0 es_ret ret_l) by (split; [vm_compute; reflexivity|cbn; repeat constructor; cbn; intuition discriminate]).
  apply (C90_return c0 es_ret "Global`ret" [] [EInt 2] [EInt 2] es_ret [DVal (held ret_l) (fn "Return" [fn "Plus" [gl "x"; EInt 1]]) 0]
    (fn "Return" [fn "Plus" [EInt 2; EInt 1]]) es_ret _ es_ret c0_mono).
  - split; [vm_compute; reflexivity|split; [vm_compute; reflexivity|split; [vm_compute; reflexivity|]]]. intros a _ [].
  - apply EA_eval with es_ret; [unfold holds; cbn; tauto|exists 20; vm_compute; reflexivity|vm_compute; reflexivity|apply EA_nil].
  - constructor; [apply ord_int|constructor].
  - vm_compute. split; reflexivity.
  - eapply SEL_hit with (bs := [("Global`x"%string, EInt 2)]).
    + exact U.
    + apply (proj2 (proj1 (C90_simple_patterns _ ret_l _ (proj1 U) (proj2 U)) _)). vm_compute. reflexivity.
    + apply (proj1 (C26_replace_is_substitution _ _ _)). reflexivity.
    + apply G_plain; not_headed.
  - hok.
  - split; hok.
  - apply FR_value.
Qed.
