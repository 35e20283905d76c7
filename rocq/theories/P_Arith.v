From Verif Require Import M_Syntax M_Float M_Hash M_Order M_Num M_Arith S_Num S_Arith P_Num.
From Coq Require Import QArith Qfield Permutation.
Open Scope Z_scope.

Section Val.
  Variable v : ex -> Q.
  Definition esum (l : list ex) : Q := fold_right (fun x q => (ev v x + q)%Q) 0%Q l.
  Definition eprod (l : list ex) : Q := fold_right (fun x q => (ev v x * q)%Q) 1%Q l.

  Lemma esum_nil : esum [] = 0%Q. Proof. reflexivity. Qed.
  Lemma esum_cons x l : esum (x :: l) = (ev v x + esum l)%Q. Proof. reflexivity. Qed.
  Lemma eprod_nil : eprod [] = 1%Q. Proof. reflexivity. Qed.
  Lemma eprod_cons x l : eprod (x :: l) = (ev v x * eprod l)%Q. Proof. reflexivity. Qed.
  Lemma qsum_nil : qsum [] = 0%Q. Proof. reflexivity. Qed.
  Lemma qsum_cons x l : qsum (x :: l) = (qval0 x + qsum l)%Q. Proof. reflexivity. Qed.
  Lemma qprod_nil : qprod [] = 1%Q. Proof. reflexivity. Qed.
  Lemma qprod_cons x l : qprod (x :: l) = (qval0 x * qprod l)%Q. Proof. reflexivity. Qed.

  Lemma ev_plus l : ev v (EExpr (ESym nPlus :: l)) = esum l.
  Proof. reflexivity. Qed.
  Lemma ev_times l : ev v (EExpr (ESym nTimes :: l)) = eprod l.
  Proof. reflexivity. Qed.
  Lemma ev_num e : exact_real e = true -> ev v e = qval0 e.
  Proof. destruct e; try discriminate; reflexivity. Qed.

  Lemma esum_app l l' : (esum (l ++ l') == esum l + esum l')%Q.
  Proof. induction l as [|x t IH]; cbn [app]; rewrite ?esum_cons, ?esum_nil, ?eprod_cons, ?eprod_nil, ?qsum_cons, ?qsum_nil, ?qprod_cons, ?qprod_nil; [ring|]. rewrite IH. ring. Qed.

  Lemma esum_foldq l : (forall e, In e l -> exact_real e = true) -> (esum l == qsum l)%Q.
  Proof.
    induction l as [|x t IH]; intro H; [reflexivity|]. rewrite ?esum_cons, ?esum_nil, ?eprod_cons, ?eprod_nil, ?qsum_cons, ?qsum_nil, ?qprod_cons, ?qprod_nil. rewrite IH by (intros; apply H; right; assumption).
    rewrite (ev_num x) by (apply H; left; reflexivity). reflexivity.
  Qed.
  Lemma eprod_foldq l : (forall e, In e l -> exact_real e = true) -> (eprod l == qprod l)%Q.
  Proof.
    induction l as [|x t IH]; intro H; [reflexivity|]. rewrite ?esum_cons, ?esum_nil, ?eprod_cons, ?eprod_nil, ?qsum_cons, ?qsum_nil, ?qprod_cons, ?qprod_nil. rewrite IH by (intros; apply H; right; assumption).
    rewrite (ev_num x) by (apply H; left; reflexivity). reflexivity.
  Qed.

  Lemma is_times_shape l : is_times l = true -> exists t, l = ESym nTimes :: t.
  Proof.
    unfold is_times, has_head, head_assertion. destruct l as [|[s| | | | | |] t]; try discriminate.
    destruct (String.eqb_spec s nTimes) as [->|]; [|discriminate]. intros _. exists t. reflexivity.
  Qed.

  (* splitting a term: value = coefficient * value of the variable part *)
  Lemma split_term_val e c vars : exact_arg e = true -> split_term e = Some (c, vars) ->
    exact_real c = true /\ (ev v e == qval0 c * ev v vars)%Q.
  Proof.
    intros Hx. destruct e as [s| | | | | |l]; try discriminate.
    - cbn [split_term]. intro H. injection H as <- <-. split; [reflexivity|].
      rewrite ev_times. rewrite ?esum_cons, ?esum_nil, ?eprod_cons, ?eprod_nil, ?qsum_cons, ?qsum_nil, ?qprod_cons, ?qprod_nil. change (qval0 (EInt 1)) with 1%Q. ring.
    - cbn [split_term]. destruct (is_times l) eqn:T.
      + destruct (is_times_shape l T) as [t ->]. destruct t as [|x rest]; [discriminate|].
        destruct (numberQ x) eqn:N.
        * cbn in Hx. rewrite N in Hx. cbn in Hx.
          destruct rest as [|y r'].
          -- intro H. injection H as <- <-. split; [reflexivity|].
             rewrite (ev_times [EExpr [ESym nTimes; x]]). rewrite ?esum_cons, ?esum_nil, ?eprod_cons, ?eprod_nil, ?qsum_cons, ?qsum_nil, ?qprod_cons, ?qprod_nil. change (qval0 (EInt 1)) with 1%Q. ring.
          -- intro H. injection H as <- <-. split; [exact Hx|].
             rewrite !ev_times. rewrite ?esum_cons, ?esum_nil, ?eprod_cons, ?eprod_nil, ?qsum_cons, ?qsum_nil, ?qprod_cons, ?qprod_nil. rewrite (ev_num x Hx). reflexivity.
        * intro H. injection H as <- <-. split; [reflexivity|].
          change (qval0 (EInt 1)) with 1%Q. ring.
      + intro H. injection H as <- <-. split; [reflexivity|].
        rewrite (ev_times [_]). rewrite ?esum_cons, ?esum_nil, ?eprod_cons, ?eprod_nil, ?qsum_cons, ?qsum_nil, ?qprod_cons, ?qprod_nil. change (qval0 (EInt 1)) with 1%Q. ring.
  Qed.

  Lemma split_term_vars e c vars : split_term e = Some (c, vars) -> exists t, vars = EExpr (ESym nTimes :: t).
  Proof.
    destruct e as [s| | | | | |l]; try discriminate; cbn [split_term].
    - intro H; injection H as _ <-. eauto.
    - destruct (is_times l).
      + destruct l as [|h [|x rest]]; try discriminate.
        destruct (numberQ x); [destruct rest|]; intro H; injection H as _ <-; eauto.
      + intro H; injection H as _ <-. eauto.
  Qed.

  Lemma collected_val coeffs vars full t :
    vars = EExpr (ESym nTimes :: t) -> coeffs <> [] ->
    (forall c, In c coeffs -> exact_real c = true) ->
    (forall c, coeffs = [c] -> (ev v full == qval0 c * ev v vars)%Q) ->
    (ev v (collected_to_term coeffs vars full) == qsum coeffs * ev v vars)%Q.
  Proof.
    intros Hv Hne Hc Hf. destruct coeffs as [|c [|c2 cs]]; [contradiction| |].
    { cbn [collected_to_term]. rewrite (Hf c eq_refl). rewrite ?esum_cons, ?esum_nil, ?eprod_cons, ?eprod_nil, ?qsum_cons, ?qsum_nil, ?qprod_cons, ?qprod_nil. ring. }
    set (l := c :: c2 :: cs) in *.
    destruct (np_real0 FoldAdd l Hne Hc) as [n [E [X V]]].
    assert (En : compute_numeric_part FoldAdd l = (Some n, [])).
    { unfold compute_numeric_part. rewrite np_np_real by auto. rewrite E. reflexivity. }
    unfold collected_to_term. fold l. change (match l with [_] => full | _ => ?x end) with x.
    rewrite En. cbn [fst num_or_nil]. rewrite foldq_sum in V.
    set (vars' := match args_of vars nTimes with Some [x] => x | _ => vars end).
    assert (Ev : (ev v vars' == ev v vars)%Q).
    { unfold vars'. subst vars. unfold args_of, head_assertion. rewrite String.eqb_refl.
      destruct t as [|x [|y u]]; try reflexivity. rewrite ev_times. rewrite ?esum_cons, ?esum_nil, ?eprod_cons, ?eprod_nil, ?qsum_cons, ?qsum_nil, ?qprod_cons, ?qprod_nil. ring. }
    assert (G : (ev v (EExpr [ESym nTimes; n; vars']) == qsum l * ev v vars)%Q).
    { rewrite (ev_times [n; vars']). rewrite ?esum_cons, ?esum_nil, ?eprod_cons, ?eprod_nil, ?qsum_cons, ?qsum_nil, ?qprod_cons, ?qprod_nil. rewrite (ev_num n X), Ev, V. ring. }
    assert (G1 : n = EInt 1 -> (ev v vars' == qsum l * ev v vars)%Q).
    { intros ->. rewrite Ev, <- V. change (qval0 (EInt 1)) with 1%Q. ring. }
    clearbody l vars'. 
    destruct n as [| |z|a b| | |]; try discriminate X; try exact G.
    destruct z as [|[p|p|]|p]; try exact G. apply G1. reflexivity.
  Qed.

  Lemma collect_loop_val parts : forall pend out,
    (forall p, In p parts -> exact_arg p = true) ->
    (forall p q c1 v1 c2 v2, In p parts -> In q parts -> split_term p = Some (c1, v1) ->
        split_term q = Some (c2, v2) -> hash v1 = hash v2 -> v1 = v2) ->
    match pend with
    | Some (cs, vs, f) => cs <> [] /\ (exists t, vs = EExpr (ESym nTimes :: t)) /\
        (forall c, In c cs -> exact_real c = true) /\
        (forall c, cs = [c] -> (ev v f == qval0 c * ev v vs)%Q) /\
        (forall p c1 v1, In p parts -> split_term p = Some (c1, v1) -> hash v1 = hash vs -> v1 = vs)
    | None => True
    end ->
    (esum (collect_loop parts pend out) ==
     esum out + (match pend with Some (cs, vs, _) => qsum cs * ev v vs | None => 0 end) + esum parts)%Q.
  Proof.
    induction parts as [|p t IH]; intros pend out He Hh Hp.
    - cbn [collect_loop]. destruct pend as [[[cs vs] f]|].
      + destruct Hp as [H1 [[u H2] [H3 [H4 _]]]]. rewrite esum_app. rewrite ?esum_cons, ?esum_nil, ?eprod_cons, ?eprod_nil, ?qsum_cons, ?qsum_nil, ?qprod_cons, ?qprod_nil.
        rewrite (collected_val cs vs f u) by assumption. ring.
      + rewrite ?esum_cons, ?esum_nil, ?eprod_cons, ?eprod_nil, ?qsum_cons, ?qsum_nil, ?qprod_cons, ?qprod_nil. ring.
    - assert (He' : forall q, In q t -> exact_arg q = true) by (intros; apply He; right; assumption).
      assert (Hh' : forall p q c1 v1 c2 v2, In p t -> In q t -> split_term p = Some (c1, v1) ->
        split_term q = Some (c2, v2) -> hash v1 = hash v2 -> v1 = v2).
      { intros a b c1 v1 c2 v2 Ha Hb. apply (Hh a b); right; assumption. }
      cbn [collect_loop]. destruct (split_term p) as [[c vars]|] eqn:Sp.
      + destruct (split_term_val p c vars (He p (or_introl eq_refl)) Sp) as [Xc Vc].
        assert (Hnew : [c] <> [] /\ (exists t0, vars = EExpr (ESym nTimes :: t0)) /\
          (forall c0, In c0 [c] -> exact_real c0 = true) /\
          (forall c0, [c] = [c0] -> (ev v p == qval0 c0 * ev v vars)%Q) /\
          (forall p0 c1 v1, In p0 t -> split_term p0 = Some (c1, v1) -> hash v1 = hash vars -> v1 = vars)).
        { split; [discriminate|]. split; [eapply split_term_vars; eassumption|].
          split; [intros c0 [<-|[]]; assumption|]. split; [intros c0 H; injection H as <-; assumption|].
          intros q c1 v1 Hq Sq. apply (Hh q p c1 v1 c vars); [right; assumption|left; reflexivity|assumption|assumption]. }
        destruct pend as [[[cs vs] f]|].
        * destruct Hp as [H1 [[u H2] [H3 [H4 H5]]]].
          destruct (N.eqb_spec (hash vars) (hash vs)) as [E|E].
          -- assert (vars = vs) as -> by (apply (H5 p c); [left; reflexivity|assumption|assumption]).
             rewrite IH; auto.
             ++ assert (Q1 : (qsum (cs ++ [c]) == qsum cs + qval0 c)%Q).
                { clear. induction cs as [|y l IHl]; cbn [app]; rewrite ?esum_cons, ?esum_nil, ?eprod_cons, ?eprod_nil, ?qsum_cons, ?qsum_nil, ?qprod_cons, ?qprod_nil; [ring|]. rewrite IHl. ring. }
                rewrite Q1. rewrite ?esum_cons, ?esum_nil, ?eprod_cons, ?eprod_nil, ?qsum_cons, ?qsum_nil, ?qprod_cons, ?qprod_nil. rewrite Vc. ring.
             ++ split; [destruct cs; discriminate|]. split; [exists u; assumption|].
                split; [intros c0 Hc; apply in_app_or in Hc; destruct Hc as [Hc|[<-|[]]]; auto|].
                split; [intros c0 Hc; destruct cs as [|y [|z l]]; [contradiction|discriminate|discriminate]|].
                intros q c1 v1 Hq. apply H5. right; assumption.
          -- rewrite IH; auto. rewrite esum_app. rewrite ?esum_cons, ?esum_nil, ?eprod_cons, ?eprod_nil, ?qsum_cons, ?qsum_nil, ?qprod_cons, ?qprod_nil.
             rewrite (collected_val cs vs f u) by assumption. rewrite ?esum_cons, ?esum_nil, ?eprod_cons, ?eprod_nil, ?qsum_cons, ?qsum_nil, ?qprod_cons, ?qprod_nil. rewrite Vc. ring.
        * rewrite IH; auto. rewrite ?esum_cons, ?esum_nil, ?eprod_cons, ?eprod_nil, ?qsum_cons, ?qsum_nil, ?qprod_cons, ?qprod_nil. rewrite Vc. ring.
      + rewrite IH; auto.
        * rewrite esum_app. rewrite ?esum_cons, ?esum_nil, ?eprod_cons, ?eprod_nil, ?qsum_cons, ?qsum_nil, ?qprod_cons, ?qprod_nil. ring.
        * destruct pend as [[[cs vs] f]|]; [|exact I].
          destruct Hp as [H1 [H2 [H3 [H4 H5]]]]. repeat split; auto.
          intros q c1 v1 Hq. apply H5; right; assumption.
  Qed.
End Val.

Lemma collect_terms_value v args :
  (forall p, In p args -> exact_arg p = true) ->
  (forall p q c1 v1 c2 v2, In p args -> In q args -> split_term p = Some (c1, v1) ->
        split_term q = Some (c2, v2) -> hash v1 = hash v2 -> v1 = v2) ->
  (ev v (EExpr (ESym nPlus :: collect_terms args)) == ev v (EExpr (ESym nPlus :: args)))%Q.
Proof.
  intros He Hh. rewrite !ev_plus. unfold collect_terms. rewrite collect_loop_val; auto.
  rewrite ?esum_cons, ?esum_nil, ?eprod_cons, ?eprod_nil, ?qsum_cons, ?qsum_nil, ?qprod_cons, ?qprod_nil. ring.
Qed.
