From Verif Require Import M_Syntax M_Float M_Hash M_Order M_Num M_Arith S_Num S_Arith P_Num P_Arith.
From Coq Require Import QArith Qfield Permutation.
Open Scope Z_scope.

(* leading run of numbers *)
Fixpoint nums (l : list ex) : list ex :=
  match l with x :: t => if numberQ x then x :: nums t else [] | [] => [] end.
Fixpoint after_nums (l : list ex) : list ex :=
  match l with x :: t => if numberQ x then after_nums t else l | [] => [] end.

Lemma nums_split l : l = nums l ++ after_nums l.
Proof. induction l as [|x t IH]; [reflexivity|]. cbn. destruct (numberQ x); [cbn; f_equal; exact IH|reflexivity]. Qed.

Lemma exact_arg_num e : exact_arg e = true -> numberQ e = true -> exact_real e = true.
Proof.
  intros H N. unfold exact_arg in H. destruct e; try discriminate N; cbn [numberQ negb orb] in H; exact H.
Qed.

Lemma nums_exact l : (forall p, In p l -> exact_arg p = true) -> forall e, In e (nums l) -> exact_real e = true.
Proof.
  induction l as [|x t IH]; intros H e He; [destruct He|].
  cbn in He. destruct (numberQ x) eqn:N; [|destruct He]. destruct He as [<-|He].
  - apply exact_arg_num; auto. apply H; left; reflexivity.
  - apply IH; auto. intros; apply H; right; assumption.
Qed.

Lemma np_prefix fn l : forall a, aC a = None -> (forall p, In p l -> exact_arg p = true) ->
  np fn a l = (np_real fn a (nums l), after_nums l).
Proof.
  induction l as [|x t IH]; intros a Ha He; cbn [np nums after_nums].
  - unfold typed_real_part. rewrite Ha. reflexivity.
  - destruct (numberQ x) eqn:N.
    + assert (Hx : exact_real x = true) by (apply exact_arg_num; [apply He; left; reflexivity|assumption]).
      assert (E : acc_num fn a x = acc_real fn a x) by (destruct x; try discriminate Hx; reflexivity).
      rewrite E. cbn [np_real]. destruct (acc_real fn a x) as [a'|] eqn:E2.
      * rewrite IH; [reflexivity| |intros; apply He; right; assumption].
        destruct x; try discriminate Hx; cbn in E2; injection E2 as <-; assumption.
      * destruct x; try discriminate Hx; discriminate E2.
    + assert (E : acc_num fn a x = None) by (destruct x; try discriminate N; reflexivity).
      rewrite E. unfold typed_real_part. rewrite Ha. reflexivity.
Qed.

Lemma np_cases fn l : (forall p, In p l -> exact_arg p = true) ->
  (nums l = [] /\ compute_numeric_part fn l = (None, l)) \/
  (exists n, compute_numeric_part fn l = (Some n, after_nums l) /\ exact_real n = true /\
     (qval0 n == foldq fn (nums l))%Q).
Proof.
  intro He. unfold compute_numeric_part. rewrite np_prefix by auto.
  destruct (nums l) as [|x t] eqn:E.
  - left. split; [reflexivity|]. cbn. f_equal. rewrite (nums_split l) at 2. rewrite E. reflexivity.
  - right. destruct (np_real0 fn (x :: t)) as [n [E1 [X V]]]; [discriminate|rewrite <- E; apply nums_exact; assumption|].
    exists n. rewrite E1. auto.
Qed.

Definition no_collision (args : list ex) : Prop :=
  forall p q c1 v1 c2 v2, In p args -> In q args -> split_term p = Some (c1, v1) ->
        split_term q = Some (c2, v2) -> hash v1 = hash v2 -> v1 = v2.

Lemma split_term_number e : numberQ e = true -> split_term e = None.
Proof. destruct e; try discriminate; reflexivity. Qed.
Lemma exact_numberQ e : exact_real e = true -> numberQ e = true.
Proof. destruct e; try discriminate; reflexivity. Qed.
Lemma exact_real_arg e : exact_real e = true -> exact_arg e = true.
Proof. intro H. destruct e; try discriminate H; exact H. Qed.

Lemma list_eq_nil {A} (l : list A) : l = [] \/ l <> [].
Proof. destruct l; [left; reflexivity|right; discriminate]. Qed.

Lemma plus_eval_ne args : args <> [] -> plus_eval args =
    (let '(r, rest) := compute_numeric_part FoldAdd args in
    match r, rest with
    | Some n, [] => n
    | _, _ =>
      let res := match r with
                 | Some n => match n with EInt 0 => rest | _ => n :: rest end
                 | None => args
                 end in
      let col := collect_terms res in
      let res := if N.eqb (hash (EExpr (ESym nPlus :: col))) (hash (EExpr (ESym nPlus :: res)))
                 then res else col in
      match res with [x] => x | _ => EExpr (ESym nPlus :: res) end
    end).
Proof. destruct args; [intro H; destruct (H eq_refl)|intros _; reflexivity]. Qed.

Lemma times_eval_ne args : args <> [] -> times_eval args =
    (let '(r, rest) := compute_numeric_part FoldMul args in
    match r, rest with
    | Some n, [] => n
    | Some (EInt 0), _ => if existsb is_infinity rest then sys "Indeterminate" else EInt 0
    | _, _ =>
      let res := match r with
                 | Some n => match n with EInt 1 => rest | _ => n :: rest end
                 | None => args
                 end in
      match res with
      | [x] => x
      | [EInt (-1); EExpr (ESym h :: addends)] =>
          if String.eqb h nPlus
          then EExpr (ESym nPlus :: map (fun a => EExpr [ESym nTimes; a; EInt (-1)]) addends)
          else EExpr (ESym nTimes :: res)
      | _ => EExpr (ESym nTimes :: res)
      end
    end).
Proof. destruct args; [intro H; destruct (H eq_refl)|intros _; reflexivity]. Qed.

Lemma plus_eval_value v args : (forall p, In p args -> exact_arg p = true) -> no_collision args ->
  (ev v (plus_eval args) == ev v (EExpr (ESym nPlus :: args)))%Q.
Proof.
  intros He Hh. rewrite ev_plus.
  destruct (list_eq_nil args) as [->|Hne]; [reflexivity|]. rewrite (plus_eval_ne args Hne).
  assert (Fin : forall res, (forall p, In p res -> exact_arg p = true) -> no_collision res ->
     (esum v res == esum v args)%Q ->
     (ev v (let col := collect_terms res in
        let r := if N.eqb (hash (EExpr (ESym nPlus :: col))) (hash (EExpr (ESym nPlus :: res)))
                 then res else col in
        match r with [x] => x | _ => EExpr (ESym nPlus :: r) end) == esum v args)%Q).
  { intros res Hr Hc Hs. cbv zeta.
    pose proof (collect_terms_value v res Hr Hc) as V. rewrite !ev_plus in V.
    set (r := if N.eqb (hash (EExpr (ESym nPlus :: collect_terms res))) (hash (EExpr (ESym nPlus :: res)))
              then res else collect_terms res).
    assert (Vr : (esum v r == esum v args)%Q).
    { unfold r. destruct (N.eqb _ _); [exact Hs|rewrite V; exact Hs]. }
    clearbody r. rewrite <- Vr. destruct r as [|x [|y u]]; try reflexivity.
    rewrite esum_cons, esum_nil. ring. }
  destruct (np_cases FoldAdd args He) as [[E0 E]|[n [E [X V]]]]; rewrite E.
  - apply (Fin args); auto. reflexivity.
  - pose proof (nums_split args) as Sp.
    assert (Vn : (qval0 n == esum v (nums args))%Q).
    { rewrite V, foldq_sum. symmetry. apply esum_foldq. apply nums_exact; assumption. }
    assert (Vs : (esum v args == qval0 n + esum v (after_nums args))%Q).
    { rewrite Sp at 1. rewrite esum_app, Vn. reflexivity. }
    assert (Ir : forall p, In p (after_nums args) -> In p args).
    { intros p Hp. rewrite Sp. apply in_or_app. right; assumption. }
    destruct (after_nums args) as [|y u] eqn:Ea.
    + rewrite (ev_num v n X), Vs, esum_nil. ring.
    + rewrite <- Ea in *. clear Ea y u.
      assert (Nc : no_collision (after_nums args)).
      { intros p q c1 v1 c2 v2 Hp Hq. apply (Hh p q); apply Ir; assumption. }
      assert (Nc' : no_collision (n :: after_nums args)).
      { intros p q c1 v1 c2 v2 [<-|Hp] [<-|Hq] S1 S2;
          rewrite ?(split_term_number n (exact_numberQ n X)) in *; try discriminate.
        apply (Hh p q c1 v1 c2 v2); auto. }
      assert (G : (ev v (let col := collect_terms (n :: after_nums args) in
        let r := if N.eqb (hash (EExpr (ESym nPlus :: col))) (hash (EExpr (ESym nPlus :: n :: after_nums args)))
                 then n :: after_nums args else col in
        match r with [x] => x | _ => EExpr (ESym nPlus :: r) end) == esum v args)%Q).
      { apply Fin; auto.
        - intros p [<-|Hp]; [apply exact_real_arg; assumption|auto].
        - rewrite esum_cons, (ev_num v n X), Vs. reflexivity. }
      assert (G0 : n = EInt 0 -> (ev v (let col := collect_terms (after_nums args) in
        let r := if N.eqb (hash (EExpr (ESym nPlus :: col))) (hash (EExpr (ESym nPlus :: after_nums args)))
                 then after_nums args else col in
        match r with [x] => x | _ => EExpr (ESym nPlus :: r) end) == esum v args)%Q).
      { intros ->. apply Fin; auto. rewrite Vs. change (qval0 (EInt 0)) with 0%Q. ring. }
      destruct n as [| |z|p q| | |]; try discriminate X; [|exact G].
      destruct z; [apply G0; reflexivity|exact G|exact G].
Qed.

Lemma map_neg_sum v l : (esum v (map (fun a => EExpr [ESym nTimes; a; EInt (-1)]) l) == - esum v l)%Q.
Proof.
  induction l as [|x t IH]; cbn [map]; rewrite ?esum_cons, ?esum_nil; [ring|].
  rewrite IH, (ev_times v [x; EInt (-1)]), !eprod_cons, eprod_nil.
  change (ev v (EInt (-1))) with (-1)%Q. ring.
Qed.

Lemma eprod_app v l l' : (eprod v (l ++ l') == eprod v l * eprod v l')%Q.
Proof. induction l as [|x t IH]; cbn [app]; rewrite ?eprod_cons, ?eprod_nil; [ring|]. rewrite IH. ring. Qed.

Lemma times_shape v res :
  (ev v (match res with
      | [x] => x
      | [EInt (-1); EExpr (ESym h :: addends)] =>
          if String.eqb h nPlus
          then EExpr (ESym nPlus :: map (fun a => EExpr [ESym nTimes; a; EInt (-1)]) addends)
          else EExpr (ESym nTimes :: res)
      | _ => EExpr (ESym nTimes :: res)
      end) == eprod v res)%Q.
Proof.
  assert (D : (ev v (EExpr (ESym nTimes :: res)) == eprod v res)%Q) by (rewrite ev_times; reflexivity).
  destruct res as [|x [|y [|w u]]].
  - exact D.
  - rewrite eprod_cons, eprod_nil, Qmult_1_r. clear D.
    destruct x as [| |z| | | |]; try reflexivity. destruct z as [| |[]]; reflexivity.
  - destruct x as [| |z| | | |]; try exact D. destruct z as [| |[]]; try exact D.
    destruct y as [| | | | | |l]; try exact D. destruct l as [|[h| | | | | |] addends]; try exact D.
    destruct (String.eqb_spec h nPlus) as [->|]; [|exact D].
    rewrite ev_plus, map_neg_sum, !eprod_cons, eprod_nil, ev_plus.
    change (ev v (EInt (-1))) with (-1)%Q. ring.
  - destruct x as [| |z| | | |]; try exact D. destruct z as [| |[]]; try exact D.
    destruct y as [| | | | | |l]; try exact D. destruct l as [|[h| | | | | |] addends]; exact D.
Qed.

Lemma times_eval_value v args : (forall p, In p args -> exact_arg p = true) ->
  (forall p, In p args -> is_infinity p = false) ->
  (ev v (times_eval args) == ev v (EExpr (ESym nTimes :: args)))%Q.
Proof.
  intros He Hi. rewrite ev_times.
  destruct (list_eq_nil args) as [->|Hne]; [reflexivity|]. rewrite (times_eval_ne args Hne).
  destruct (np_cases FoldMul args He) as [[E0 E]|[n [E [X V]]]]; rewrite E.
  - apply times_shape.
  - pose proof (nums_split args) as Sp.
    assert (Vn : (qval0 n == eprod v (nums args))%Q).
    { rewrite V, foldq_prod. symmetry. apply eprod_foldq. apply nums_exact; assumption. }
    assert (Vs : (eprod v args == qval0 n * eprod v (after_nums args))%Q).
    { rewrite Sp at 1. rewrite eprod_app, Vn. reflexivity. }
    assert (Ni : existsb is_infinity (after_nums args) = false).
    { apply not_true_is_false. intro H. apply existsb_exists in H. destruct H as [p [Hp Hq]].
      rewrite Hi in Hq; [discriminate|]. rewrite Sp. apply in_or_app. right; assumption. }
    assert (Gn : (ev v (EExpr (ESym nTimes :: n :: after_nums args)) == eprod v args)%Q).
    { rewrite ev_times, eprod_cons, (ev_num v n X), Vs. reflexivity. }
    assert (Gm : forall k, n = EInt k -> (eprod v (EInt k :: after_nums args) == eprod v args)%Q).
    { intros k ->. rewrite eprod_cons, Vs. reflexivity. }
    assert (G1 : n = EInt 1 -> (eprod v (after_nums args) == eprod v args)%Q).
    { intros ->. rewrite Vs. change (qval0 (EInt 1)) with 1%Q. ring. }
    assert (G0 : n = EInt 0 -> (0 == eprod v args)%Q).
    { intros ->. rewrite Vs. change (qval0 (EInt 0)) with 0%Q. ring. }
    destruct (after_nums args) as [|y u] eqn:Ea.
    { assert ((ev v n == eprod v args)%Q) by (rewrite (ev_num v n X), Vs, eprod_nil; ring).
      destruct n as [| |z| | | |]; try discriminate X; try assumption. destruct z as [|[]|]; assumption. }
    rewrite <- Ea in *.
    assert (G : (ev v (match n :: after_nums args with
      | [x] => x
      | [EInt (-1); EExpr (ESym h :: addends)] =>
          if String.eqb h nPlus
          then EExpr (ESym nPlus :: map (fun a => EExpr [ESym nTimes; a; EInt (-1)]) addends)
          else EExpr (ESym nTimes :: n :: after_nums args)
      | _ => EExpr (ESym nTimes :: n :: after_nums args)
      end) == eprod v args)%Q).
    { transitivity (eprod v (n :: after_nums args)); [exact (times_shape v (n :: after_nums args))|]. rewrite eprod_cons, (ev_num v n X), Vs. reflexivity. }
    rewrite Ea. rewrite Ea in G, G1, Ni.
    destruct n as [| |z|p q| | |]; try discriminate X; [|exact G].
    destruct z as [|[p|p|]|p]; try exact G.
    + rewrite Ni. apply G0. reflexivity.
    + transitivity (eprod v (y :: u)); [exact (times_shape v (y :: u))|]. apply G1. reflexivity.
Qed.
