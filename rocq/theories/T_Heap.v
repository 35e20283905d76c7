(* C48 stale results, and C18 the effect of Factorial on its argument. *)
From Verif Require Import M_Syntax M_Float M_Hash M_Heap S_Heap P_Heap P_Heap2.
Open Scope nat_scope.

(* While no definition changes, evaluation gives the value, and changes the
   value of no object, in particular of no definition: any acyclic object graph
   (L), any caches as long as objects marked as evaluated have evaluated parts.
   The outcome ZeroHash stands for a hash that happens to be 0. *)
Theorem C48_read : forall rk L r h a v k, ranked rk L r h -> marked L r h -> L a -> means r h a v -> rk a + 4 <= k ->
  match heval k r h a with
  | Done (a', h') => tree k h' a' = Some v /\ ranked rk L r h' /\ marked L r h' /\
                     forall b w, L b -> means r h b w -> means r h' b w
  | ZeroHash => True
  | _ => False
  end.
Proof.
  intros rk L r h a v k Rk Mk La M Hk. assert (H := heval_spec rk L r k h a (conj Rk Mk) La Hk).
  destruct (heval k r h a) as [[a' h']| | |]; cbn [eval_ok] in H; try contradiction; [|exact I].
  destruct H as (La' & Ha' & F & G & Mw). split; [|split; [apply G|split; [apply G|apply G]]].
  eapply final_tree; [apply G|lia|exact La'|exact F|]. apply Mw. now apply G.
Qed.
Print Assumptions C48_read.

(* the graph of {x, x} with x := {1, y}, y free *)
Definition rd_heap : heap :=
  Heap [OSym "System`List"; OInt 0 0%N; OSym "y"; OExpr [0; 1; 2] 0%N 0%N; OSym "x"; OExpr [0; 4; 4] 0%N 0%N] [1%Z].
Definition rd_vars : vars := [("x"%string, 3)].
Example C48_ex_read : ranked (fun a => a) (fun a => a < 6) rd_vars rd_heap /\ marked (fun a => a < 6) rd_vars rd_heap /\
  means rd_vars rd_heap 5 (EExpr [sys "List"; EExpr [sys "List"; EInt 1; ESym "y"]; EExpr [sys "List"; EInt 1; ESym "y"]]) /\
  exists h', heval 12 rd_vars rd_heap 5 = Done (5, h') /\ hget h' 3 <> hget rd_heap 3.
Proof.
  split; [|split; [|split]].
  - intros a La. assert (C : a = 0 \/ a = 1 \/ a = 2 \/ a = 3 \/ a = 4 \/ a = 5) by lia.
    destruct C as [->|[->|[->|[->|[->| ->]]]]]; cbn.
    + split; [intros [E|E]; discriminate|discriminate].
    + lia.
    + split; [intros [E|E]; discriminate|discriminate].
    + intros p [<-|[<-|[<-|[]]]]; lia.
    + split; [intros [E|E]; discriminate|]. intros d E. injection E as <-. lia.
    + intros p [<-|[<-|[<-|[]]]]; lia.
  - intros a ps e c La E He. assert (C : a = 0 \/ a = 1 \/ a = 2 \/ a = 3 \/ a = 4 \/ a = 5) by lia.
    destruct C as [->|[->|[->|[->|[->| ->]]]]]; cbn in E; try discriminate; injection E as <- <- <-; congruence.
  - assert (M3 : means rd_vars rd_heap 3 (EExpr [sys "List"; EInt 1; ESym "y"])).
    { eapply me_expr; [reflexivity|]. apply Forall2_cons; [now apply me_free|]. apply Forall2_cons; [apply (me_int rd_vars rd_heap 1 0 0%N); reflexivity|].
      apply Forall2_cons; [now apply me_free|apply Forall2_nil]. }
    assert (M4 : means rd_vars rd_heap 4 (EExpr [sys "List"; EInt 1; ESym "y"])) by (eapply me_var; [reflexivity|reflexivity|exact M3]).
    eapply me_expr; [reflexivity|]. apply Forall2_cons; [now apply me_free|]. apply Forall2_cons; [exact M4|]. apply Forall2_cons; [exact M4|apply Forall2_nil].
  - eexists. split; [vm_compute; reflexivity|]. vm_compute. discriminate.
Qed.

(* Sessions of x = e and e in which variables are assigned before they are
   used show what they should, and afterwards every variable holds its value.
   Missing: x := e and a first assignment after a use, refuted below. *)
Theorem C48_session_partial : forall l os s',
  assigned_before_use (fun _ => False) (fun _ => None) l -> shows (fun _ => None) l os s' ->
  exists k0, forall k, k0 <= k ->
    match exec_all k start l with
    | Done (os', s1) => os' = map Some os /\
        forall n, match vget (s_vars s1) n, s' n with
                  | None, None => True
                  | Some d, Some v => tree k (s_heap s1) d = Some v
                  | _, _ => False end
    | ZeroHash => True
    | _ => False
    end.
Proof.
  intros l os s' AB SH. exists (size l + 4). intros k Hk.
  eapply session_spec; [exact start_ok|exact AB|exact SH|lia].
Qed.
Print Assumptions C48_session_partial.

Definition hx : string := "Global`x". Definition hy : string := "Global`y".
Definition lst (l : list ex) : ex := EExpr (sys "List" :: l).
Lemma occurs_lst n l : occurs n (lst l) -> n = sysname "List" \/ exists x, In x l /\ occurs n x.
Proof. intros O. inversion O as [|l0 x Hx Ox]; subst. destruct Hx as [<-|Hx]; [left; now inversion Ox|eauto]. Qed.
(* y = 1; x = {y, z}; y = 2; {x, y} shows {{1, z}, 2} *)
Definition demo : list cmd :=
  [CSet hy (EInt 1); CSet hx (lst [ESym hy; ESym "z"]); CSet hy (EInt 2); CRead (lst [ESym hx; ESym hy])].
Definition demo_out : list ex :=
  [EInt 1; lst [EInt 1; ESym "z"]; EInt 2; lst [lst [EInt 1; ESym "z"]; EInt 2]].
Ltac solve_norm := repeat first
  [ apply norm_expr | apply Forall2_cons | apply Forall2_nil
  | (apply norm_free; reflexivity) | (eapply norm_var; [reflexivity|]) | (apply norm_atom; reflexivity) ].
Example C48_ex_session : assigned_before_use (fun _ => False) (fun _ => None) demo /\
  (exists s', shows (fun _ => None) demo demo_out s') /\
  (exists s1, exec_all 25 start demo = Done (map Some demo_out, s1)).
Proof.
  assert (QA : forall n, n = sysname "List" \/ n = hx \/ n = hy \/ n = "z"%string -> ~ active n).
  { intros n H [E|E]; subst n; destruct H as [H|[H|[H|H]]]; discriminate. }
  split; [|split].
  - unfold demo. eapply ab_set with (v := EInt 1); [| | | | |].
    + intros n O. inversion O.
    + apply QA. auto.
    + solve_norm.
    + auto.
    + intros [O _]. inversion O.
    + eapply ab_set with (v := lst [EInt 1; ESym "z"]).
      * intros n O. apply QA. apply occurs_lst in O. destruct O as [->|(x & [<-|[<-|[]]] & O)]; auto; inversion O; auto.
      * apply QA. auto.
      * unfold lst, sys. solve_norm.
      * intros [[]|[O _]]; inversion O.
      * intros [O _]. apply occurs_lst in O. destruct O as [O|(x & [<-|[<-|[]]] & O)]; [discriminate|inversion O..].
      * eapply ab_set with (v := EInt 2).
        -- intros n O. inversion O.
        -- apply QA. auto.
        -- solve_norm.
        -- intros [[[]|[O _]]|[_ E]]; [inversion O|discriminate].
        -- intros [O _]. inversion O.
        -- apply ab_read; [|apply ab_nil]. intros n O. apply QA. apply occurs_lst in O.
           destruct O as [->|(x & [<-|[<-|[]]] & O)]; auto; inversion O; auto.
  - eexists. unfold demo, demo_out. repeat first [apply sh_nil | (eapply sh_set; [unfold lst, sys; solve_norm|]) | (eapply sh_read; [unfold lst, sys; solve_norm|])].
  - eexists. vm_compute. reflexivity.
Qed.

Definition differs (l : list cmd) : Prop :=
  exists os s' os' s1 k, shows (fun _ => None) l os s' /\ exec_all k start l = Done (os', s1) /\ os' <> map Some os.

(* x = {y}; y = 5; x shows {y} *)
Theorem C48_unassigned_refuted : exists l, differs l.
Proof.
  exists [CSet hx (lst [ESym hy]); CSet hy (EInt 5); CRead (ESym hx)].
  exists [lst [ESym hy]; EInt 5; lst [EInt 5]]. eexists. eexists. eexists. exists 20. split; [|split].
  - repeat first [apply sh_nil | (eapply sh_set; [unfold lst, sys; solve_norm|]) | (eapply sh_read; [unfold lst, sys|])].
    eapply norm_var; [reflexivity|]. solve_norm.
  - vm_compute. reflexivity.
  - discriminate.
Qed.
Print Assumptions C48_unassigned_refuted.

(* x := {y}; y = 1; x; y = 2; x shows {1}: reading x has changed its definition *)
Theorem C48_delayed_refuted : exists l, differs l /\ forall x e, ~ In (CSet x (EExpr e)) l.
Proof.
  exists [CDelay hx (lst [ESym hy]); CSet hy (EInt 1); CRead (ESym hx); CSet hy (EInt 2); CRead (ESym hx)]. split.
  - exists [sys "Null"; EInt 1; lst [EInt 1]; EInt 2; lst [EInt 2]]. eexists. eexists. eexists. exists 20. split; [|split].
    + apply sh_delay. eapply sh_set; [solve_norm|]. eapply sh_read; [eapply norm_var; [reflexivity|]; solve_norm|].
      eapply sh_set; [solve_norm|]. eapply sh_read; [eapply norm_var; [reflexivity|]; solve_norm|]. apply sh_nil.
    + vm_compute. reflexivity.
    + discriminate.
  - intros x e H. cbn [In] in H. intuition discriminate.
Qed.
Print Assumptions C48_delayed_refuted.

(* x = 6; y = 4; Rational[x, y]; {x, y} shows {3, 2} *)
Theorem C48_rational_refuted : exists s1,
  exec_all 20 start [CSet hx (EInt 6); CSet hy (EInt 4); CRead (EExpr [sys "Rational"; ESym hx; ESym hy]); CRead (lst [ESym hx; ESym hy])]
  = Done ([Some (EInt 6); Some (EInt 4); Some (ERat 3 2); Some (lst [EInt 3; EInt 2])], s1).
Proof. eexists. vm_compute. reflexivity. Qed.
Print Assumptions C48_rational_refuted.

(* Factorial of an Integer object: the result is n!, and the object becomes 0,
   whoever else refers to it. *)
Fixpoint fact_z (n : nat) : Z := match n with O => 1%Z | S m => (Z.of_nat n * fact_z m)%Z end.
Lemma go_factorial_spec n : forall h b, b < length (h_bigs h) -> bget h b = Z.of_nat n ->
  exists h', go_factorial n h b = (fact_z n, h') /\ bget h' b = 0%Z /\ h_objs h' = h_objs h /\
             forall b', b' <> b -> bget h' b' = bget h b'.
Proof.
  induction n as [|n IH]; intros h b Hb E.
  - exists h. cbn in *. auto.
  - cbn [go_factorial]. rewrite E. set (h1 := bset h b (Z.of_nat (S n) - 1)%Z).
    assert (B1 : bget h1 b = Z.of_nat n).
    { unfold h1, bget, bset. cbn [h_bigs]. rewrite (nth_error_nth _ _ _ (lset_same _ _ _ Hb)). lia. }
    destruct (IH h1 b) as (h2 & G & Z0 & O & K); [unfold h1; cbn [bset h_bigs]; now rewrite lset_length|exact B1|].
    rewrite G. exists h2. split; [reflexivity|]. split; [exact Z0|]. split; [now rewrite O|].
    intros b' Nb. rewrite K by assumption. unfold h1, bget, bset. cbn [h_bigs].
    assert (Y := lset_other (h_bigs h) b b' (Z.of_nat (S n) - 1)%Z ltac:(congruence)).
    destruct (nth_error (h_bigs h) b') as [w|] eqn:W.
    + rewrite (nth_error_nth _ _ _ Y). symmetry. now apply nth_error_nth.
    + apply nth_error_None in Y. apply nth_error_None in W. now rewrite !nth_overflow.
Qed.
Theorem C18_argument_refuted : forall h x b c n, hget h x = Some (OInt b c) -> b < length (h_bigs h) -> bget h b = Z.of_nat n ->
  exists res h', apply_fn h sFactorial [x] = Some (res, h') /\ tree 1 h' res = Some (EInt (fact_z n)) /\
    hget h' x = Some (OInt b c) /\ tree 1 h' x = Some (EInt 0).
Proof.
  intros h x b c n E Hb En. unfold apply_fn. rewrite String.eqb_refl, E. destruct (Z.ltb_spec (bget h b) 0) as [X|_]; [lia|].
  rewrite En, Nat2Z.id. destruct (go_factorial_spec n h b Hb En) as (h1 & G & Z0 & O & _). rewrite G.
  unfold hnew_int. cbn [bnew hnew]. eexists. eexists. split; [reflexivity|].
  assert (Bl : b < length (h_bigs h1)).
  { clear -G Hb. revert h h1 G Hb. generalize (fact_z n). induction n as [|n IH]; intros z h h1 G Hb; cbn [go_factorial] in G.
    - injection G as _ <-. exact Hb.
    - destruct (go_factorial n (bset h b (bget h b - 1)%Z) b) as [r h2] eqn:G2. injection G as _ <-.
      eapply IH; [exact G2|]. cbn [bset h_bigs]. now rewrite lset_length. }
  split; [|split].
  - cbn [tree]. unfold hget. cbn [h_objs]. rewrite nth_error_app2 by lia. rewrite Nat.sub_diag. cbn [nth_error].
    unfold bget. cbn [h_bigs]. rewrite app_nth2 by lia. now rewrite Nat.sub_diag.
  - unfold hget in *. cbn [h_objs]. rewrite O. rewrite nth_error_app1; [exact E|]. apply nth_error_Some. congruence.
  - cbn [tree]. unfold hget in *. cbn [h_objs]. rewrite O. rewrite nth_error_app1 by (apply nth_error_Some; congruence). rewrite E.
    unfold bget in *. cbn [h_bigs]. rewrite app_nth1 by assumption. now rewrite Z0.
Qed.
Print Assumptions C18_argument_refuted.
(* x = 5; x!; x shows 5, 120, 0 *)
Example C18_ex_argument : exists s1, exec_all 20 start [CSet hx (EInt 5); CRead (EExpr [sys "Factorial"; ESym hx]); CRead (ESym hx)]
  = Done ([Some (EInt 5); Some (EInt 120); Some (EInt 0)], s1).
Proof. eexists. vm_compute. reflexivity. Qed.
