(* Property theorems: MemberQ, Cases and DeleteCases (C57); Length, LeafCount
   and Depth (C58); chains of SameQ and UnsameQ (C59). *)
From Verif Require Import M_Syntax M_Float M_Hash M_Order M_Sort M_Match M_Compare M_List S_Match S_Cases P_Hash P_MatchNames T_Match T_SameQ.
From Coq Require Import Permutation FinFun.
Open Scope nat_scope.

(* ---- C57 ---- *)
Lemma parted_filter {A} (f : A -> bool) l : parted (fun x => f x = true) l (filter f l) (filter (fun x => negb (f x)) l).
Proof.
  induction l as [|x l IH]; [constructor|]. cbn [filter]. destruct (f x) eqn:E; cbn [negb].
  - constructor; assumption.
  - constructor; [congruence|assumption].
Qed.
Lemma parted_fun {A} (P : A -> Prop) l y n : parted P l y n -> forall y' n', parted P l y' n' -> y = y' /\ n = n'.
Proof.
  induction 1 as [|x l y n Hx H IH|x l y n Hx H IH]; intros y' n' H'; inversion H'; subst; try contradiction; [split; reflexivity| |].
  - destruct (IH _ _ ltac:(eassumption)) as [-> ->]. split; reflexivity.
  - destruct (IH _ _ ltac:(eassumption)) as [-> ->]. split; reflexivity.
Qed.

(* Cases collects, in order, the elements x for which MatchQ[x, p] is True;
   DeleteCases keeps, in order and under the original head, all the others.
   (p is not a rule lhs -> rhs.) *)
Theorem C57_cases_delete_cases : forall env h l p, args_of p (sysname "Rule") = None ->
  exists yes no, cases_eval env [EExpr (h :: l); p] = Some (EExpr (sys "List" :: yes)) /\
    delete_cases_eval env [EExpr (h :: l); p] = Some (EExpr (h :: no)) /\
    parted (fun x => matchq_eval env x p = true) l yes no.
Proof.
  intros env h l p R. eexists _, _. unfold cases_eval. rewrite R. split; [reflexivity|]. split; [reflexivity|]. apply parted_filter.
Qed.
Print Assumptions C57_cases_delete_cases.

(* DeleteCases treats a rule like any other pattern *)
Theorem C57_delete_cases : forall env h l p, exists yes no,
  delete_cases_eval env [EExpr (h :: l); p] = Some (EExpr (h :: no)) /\
  parted (fun x => matchq_eval env x p = true) l yes no.
Proof. intros. eexists _, _. split; [reflexivity|]. apply parted_filter. Qed.
Print Assumptions C57_delete_cases.

(* MemberQ is True exactly when some element matches, and False otherwise; an
   atom has no members *)
Theorem C57_memberq : forall env h l p,
  ((exists x, In x l /\ matchq_eval env x p = true) -> memberq_eval env [EExpr (h :: l); p] = Some (sys "True")) /\
  ((forall x, In x l -> matchq_eval env x p = false) -> memberq_eval env [EExpr (h :: l); p] = Some (sys "False")) /\
  (forall a, atomic a -> memberq_eval env [a; p] = Some (sys "False")).
Proof.
  intros env h l p. unfold memberq_eval. split; [|split].
  - intro H. apply existsb_exists in H. rewrite H. reflexivity.
  - intro H. destruct (existsb (fun x => matchq_eval env x p) l) eqn:E; [|reflexivity].
    apply existsb_exists in E. destruct E as [x [Hi E]]. rewrite (H x Hi) in E. discriminate.
  - intros a Ha. destruct a; [reflexivity..|destruct Ha].
Qed.
Print Assumptions C57_memberq.

(* With a pattern without names the three functions follow the declarative
   meaning of the pattern (S_Match.v). *)
Theorem C57_declarative_partial : forall env n h l p, env_ok env -> neg_ok_n (S n) p = true -> args_of p (sysname "Rule") = None ->
  let instance x := exists sg, inst (neg_n env n) same env sg x p in
  (memberq_eval env [EExpr (h :: l); p] = Some (sys "True") <-> exists x, In x l /\ instance x) /\
  exists yes no, cases_eval env [EExpr (h :: l); p] = Some (EExpr (sys "List" :: yes)) /\
    delete_cases_eval env [EExpr (h :: l); p] = Some (EExpr (h :: no)) /\ parted instance l yes no.
Proof.
  intros env n h l p Henv Hn Hr instance.
  assert (D : forall x, matchq_eval env x p = true <-> instance x) by (intro x; apply C24_matchq_decides_partial; assumption).
  split.
  - unfold memberq_eval. split.
    + intro H. destruct (existsb (fun x => matchq_eval env x p) l) eqn:E; [|discriminate].
      apply existsb_exists in E. destruct E as [x [Hi E]]. exists x. split; [exact Hi|]. apply D, E.
    + intros [x [Hi Hx]]. assert (existsb (fun x => matchq_eval env x p) l = true) as ->; [|reflexivity].
      apply existsb_exists. exists x. split; [exact Hi|]. apply D, Hx.
  - destruct (C57_cases_delete_cases env h l p Hr) as [yes [no [A [B P]]]]. exists yes, no. split; [exact A|]. split; [exact B|].
    clear A B. induction P as [|x t y n' Hx P IH|x t y n' Hx P IH]; constructor; try assumption.
    + apply D, Hx.
    + intro Q. apply Hx, D, Q.
Qed.
Print Assumptions C57_declarative_partial.

(* Cases[l, lhs -> rhs] lists, in the order of the matching elements, rhs with
   the names of lhs replaced by the values of the match *)
Theorem C57_cases_rule : forall env h l lhs rhs,
  exists yes no out, cases_eval env [EExpr (h :: l); EExpr [sys "Rule"; lhs; rhs]] = Some (EExpr (sys "List" :: out)) /\
    parted (fun x => matchq_eval env x lhs = true) l yes no /\
    Forall2 (fun x y => exists m, is_match_q env x lhs [] = Some m /\ subst m rhs y) yes out.
Proof.
  intros env h l lhs rhs. eexists _, _, _. split; [reflexivity|]. split; [apply parted_filter|].
  induction l as [|x l IH]; [constructor|]. cbn [filter flat_map]. unfold matchq_eval at 1.
  destruct (is_match_q env x lhs []) as [m|] eqn:E; [|exact IH]. cbn [app]. constructor; [|exact IH].
  exists m. split; [exact E|]. apply C26_replace_is_substitution. reflexivity.
Qed.
Print Assumptions C57_cases_rule.

(* Only Rule is recognised: Cases[{1, 2}, x_ :> {x}] should be {{1}, {2}} and is {}. *)
Theorem C57_rule_delayed_refuted :
  cases_eval env0 [lst [EInt 1; EInt 2]; EExpr [sys "RuleDelayed"; nm "x" blk; lst [gl "x"]]] = Some (lst []) /\
  cases_eval env0 [lst [EInt 1; EInt 2]; EExpr [sys "Rule"; nm "x" blk; lst [gl "x"]]] = Some (lst [lst [EInt 1]; lst [EInt 2]]).
Proof. split; vm_compute; reflexivity. Qed.
Print Assumptions C57_rule_delayed_refuted.

Example C57_ex : let l := [EInt 1; gl "a"; EInt 2; ff [EInt 3]] in let p := EExpr [sys "Blank"; sys "Integer"] in
  env_ok env0 /\ neg_ok_n 1 p = true /\ args_of p (sysname "Rule") = None /\
  cases_eval env0 [ff l; p] = Some (lst [EInt 1; EInt 2]) /\
  delete_cases_eval env0 [ff l; p] = Some (ff [gl "a"; ff [EInt 3]]) /\
  memberq_eval env0 [ff l; p] = Some (sys "True") /\
  memberq_eval env0 [ff l; EExpr [sys "Blank"; sys "String"]] = Some (sys "False").
Proof. split; [exact env0_ok|]. vm_compute. repeat split; reflexivity. Qed.

(* ---- C58 ---- *)
Theorem C58_length : forall h l, length_eval [EExpr (h :: l)] = Some (EInt (Z.of_nat (length l))) /\
  forall a, atomic a -> length_eval [a] = Some (EInt 0).
Proof.
  intros h l. split.
  - unfold length_eval. cbn [length]. do 2 f_equal. lia.
  - intros a Ha. destruct a; [reflexivity..|destruct Ha].
Qed.
Print Assumptions C58_length.

(* the positions of the leaves, listed *)
Fixpoint leaves (e : ex) : list (list nat) :=
  match e with
  | EExpr l => (fix go (k : nat) (l : list ex) : list (list nat) :=
                  match l with [] => [] | x :: t => map (cons k) (leaves x) ++ go (S k) t end) 0 l
  | _ => [[]]
  end.
Definition leaves_from := fix go (k : nat) (l : list ex) : list (list nat) :=
                  match l with [] => [] | x :: t => map (cons k) (leaves x) ++ go (S k) t end.
Lemma leaves_expr l : leaves (EExpr l) = leaves_from 0 l. Proof. reflexivity. Qed.
Lemma leaves_from_in l : forall k p, In p (leaves_from k l) <-> exists i x q, nth_error l i = Some x /\ p = (k + i) :: q /\ In q (leaves x).
Proof.
  induction l as [|y l IH]; intros k p; cbn [leaves_from].
  - split; [intros []|]. intros [i [x [q [H _]]]]. destruct i; discriminate.
  - rewrite in_app_iff, in_map_iff, IH. split.
    + intros [[q [<- Hq]]|[i [x [q [A [-> B]]]]]].
      * exists 0, y, q. rewrite Nat.add_0_r. auto.
      * exists (S i), x, q. replace (k + S i) with (S k + i) by lia. auto.
    + intros [i [x [q [A [-> B]]]]]. destruct i as [|i].
      * injection A as ->. left. exists q. rewrite Nat.add_0_r. auto.
      * right. exists i, x, q. replace (k + S i) with (S k + i) by lia. auto.
Qed.
Lemma leaves_ok : forall e p, In p (leaves e) <-> leaf_position e p.
Proof.
  assert (AT : forall a p, atomic a -> leaves a = [[]] -> (In p (leaves a) <-> leaf_position a p)).
  { intros a p Ha E. rewrite E. split.
    - intros [<-|[]]. exists a. split; [reflexivity|exact Ha].
    - intros [b [H _]]. destruct p as [|k p]; [left; reflexivity|]. destruct a; try discriminate H. destruct Ha. }
  induction e as [s|s|z|n d|f|a1 a2 IH1 IH2|l IH] using ex_ind'; intro p; try (apply AT; [exact Logic.I|reflexivity]).
  rewrite leaves_expr, leaves_from_in. split.
  - intros [i [x [q [Hn [-> Hq]]]]]. rewrite Forall_forall in IH. apply (IH x (nth_error_In _ _ Hn)) in Hq.
    destruct Hq as [a [Ha At]]. exists a. split; [|exact At]. cbn [at_path Nat.add]. rewrite Hn. exact Ha.
  - intros [a [Ha At]]. destruct p as [|k p]; [injection Ha as <-; destruct At|]. cbn [at_path] in Ha.
    destruct (nth_error l k) as [x|] eqn:Hn; [|discriminate]. exists k, x, p. split; [exact Hn|]. split; [reflexivity|].
    rewrite Forall_forall in IH. apply (IH x (nth_error_In _ _ Hn)). exists a. auto.
Qed.
Lemma leaves_from_nodup l : Forall (fun e => NoDup (leaves e)) l -> forall k, NoDup (leaves_from k l).
Proof.
  induction 1 as [|x l Hx H IH]; intro k; cbn [leaves_from]; [constructor|].
  assert (D : forall a b : list (list nat), NoDup a -> NoDup b -> (forall p, In p a -> In p b -> False) -> NoDup (a ++ b)).
  { induction a as [|p a IHa]; intros b Na Nb Dj; [exact Nb|]. cbn [app]. inversion Na; subst. constructor.
    - rewrite in_app_iff. intros [Q|Q]; [contradiction|]. apply (Dj p); [left; reflexivity|exact Q].
    - apply IHa; try assumption. intros q Q1 Q2. apply (Dj q); [right; exact Q1|exact Q2]. }
  apply D; [|apply IH|].
  - apply Injective_map_NoDup; [|exact Hx]. intros p q E. injection E as E. exact E.
  - intros p P1 P2. apply in_map_iff in P1. destruct P1 as [q [<- _]]. apply leaves_from_in in P2.
    destruct P2 as [i [y [q' [_ [E _]]]]]. injection E as E _. lia.
Qed.
Lemma leaves_nodup : forall e, NoDup (leaves e).
Proof.
  induction e as [s|s|z|n d|f|a1 a2 IH1 IH2|l IH] using ex_ind'; try (constructor; [intros []|constructor]).
  rewrite leaves_expr. apply leaves_from_nodup, IH.
Qed.
Lemma leaves_length : forall e, length (leaves e) = leaf_count e.
Proof.
  induction e as [s|s|z|n d|f|a1 a2 IH1 IH2|l IH] using ex_ind'; try reflexivity.
  rewrite leaves_expr. cbn [leaf_count]. generalize 0 at 1 as k. induction IH as [|x l Hx H IHl]; intro k; [reflexivity|].
  cbn [leaves_from fold_right]. rewrite app_length, map_length, Hx, IHl. reflexivity.
Qed.
(* LeafCount[e] is the number of positions of e (heads included) that hold an atom *)
Theorem C58_leaf_count : forall e ps, NoDup ps -> (forall p, In p ps <-> leaf_position e p) -> leaf_count e = length ps.
Proof.
  intros e ps N H. rewrite <- leaves_length. apply Nat.le_antisymm; apply NoDup_incl_length; try assumption; try apply leaves_nodup.
  - intros p Hp. apply H, leaves_ok, Hp.
  - intros p Hp. apply leaves_ok, H, Hp.
Qed.
Print Assumptions C58_leaf_count.
(* such a list exists for every expression *)
Theorem C58_leaf_positions_finite : forall e, exists ps, NoDup ps /\ forall p, In p ps <-> leaf_position e p.
Proof. intro e. exists (leaves e). split; [apply leaves_nodup|apply leaves_ok]. Qed.
Print Assumptions C58_leaf_positions_finite.

Lemma depth_fold l : forall m, fold_left (fun m x => Nat.max m (calc_depth x)) l m = Nat.max m (fold_right Nat.max 0 (map calc_depth l)).
Proof. induction l as [|x l IH]; intro m; cbn [fold_left map fold_right]; [lia|]. rewrite IH. lia. Qed.
Lemma fold_max_in l : forall n, In n l -> n <= fold_right Nat.max 0 l.
Proof. induction l as [|x l IH]; intros n; [intros []|]. intros [->|H]; cbn [fold_right]; [lia|]. specialize (IH n H). lia. Qed.
Lemma fold_max_reached l : l <> [] -> In (fold_right Nat.max 0 l) l.
Proof.
  induction l as [|x [|y l] IH]; intro N; [contradiction| |].
  - cbn. left. lia.
  - assert (H : y :: l <> []) by discriminate. apply IH in H. set (m := fold_right Nat.max 0 (y :: l)) in *. change (fold_right Nat.max 0 (x :: y :: l)) with (Nat.max x m).
    destruct (Nat.max_spec x m) as [[_ ->]|[_ ->]]; [right; exact H|left; reflexivity].
Qed.
Lemma depth_expr h l : calc_depth (EExpr (h :: l)) = S (Nat.max 1 (fold_right Nat.max 0 (map calc_depth l))).
Proof. cbn [calc_depth]. rewrite depth_fold. reflexivity. Qed.
Lemma depth_bound : forall e, headed e = true -> forall p, arg_position e p -> length p < calc_depth e.
Proof.
  induction e as [s|s|z|n d|f|a1 a2 IH1 IH2|l IH] using ex_ind'; intros Hh p [Hp Hk];
    try (destruct p as [|k p]; [cbn; lia|exfalso; apply Hp; reflexivity]).
  destruct l as [|h l]; [discriminate|]. rewrite depth_expr. destruct p as [|k p]; [cbn; lia|].
  cbn [at_path] in Hp. destruct (nth_error (h :: l) k) as [x|] eqn:E; [|congruence].
  destruct p as [|k' p]; [cbn [length]; lia|].
  destruct k as [|k]; [exfalso; apply (Hk 0); [left; reflexivity|reflexivity]|]. cbn [nth_error] in E. pose proof (nth_error_In _ _ E) as Hi.
  inversion IH as [|? ? _ IHl]; subst. rewrite Forall_forall in IHl. cbn [headed forallb] in Hh. apply andb_true_iff in Hh as [_ Hh].
  rewrite forallb_forall in Hh. assert (Hx : length (k' :: p) < calc_depth x).
  { apply (IHl x Hi (Hh x Hi)). split; [exact Hp|]. intros j Hj. apply Hk. change (removelast (S k :: k' :: p)) with (S k :: removelast (k' :: p)). right. exact Hj. }
  pose proof (fold_max_in (map calc_depth l) (calc_depth x) (in_map _ _ _ Hi)). cbn [length] in *. lia.
Qed.
Lemma depth_reached : forall e, headed e = true -> exists p, arg_position e p /\ S (length p) = calc_depth e.
Proof.
  induction e as [s|s|z|n d|f|a1 a2 IH1 IH2|l IH] using ex_ind'; intro Hh;
    try (exists []; split; [split; [discriminate|intros k []]|reflexivity]).
  destruct l as [|h l]; [discriminate|]. rewrite depth_expr. destruct l as [|y l].
  - exists [0]. split; [split; [discriminate|intros k []]|reflexivity].
  - assert (N : map calc_depth (y :: l) <> []) by discriminate. apply fold_max_reached in N. apply in_map_iff in N. destruct N as [x [Ex Hi]]. rewrite <- Ex.
    inversion IH as [|? ? _ IHl]; subst. rewrite Forall_forall in IHl. change (headed h && forallb headed (y :: l) = true)%bool in Hh. apply andb_true_iff in Hh as [_ Hh].
    rewrite forallb_forall in Hh. destruct (IHl x Hi (Hh x Hi)) as [p [[Hp Hk] Hl]].
    destruct (In_nth_error _ _ Hi) as [k En]. exists (S k :: p). split.
    + split.
      * cbn [at_path nth_error] in *. rewrite En. exact Hp.
      * intros j Hj. destruct p as [|k' p]; [destruct Hj|]. change (removelast (S k :: k' :: p)) with (S k :: removelast (k' :: p)) in Hj.
        destruct Hj as [<-|Hj]; [discriminate|]. apply Hk, Hj.
    + cbn [length]. lia.
Qed.
(* Depth[e] is one more than the greatest number of indices needed to reach a
   part of e through its arguments *)
Theorem C58_depth : forall e d, headed e = true ->
  (calc_depth e = d <-> (exists p, arg_position e p /\ S (length p) = d) /\ forall p, arg_position e p -> length p < d).
Proof.
  intros e d Hh. destruct (depth_reached e Hh) as [p [Hp Hl]]. split.
  - intros <-. split; [exists p; auto|]. apply depth_bound, Hh.
  - intros [[q [Hq El]] Hb]. specialize (Hb p Hp). pose proof (depth_bound e Hh q Hq). lia.
Qed.
Print Assumptions C58_depth.
(* f[g[1, x], {}] *)
Example C58_ex : let e := ff [EExpr [gl "g"; EInt 1; gl "x"]; lst []] in
  headed e = true /\ leaf_count e = 5 /\ calc_depth e = 3 /\ length_eval [e] = Some (EInt 2) /\
  leaf_position e [1; 2] /\ arg_position e [2; 0].
Proof.
  cbv zeta. split; [reflexivity|]. split; [reflexivity|]. split; [reflexivity|]. split; [reflexivity|].
  split; [exists (gl "x"); split; [reflexivity|exact Logic.I]|]. split; [discriminate|].
  intros k [<-|[]]. discriminate.
Qed.

(* ---- C59 ---- *)
(* SameQ[e1, ..., en] is True exactly when every ei is SameQ to e1 *)
Theorem C59_sameq_chain : forall x l,
  (sameq_eval (x :: l) = ATrue <-> forall y, In y l -> is_sameq x y = true) /\ sameq_eval (x :: l) <> AUneval.
Proof.
  intros x l. unfold sameq_eval. destruct (forallb (is_sameq x) l) eqn:E.
  - rewrite forallb_forall in E. split; [split; auto|discriminate].
  - split; [|discriminate]. split; [discriminate|]. intro H. rewrite <- forallb_forall in H. congruence.
Qed.
Print Assumptions C59_sameq_chain.

(* UnsameQ[e1, ..., en] is True exactly when no two of the arguments are SameQ *)
Lemma unsameq_forall l : unsameq_eval l = ATrue <-> ForallOrdPairs (fun x y => is_sameq x y = false) l.
Proof.
  induction l as [|x l IH]; cbn [unsameq_eval]; [split; [constructor|reflexivity]|]. destruct (existsb (is_sameq x) l) eqn:E.
  - split; [discriminate|]. intro H. inversion H as [|? ? F]; subst. rewrite Forall_forall in F.
    apply existsb_exists in E. destruct E as [y [Hi E]]. rewrite (F y Hi) in E. discriminate.
  - rewrite IH. split.
    + constructor; [|assumption]. apply Forall_forall. intros y Hi. destruct (is_sameq x y) eqn:Q; [|reflexivity].
      assert (existsb (is_sameq x) l = true) by (apply existsb_exists; exists y; auto). congruence.
    + intro H. inversion H; subst. assumption.
Qed.
Theorem C59_unsameq : forall l,
  (unsameq_eval l = ATrue <-> pairwise (fun x y => is_sameq x y = false) l) /\ unsameq_eval l <> AUneval.
Proof.
  intro l. split.
  - rewrite unsameq_forall. split.
    + induction 1 as [|x l F H IH]; intros i j a b N A B; [destruct i; discriminate|]. rewrite Forall_forall in F.
      destruct i as [|i], j as [|j]; cbn [nth_error] in A, B.
      * congruence.
      * injection A as <-. apply F, (nth_error_In _ _ B).
      * injection B as <-. rewrite C09_sameq_symmetric. apply F, (nth_error_In _ _ A).
      * apply (IH i j); [congruence|assumption..].
    + induction l as [|x l IH]; intro P; constructor.
      * apply Forall_forall. intros y Hi. destruct (In_nth_error _ _ Hi) as [k E]. apply (P 0 (S k)); [discriminate|reflexivity|exact E].
      * apply IH. intros i j a b N A B. apply (P (S i) (S j)); [congruence|assumption..].
  - induction l as [|x l IH]; cbn [unsameq_eval]; [discriminate|]. destruct (existsb (is_sameq x) l); [discriminate|exact IH].
Qed.
Print Assumptions C59_unsameq.

(* the order of the arguments of UnsameQ does not matter *)
Theorem C59_unsameq_order : forall l l', Permutation l l' -> unsameq_eval l = unsameq_eval l'.
Proof.
  intros l l' P.
  assert (K : forall a b, Permutation a b -> unsameq_eval a = ATrue -> unsameq_eval b = ATrue).
  { intros a b Q. rewrite !unsameq_forall. induction Q as [|x a b Q IH|x y a|a b c Q1 IH1 Q2 IH2]; intro H; [exact H| | |auto].
    - inversion H as [|? ? F H']; subst. constructor; [|apply IH, H']. apply (Permutation_Forall Q F).
    - inversion H as [|? ? F H']; subst. inversion H' as [|? ? F' H'']; subst. inversion F; subst.
      constructor; [constructor; [rewrite C09_sameq_symmetric; assumption|assumption]|]. constructor; assumption. }
  pose proof (proj2 (C59_unsameq l)) as U. pose proof (proj2 (C59_unsameq l')) as U'.
  destruct (unsameq_eval l) eqn:E.
  - symmetry. apply (K l); assumption.
  - destruct (unsameq_eval l') eqn:E'; [|reflexivity|congruence]. apply (K l' l (Permutation_sym P)) in E'. congruence.
  - congruence.
Qed.
Print Assumptions C59_unsameq_order.

(* nor does it matter for SameQ, as long as no argument is itself a machine
   real; then True also means that all the arguments are pairwise SameQ *)
Lemma sameq_hash x y : bare_real x = false -> (is_sameq x y = true <-> hash x = hash y).
Proof.
  intro H. rewrite <- N.eqb_eq. destruct x; try discriminate; reflexivity.
Qed.
Lemma sameq_true_hash x l : (forall y, In y (x :: l) -> bare_real y = false) ->
  (sameq_eval (x :: l) = ATrue <-> forall y z, In y (x :: l) -> In z (x :: l) -> hash y = hash z).
Proof.
  intro H. rewrite (proj1 (C59_sameq_chain x l)). split.
  - intros A. assert (B : forall y, In y (x :: l) -> hash x = hash y).
    { intros y [<-|Hy]; [reflexivity|]. apply sameq_hash; [apply H; left; reflexivity|]. apply A, Hy. }
    intros y z Hy Hz. rewrite <- (B y Hy). apply B, Hz.
  - intros A y Hy. apply sameq_hash; [apply H; left; reflexivity|]. apply A; [left; reflexivity|right; exact Hy].
Qed.
Theorem C59_sameq_pairwise : forall x l, (forall y, In y (x :: l) -> bare_real y = false) ->
  (sameq_eval (x :: l) = ATrue <-> pairwise (fun y z => is_sameq y z = true) (x :: l)).
Proof.
  intros x l H. rewrite sameq_true_hash by exact H. split.
  - intros A i j y z _ Y Z. apply nth_error_In in Y, Z. apply sameq_hash; [apply H, Y|]. apply A; assumption.
  - intros A y z Hy Hz. destruct (In_nth_error _ _ Hy) as [i Y], (In_nth_error _ _ Hz) as [j Z].
    destruct (Nat.eq_dec i j) as [->|N]; [congruence|]. apply sameq_hash; [apply H, Hy|]. apply (A i j); assumption.
Qed.
Print Assumptions C59_sameq_pairwise.
Theorem C59_sameq_order : forall l l', Permutation l l' -> (forall y, In y l -> bare_real y = false) -> sameq_eval l = sameq_eval l'.
Proof.
  intros l l' P H. destruct l as [|x l].
  { apply Permutation_nil in P. subst. reflexivity. }
  destruct l' as [|x' l']; [apply Permutation_sym, Permutation_nil in P; discriminate|].
  assert (H' : forall y, In y (x' :: l') -> bare_real y = false) by (intros y Hy; apply H, (Permutation_in _ (Permutation_sym P) Hy)).
  assert (Q : sameq_eval (x :: l) = ATrue <-> sameq_eval (x' :: l') = ATrue).
  { rewrite !sameq_true_hash by assumption. split; intros A y z Hy Hz; apply A; eapply Permutation_in; try eassumption; apply Permutation_sym, P. }
  pose proof (proj2 (C59_sameq_chain x l)) as U. pose proof (proj2 (C59_sameq_chain x' l')) as U'.
  destruct (sameq_eval (x :: l)), (sameq_eval (x' :: l')); try reflexivity; try congruence; destruct Q as [Q1 Q2];
    try (discriminate (Q1 eq_refl)); try (discriminate (Q2 eq_refl)).
Qed.
Print Assumptions C59_sameq_order.
(* for machine reals the answer depends on the order, and SameQ[a, b, c] can be
   True although SameQ[b, c] is False *)
Theorem C59_real_order_refuted : exists f g h,
  sameq_eval [EFlt g; EFlt f; EFlt h] = ATrue /\ sameq_eval [EFlt f; EFlt g; EFlt h] = AFalse /\
  is_sameq (EFlt f) (EFlt h) = false.
Proof.
  exists (FFin false (2^52) (-52) 0), (FFin false (2^52 + 1) (-52) 0), (FFin false (2^52 + 2) (-52) 0).
  repeat split; vm_compute; reflexivity.
Qed.
Print Assumptions C59_real_order_refuted.
Example C59_ex : sameq_eval [ff [EInt 1]; ff [EInt 1]; ff [EInt 1]] = ATrue /\
  unsameq_eval [EInt 1; gl "x"; ff [EInt 1]] = ATrue /\ unsameq_eval [EInt 1; gl "x"; EInt 1] = AFalse.
Proof. repeat split; vm_compute; reflexivity. Qed.
