(* Property theorems: ReplaceList (C83) and ReplacePart (C84). *)
From Verif Require Import M_Syntax M_Hash M_Alloc M_Match M_Replace S_Alloc S_Match P_Hash P_Alloc P_MatchFuel P_MatchSound P_MatchComplete P_MatchComplete2 P_MatchNames T_Match.
From Coq Require Import Permutation Relations.
Open Scope nat_scope.

(* ------------------------------------------------------------------ C83 *)
Definition rule (l r : ex) : ex := EExpr [sys "Rule"; l; r].
(* every element of the result is the right hand side with the names replaced
   by their values in some way in which e is an instance of the pattern *)
Theorem C83_sound_partial : forall env n e lhs rhs res x, env_ok env -> supported (neg_ok_n n) lhs = true ->
  replace_list_eval env [e; rule lhs rhs] = Some (EExpr (sList :: res)) -> In x res ->
  exists m, inst (neg_n env n) same env (pd_bindings m) e lhs /\ subst m rhs x.
Proof.
  intros env n e lhs rhs res x Henv Hs H I. unfold replace_list_eval in H.
  change (args_of (rule lhs rhs) (sysname "Rule")) with (Some [lhs; rhs]) in H. cbn iota in H. injection H as <-.
  apply in_map_iff in I. destruct I as [m [<- I]]. exists m. split; [|apply C26_replace_is_substitution; reflexivity].
  apply (C23_every_match_sound_partial env n e lhs [] m Henv Hs); [constructor|exact I].
Qed.
Print Assumptions C83_sound_partial.

(* every way in which e is an instance of the pattern contributes an element *)
Theorem C83_complete_partial : forall env n e lhs rhs sg, env_ok env -> frag (neg_ok_n n) MElem lhs = true -> pairs_ok e lhs = true ->
  inst (neg_n env n) eq env sg e lhs ->
  exists res m x, replace_list_eval env [e; rule lhs rhs] = Some (EExpr (sList :: res)) /\ In x res /\
    subst m rhs x /\ (forall y v, pd_get m y = Some v -> sg y = Some v).
Proof.
  intros env n e lhs rhs sg Henv F P I. destruct (C24_match_complete_partial env n e lhs sg Henv F P I) as [m [K1 K2]].
  eexists _, m, (replace_pd_go m rhs).
  split; [|split; [|split; [apply C26_replace_is_substitution; reflexivity|exact K2]]].
  - unfold replace_list_eval. change (args_of (rule lhs rhs) (sysname "Rule")) with (Some [lhs; rhs]). cbn iota. reflexivity.
  - apply (in_map (fun m => replace_pd_go m rhs)), K1.
Qed.
Print Assumptions C83_complete_partial.

(* In particular ReplaceList[{a1, ..., an}, {x___, y___} -> rhs] contains, for
   each of the n + 1 ways to cut the list in two, rhs with x and y replaced by the
   two pieces. *)
Definition cut_pattern (x y : string) : ex :=
  lst [EExpr [sys "Pattern"; ESym x; bns]; EExpr [sys "Pattern"; ESym y; bns]].
Theorem C83_cuts : forall env l1 l2 x y rhs, env_ok env -> me_orderless env nList = false -> me_flat env nList = false -> me_oneid env nList = false ->
  x <> y ->
  exists res v, replace_list_eval env [lst (l1 ++ l2); rule (cut_pattern x y) rhs] = Some (EExpr (sList :: res)) /\ In v res /\
    subst [(x, EExpr (sys "Sequence" :: l1)); (y, EExpr (sys "Sequence" :: l2))] rhs v.
Proof.
  intros env l1 l2 x y rhs Henv Ho Hf Hi Nxy.
  set (sg := fun z => if String.eqb z x then Some (EExpr (sys "Sequence" :: l1)) else if String.eqb z y then Some (EExpr (sys "Sequence" :: l2)) else None).
  assert (Hc : frag (neg_ok_n 0) MElem (cut_pattern x y) = true) by reflexivity.
  assert (Hp : pairs_ok (lst (l1 ++ l2)) (cut_pattern x y) = true).
  { unfold pairs_ok. assert (Hh : sym_heads (cut_pattern x y) = true) by (vm_compute; reflexivity). rewrite Hh, orb_true_r. reflexivity. }
  assert (Tk : forall z l, sg z = Some (EExpr (sys "Sequence" :: l)) -> takes (inst (neg_n env 0) eq env sg) eq env (me_flat env nList) nList sg l (EExpr [sys "Pattern"; ESym z; bns])).
  { intros z l Hz. rewrite Hf. split; [split; [apply Nat.le_0_l|exact Logic.I]|]. split.
    - apply Forall_forall. intros e _. apply I_blank with (args := []); [exists nBlank; split; [left; reflexivity|reflexivity]|exact Logic.I].
    - change (cv_name (view (EExpr [sys "Pattern"; ESym z; bns]))) with (Some z). cbn iota. exists (EExpr (sys "Sequence" :: l)). split; [exact Hz|].
      unfold name_value. change (opt_default env nList (view (EExpr [sys "Pattern"; ESym z; bns]))) with (@None ex).
      change (flat_blank false (cv_core (view (EExpr [sys "Pattern"; ESym z; bns])))) with false.
      change (single_blank false (cv_core (view (EExpr [sys "Pattern"; ESym z; bns])))) with false. rewrite Hi.
      change (cv_opt (view (EExpr [sys "Pattern"; ESym z; bns]))) with (@None (option ex)). destruct l as [|a [|b l]]; reflexivity. }
  assert (Hinst : inst (neg_n env 0) eq env sg (lst (l1 ++ l2)) (cut_pattern x y)).
  { apply I_args with (blocks := [l1; l2]).
    - intro K. unfold special in K. repeat (destruct K as [K|K]; [try discriminate K; destruct K as [K _]; discriminate K|]). destruct K as [K _]; discriminate K.
    - unfold divided. match goal with |- if ?b then _ else _ => replace b with false by (symmetry; exact Ho) end. cbn [concat]. rewrite app_nil_r. reflexivity.
    - constructor; [|constructor; [|constructor]]; apply Tk; unfold sg.
      + rewrite String.eqb_refl. reflexivity.
      + destruct (String.eqb_spec y x) as [K|_]; [congruence|]. rewrite String.eqb_refl. reflexivity. }
  destruct (C24_match_complete_partial env 0 _ _ sg Henv Hc Hp Hinst) as [m [K1 K2]].
  eexists _, (replace_pd_go m rhs). split; [|split].
  - unfold replace_list_eval. change (args_of (rule (cut_pattern x y) rhs) (sysname "Rule")) with (Some [cut_pattern x y; rhs]). cbn iota. reflexivity.
  - apply (in_map (fun m => replace_pd_go m rhs)), K1.
  - (* m binds both names *)
    assert (Bd : forall z, z = x \/ z = y -> pd_get m z = sg z).
    { intros z Hz. destruct (pd_get m z) as [v|] eqn:G; [symmetry; apply K2, G|]. exfalso.
      pose proof (C23_every_match_sound_partial env 0 (lst (l1 ++ l2)) (cut_pattern x y) [] m Henv eq_refl (NoDup_nil _) K1) as S.
      change (cut_pattern x y) with (EExpr [ESym nList; EExpr [sys "Pattern"; ESym x; bns]; EExpr [sys "Pattern"; ESym y; bns]]) in S.
      change (lst (l1 ++ l2)) with (EExpr (ESym nList :: l1 ++ l2)) in S.
      inversion S as [e p args Bk|e x0 q r args v0 Bk| |e ps p0| | |e p0 t| | | | s h l l' [Q|Q]| | |e f ps _ _ _ HH| |f args ps blocks Pl Dv F2|h args hp ps blocks Pl Nq]; subst; try discriminate.
      - destruct Bk as [s [[-> |[-> | ->]] Q]]; discriminate Q.
      - inversion F2 as [|b1 p1 bs1 ps1 T1 F3]; subst. inversion F3 as [|b2 p2 bs2 ps2 T2 _]; subst.
        destruct T1 as [_ [_ [v1 [G1 _]]]]. destruct T2 as [_ [_ [v2 [G2 _]]]]. unfold pd_bindings in G1, G2. destruct Hz as [->| ->]; congruence.
      - apply (Nq nList); reflexivity. }
    assert (Dm : forall z, pd_get m z = pd_get [(x, EExpr (sys "Sequence" :: l1)); (y, EExpr (sys "Sequence" :: l2))] z).
    { intro z. cbn [pd_get]. rewrite !(String.eqb_sym _ z). destruct (String.eqb_spec z x) as [->|Nx].
      - rewrite Bd by (left; reflexivity). unfold sg. rewrite String.eqb_refl. reflexivity.
      - destruct (String.eqb_spec z y) as [->|Ny].
        + rewrite Bd by (right; reflexivity). unfold sg. destruct (String.eqb_spec y x); [congruence|]. rewrite String.eqb_refl. reflexivity.
        + destruct (pd_get m z) as [v|] eqn:G; [|reflexivity]. apply K2 in G. unfold sg in G.
          destruct (String.eqb_spec z x); [congruence|]. destruct (String.eqb_spec z y); [congruence|discriminate]. }
    pose proof (proj1 (C26_replace_is_substitution m rhs _) eq_refl) as Sb. clear - Sb Dm. revert Sb. generalize (replace_pd_go m rhs). revert rhs.
    fix IH 3. intros rhs e H. destruct H as [z v G|z G|e0 A B|l l' F].
    + apply S_bound. rewrite <- Dm. exact G.
    + apply S_free. rewrite <- Dm. exact G.
    + apply S_other; assumption.
    + apply S_parts. induction F as [|a b l l' Hab F IHF]; constructor; [apply IH, Hab|apply IHF].
Qed.
Print Assumptions C83_cuts.

(* ReplaceList[{1, 2}, {x___, y___} -> g[{x}, {y}]] *)
Example C83_ex : replace_list_eval env0 [lst [EInt 1; EInt 2]; rule (cut_pattern "Global`x" "Global`y") (EExpr [gl "g"; lst [gl "x"]; lst [gl "y"]])]
  = Some (lst [EExpr [gl "g"; lst [EExpr [sys "Sequence"]]; lst [EExpr [sys "Sequence"; EInt 1; EInt 2]]];
               EExpr [gl "g"; lst [EExpr [sys "Sequence"; EInt 1]]; lst [EExpr [sys "Sequence"; EInt 2]]];
               EExpr [gl "g"; lst [EExpr [sys "Sequence"; EInt 1; EInt 2]]; lst [EExpr [sys "Sequence"]]]]).
Proof. vm_compute. reflexivity. Qed.
(* ReplaceList[a + b, x_ + y_ -> {x, y}] has both orders *)
Example C83_ex_orderless : exists res, replace_list_eval env0 [EExpr [sys "Plus"; gl "a"; gl "b"]; rule (EExpr [sys "Plus"; nm "x" blk; nm "y" blk]) (lst [gl "x"; gl "y"])]
  = Some (lst res) /\ In (lst [gl "a"; gl "b"]) res /\ In (lst [gl "b"; gl "a"]) res.
Proof. eexists. split; [vm_compute; reflexivity|]. split; cbn; auto. Qed.

(* ------------------------------------------------------------------ C84 *)
(* the part of e at a position *)
Fixpoint part_at (e : ex) (p : list nat) : option ex :=
  match p with
  | [] => Some e
  | i :: q => match e, i with
              | EExpr (_ :: l), S k => match nth_error l k with Some x => part_at x q | None => None end
              | _, _ => None
              end
  end.
Definition goes (env : menv) (rules : list (ex * ex)) (p : list nat) : nat -> list ex -> list ex :=
  fix go (i : nat) (l : list ex) : list ex :=
    match l with
    | [] => []
    | x :: t => match part_rule env rules (p ++ [i]) with
                | Some v => v
                | None => replace_parts env rules (p ++ [i]) x
                end :: go (S i) t
    end.
Lemma replace_parts_expr env rules p h l : replace_parts env rules p (EExpr (h :: l)) = EExpr (h :: goes env rules p 1 l).
Proof. reflexivity. Qed.
Lemma goes_nth env rules p l i k x : nth_error l k = Some x ->
  nth_error (goes env rules p i l) k = Some (match part_rule env rules (p ++ [i + k]) with Some v => v | None => replace_parts env rules (p ++ [i + k]) x end).
Proof.
  revert i k. induction l as [|y l IH]; intros i k H; [destruct k; discriminate|]. destruct k as [|k]; cbn [nth_error goes] in *.
  - injection H as ->. rewrite Nat.add_0_r. reflexivity.
  - rewrite (IH (S i) k H). rewrite Nat.add_succ_r. reflexivity.
Qed.
Lemma goes_length env rules p l i : length (goes env rules p i l) = length l.
Proof. revert i. induction l as [|y l IH]; intro i; [reflexivity|]. cbn. f_equal. apply IH. Qed.

(* p is a position above q, or q *)
Definition above (p q : list nat) : Prop := p <> [] /\ exists r, q = p ++ r.

(* A part is replaced when a rule applies to its position and none to a position
   above it; the rule is the first one that matches. *)
Theorem C84_replaced : forall env e rules q x v, part_at e q = Some x -> q <> [] ->
  part_rule env rules q = Some v -> (forall p, above p q -> p <> q -> part_rule env rules p = None) ->
  part_at (replace_parts env rules [] e) q = Some v.
Proof.
  intros env e rules q x v H Nq R A.
  assert (G : forall s e p, p ++ s = q -> s <> [] -> part_at e s = Some x -> part_at (replace_parts env rules p e) s = Some v).
  { induction s as [|i s IH]; intros e0 p Q Ns H0; [congruence|]. cbn [part_at] in H0.
    destruct e0 as [| | | | | |[|h l]]; try discriminate. destruct i as [|k]; [discriminate|].
    destruct (nth_error l k) as [y|] eqn:E; [|discriminate]. rewrite replace_parts_expr. cbn [part_at].
    rewrite (goes_nth env rules p l 1 k y E). cbn [Nat.add]. destruct s as [|j s].
    - rewrite Q, R. reflexivity.
    - rewrite (A (p ++ [S k])).
      + apply IH; [rewrite <- app_assoc; exact Q|discriminate|exact H0].
      + split; [destruct p; discriminate|]. exists (j :: s). rewrite <- app_assoc. symmetry. exact Q.
      + intro K. rewrite <- Q in K. apply app_inv_head in K. discriminate. }
  apply (G q e []); [reflexivity|exact Nq|exact H].
Qed.
Print Assumptions C84_replaced.

(* Everything else stays: at a position such that no rule applies to it or above
   it there is the same atom, or an expression with the same head and as many
   arguments.  Together with C84_replaced this determines the result. *)
Theorem C84_kept : forall env e rules q x, part_at e q = Some x ->
  (forall p, above p q -> part_rule env rules p = None) ->
  exists y, part_at (replace_parts env rules [] e) q = Some y /\
    (is_expr x = false -> y = x) /\
    (forall h l, x = EExpr (h :: l) -> exists l', y = EExpr (h :: l') /\ length l' = length l).
Proof.
  intros env e rules q x H A.
  assert (G : forall s e p, p ++ s = q -> part_at e s = Some x -> exists y, part_at (replace_parts env rules p e) s = Some y /\
    (is_expr x = false -> y = x) /\
    (forall h l, x = EExpr (h :: l) -> exists l', y = EExpr (h :: l') /\ length l' = length l)).
  { induction s as [|i s IH]; intros e0 p Q H0; cbn [part_at] in H0.
    - injection H0 as <-. eexists. split; [reflexivity|]. split.
      + destruct e0; try reflexivity. discriminate.
      + intros h l ->. rewrite replace_parts_expr. exists (goes env rules p 1 l). split; [reflexivity|apply goes_length].
    - destruct e0 as [| | | | | |[|h l]]; try discriminate. destruct i as [|k]; [discriminate|].
      destruct (nth_error l k) as [y|] eqn:E; [|discriminate]. rewrite replace_parts_expr. cbn [part_at].
      rewrite (goes_nth env rules p l 1 k y E). cbn [Nat.add].
      rewrite (A (p ++ [S k])); [apply IH; [rewrite <- app_assoc; exact Q|exact H0]|].
      split; [destruct p; discriminate|]. exists s. rewrite <- app_assoc. symmetry. exact Q. }
  apply (G q e []); [reflexivity|exact H].
Qed.
Print Assumptions C84_kept.

(* the call, and the rule for a position in terms of MatchQ *)
Theorem C84_call : forall env e (rules : list (ex * ex)),
  replace_part_eval env [e; lst (map (fun '(l, r) => rule l r) rules)] = Some (replace_parts env rules [] e).
Proof.
  intros env e rules. unfold replace_part_eval. change (args_of (lst ?l) nList) with (Some l).
  enough (E : part_rules (map (fun '(l, r) => rule l r) rules) = Some rules) by (change (match part_rules (map (fun '(l, r) => rule l r) rules) with Some rules => Some (replace_parts env rules [] e) | None => None end = Some (replace_parts env rules [] e)); rewrite E; reflexivity).
  induction rules as [|[l r] t IH]; [reflexivity|]. cbn [map part_rules].
  change (args_of (rule l r) (sysname "Rule")) with (Some [l; r]). cbn iota. rewrite IH. reflexivity.
Qed.
Print Assumptions C84_call.
(* When no name is bound to the position as a whole, the value is the right hand
   side of the first matching rule with its names replaced. *)
Definition no_whole (m : pdm) : Prop := forall x v, In (x, v) m -> has_head v nList = false.
Theorem C84_rule_partial : forall env p pre lhs rhs post m,
  Forall (fun r => is_match_q env (position p) (fst r) [] = None) pre -> is_match_q env (position p) lhs [] = Some m -> no_whole m ->
  part_rule env (pre ++ (lhs, rhs) :: post) p = Some (replace_pd_go m rhs).
Proof.
  intros env p pre lhs rhs post m F M W. unfold part_rule.
  replace (rules_replace env (position p) (pre ++ (lhs, rhs) :: post)) with (Some (replace_pd_go m rhs)); [reflexivity|].
  symmetry. induction F as [|[l r] t H F IH]; cbn [app rules_replace].
  - rewrite M. do 2 f_equal. unfold shared. transitivity (map (fun z : string * ex => z) m); [|apply map_id]. apply map_ext_in. intros [x v] I. unfold emptied.
    specialize (W x v I). destruct v as [| | | | | |[|[h| | | | | |] l]]; try reflexivity. unfold has_head, head_assertion in W. destruct (String.eqb h nList); [discriminate|reflexivity].
  - cbn [fst] in H. rewrite H. exact IH.
Qed.
Print Assumptions C84_rule_partial.
(* no rule matches: nothing happens there *)
Theorem C84_no_rule : forall env p rules, Forall (fun r => matchq_eval env (position p) (fst r) = false) rules ->
  (forall i, p = [i] -> Forall (fun r => matchq_eval env (EInt (Z.of_nat i)) (fst r) = false) rules) ->
  part_rule env rules p = None.
Proof.
  assert (L : forall env e rules, Forall (fun r : ex * ex => matchq_eval env e (fst r) = false) rules -> rules_replace env e rules = None).
  { intros env e rules F. induction F as [|[l r] t H F IH]; [reflexivity|]. cbn [rules_replace]. unfold matchq_eval in H. cbn [fst] in H.
    destruct (is_match_q env e l []); [discriminate|exact IH]. }
  intros env p rules F G. unfold part_rule. rewrite (L _ _ _ F). destruct p as [|i [|j t]]; try reflexivity. apply L, G. reflexivity.
Qed.
Print Assumptions C84_no_rule.

(* ReplacePart[h[a, k[b, c], d], {{2, 1} -> X, 3 -> Y}] *)
Example C84_ex : replace_part_eval env0 [EExpr [gl "h"; gl "a"; EExpr [gl "k"; gl "b"; gl "c"]; gl "d"]; lst [rule (lst [EInt 2; EInt 1]) (gl "X"); rule (EInt 3) (gl "Y")]]
  = Some (EExpr [gl "h"; gl "a"; EExpr [gl "k"; gl "X"; gl "c"]; gl "Y"]) /\
  part_rule env0 [(lst [nm "i" blk; EInt 1], EExpr [gl "g"; gl "i"])] [2; 1] = Some (EExpr [gl "g"; EInt 2]).
Proof. split; vm_compute; reflexivity. Qed.

(* "ReplacePart[e, {i_ -> g[i]}] puts g[i] at position i": the name is bound to
   the list that serves as position counter, which is empty in the end. *)
Theorem C84_bound_position_refuted :
  replace_part_eval env0 [lst [gl "a"; gl "b"]; lst [rule (nm "i" blk) (EExpr [gl "g"; gl "i"])]]
  = Some (lst [EExpr [gl "g"; lst []]; EExpr [gl "g"; lst []]]).
Proof. vm_compute. reflexivity. Qed.
Print Assumptions C84_bound_position_refuted.
