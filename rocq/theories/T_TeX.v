(* Property theorems: TeXForm (C139). *)
From Verif Require Import M_Syntax M_Hash M_InputForm M_TeX.
Open Scope nat_scope.

(* text in which braces, \left( \right) and brackets are properly nested in each other *)
Inductive nested : list xtok -> Prop :=
| N_nil : nested []
| N_text s : nested [XText s]
| N_int n : nested [XInt n]
| N_minus : nested [XMinus]
| N_app a b : nested a -> nested b -> nested (a ++ b)
| N_braces a : nested a -> nested (XO :: a ++ [XC])
| N_parens a : nested a -> nested (XL :: a ++ [XR])
| N_brackets a : nested a -> nested (XLB :: a ++ [XRB]).

(* what a reader of the text does: a stack of what has to be closed *)
Fixpoint closes (st : list xtok) (t : list xtok) : bool :=
  match t with
  | [] => match st with [] => true | _ => false end
  | XO :: r => closes (XC :: st) r
  | XL :: r => closes (XR :: st) r
  | XLB :: r => closes (XRB :: st) r
  | (XMinus | XText _ | XInt _) :: r => closes st r
  | XC :: r => match st with XC :: st' => closes st' r | _ => false end
  | XR :: r => match st with XR :: st' => closes st' r | _ => false end
  | XRB :: r => match st with XRB :: st' => closes st' r | _ => false end
  end.
Lemma nested_closes a : nested a -> forall st r, closes st (a ++ r) = closes st r.
Proof.
  induction 1; intros st r; try reflexivity.
  - rewrite <- app_assoc, IHnested1. apply IHnested2.
  - cbn [app closes]. rewrite <- app_assoc, IHnested. reflexivity.
  - cbn [app closes]. rewrite <- app_assoc, IHnested. reflexivity.
  - cbn [app closes]. rewrite <- app_assoc, IHnested. reflexivity.
Qed.

Lemma nested_cons t r : (match t with XText _ | XInt _ | XMinus => True | _ => False end) -> nested r -> nested (t :: r).
Proof. intros H R. change (t :: r) with ([t] ++ r). apply N_app; [|exact R]. destruct t; try contradiction; constructor. Qed.
Lemma nested_braces a r : nested a -> nested r -> nested (XO :: a ++ XC :: r).
Proof. intros A R. replace (XO :: a ++ XC :: r) with ((XO :: a ++ [XC]) ++ r) by (cbn; rewrite <- app_assoc; reflexivity). apply N_app; [apply N_braces, A|exact R]. Qed.
Lemma nested_minus l : nested l -> forall r, l = XMinus :: r -> nested r.
Proof.
  induction 1; intros r E; try discriminate E.
  - injection E as <-. constructor.
  - destruct a as [|x a]; [apply IHnested2, E|]. injection E as -> <-. apply N_app; [apply IHnested1; reflexivity|assumption].
Qed.
Lemma nested_int z : nested (xint z).
Proof. unfold xint. destruct (z <? 0)%Z; [apply nested_cons; [exact I|]|]; constructor. Qed.
Lemma nested_name s : nested (xname s).
Proof.
  unfold xname. repeat (match goal with |- context[if ?b then _ else _] => destruct b end; [try constructor|]); try constructor.
  apply nested_cons; [exact I|]. apply (N_braces [XText s]). constructor.
Qed.
Lemma nested_function h f : xfunction h = Some f -> nested f.
Proof.
  unfold xfunction. repeat (match goal with |- context[if ?b then _ else _] => destruct b end); intro H; try discriminate H; injection H as <-; try constructor.
  apply nested_cons; [exact I|]. apply (N_braces [XMinus; XInt 1]). apply nested_cons; [exact I|constructor].
Qed.
Lemma nested_join s l : Forall nested l -> nested (xjoin (XText s) l).
Proof.
  induction 1 as [|x t H F IH]; [constructor|]. cbn [xjoin]. destruct t; [exact H|]. apply N_app; [exact H|]. apply nested_cons; [exact I|exact IH].
Qed.
Lemma nested_term t : nested t -> nested (xterm t).
Proof.
  intro H. destruct t as [|x r]; [apply nested_cons; [exact I|constructor]|].
  destruct x; try (apply nested_cons; [exact I|exact H]). apply nested_cons; [exact I|]. apply (nested_minus _ H). reflexivity.
Qed.
Lemma nested_sum l : Forall nested l -> nested (xsum l).
Proof.
  intro H. destruct H as [|t r Ht Hr]; [constructor|]. cbn [xsum]. apply N_app; [exact Ht|].
  induction Hr as [|x r Hx Hr IH]; [constructor|]. cbn [flat_map]. apply N_app; [apply nested_term, Hx|exact IH].
Qed.
Lemma nested_opt b t : nested t -> nested (xparens b t).
Proof.
  intro H. destruct b; [|exact H]. unfold xparens. replace (XO :: XL :: t ++ [XR; XC]) with (XO :: (XL :: t ++ [XR]) ++ [XC]) by (cbn; rewrite <- app_assoc; reflexivity).
  apply N_braces, N_parens, H.
Qed.
Lemma all_some_forall {A B} (f : A -> option B) (P : A -> Prop) (Q : B -> Prop) l r :
  Forall P l -> (forall x y, P x -> f x = Some y -> Q y) -> all_some (map f l) = Some r -> Forall Q r.
Proof.
  intros F H. revert r. induction F as [|x t Hx Ft IH]; intros r E; cbn in E; [injection E as <-; constructor|].
  destruct (f x) as [y|] eqn:Y; [|discriminate E]. destruct (all_some (map f t)) as [u|]; [|discriminate E]. injection E as <-.
  constructor; [apply (H x y Hx Y)|apply IH; reflexivity].
Qed.

(* ---- C139 ---- *)
(* TeXForm writes text in which braces, parentheses and brackets are properly nested,
   whatever the expression, the visible names and the place it stands in *)
Theorem C139_nested : forall vis e p t, tex vis p e = Some t -> nested t.
Proof.
  intros vis. induction e as [s|s|z|n d|f|a b _ _|l IH] using ex_ind'; intros p t H; cbn [tex] in H; try discriminate H.
  - injection H as <-. apply nested_name.
  - injection H as <-. apply nested_int.
  - injection H as <-. apply nested_cons; [exact I|]. apply nested_braces; [apply nested_int|]. apply N_braces, nested_int.
  - destruct l as [|[h| | | | | |] args]; try discriminate H. inversion IH as [|? ? _ F]; subst. cbn zeta in H.
    assert (S : forall q r, all_some (map (tex vis q) args) = Some r -> Forall nested r).
    { intros q r E. apply (all_some_forall (tex vis q) _ nested args r F); [|exact E]. intros x y Hx Y. apply (Hx q y Y). }
    destruct (existsb (String.eqb h) left_out); [discriminate H|].
    destruct (xfunction h) as [f|] eqn:X.
    { destruct (all_some (map (tex vis Top) args)) as [r|] eqn:E; [|discriminate H]. injection H as <-.
      apply N_app; [apply (nested_function h f X)|]. apply N_parens, nested_join, (S Top), E. }
    destruct (String.eqb h (sysname "Plus") && (1 <? List.length args)).
    { destruct (all_some (map (tex vis (Under h)) args)) as [r|] eqn:E; [|discriminate H]. injection H as <-.
      apply nested_opt, nested_sum, (S (Under h)), E. }
    assert (Pl : forall t, option_map (fun l => xname (vis h) ++ XLB :: xjoin (XText ", ") l ++ [XRB]) (all_some (map (tex vis Top) args)) = Some t -> nested t).
    { intros u E. destruct (all_some (map (tex vis Top) args)) as [r|] eqn:K; [|discriminate E]. injection E as <-.
      apply N_app; [apply nested_name|]. apply N_brackets, nested_join, (S Top), K. }
    destruct (String.eqb h (sysname "Power")); [|apply Pl, H].
    destruct args as [|a [|n [|x r]]]; try (apply Pl, H); [|discriminate H].
    inversion F as [|? ? Fa F2]; subst. inversion F2 as [|? ? Fn _]; subst.
    destruct (is_sameq n (ERat 1 2)); [|destruct (is_sameq n (ERat (-1) 2)); [|destruct (is_sameq n (EInt (-1)))]].
    + destruct (tex vis Top a) as [u|] eqn:E; [|discriminate H]. injection H as <-. apply nested_cons; [exact I|]. apply N_braces, (Fa Top u E).
    + destruct (tex vis Top a) as [u|] eqn:E; [|discriminate H]. injection H as <-. apply nested_cons; [exact I|].
      apply (nested_braces [XInt 1]); [constructor|].
      replace (XO :: XText "\sqrt" :: XO :: u ++ [XC; XC]) with (XO :: (XText "\sqrt" :: XO :: u ++ [XC]) ++ [XC]) by (cbn; rewrite <- app_assoc; reflexivity).
      apply N_braces. apply nested_cons; [exact I|]. apply N_braces, (Fa Top u E).
    + destruct (tex vis Top a) as [u|] eqn:E; [|discriminate H]. injection H as <-. apply nested_cons; [exact I|].
      apply (nested_braces [XInt 1]); [constructor|]. apply N_braces, (Fa Top u E).
    + destruct (tex vis (Under h) a) as [u|] eqn:E; [|discriminate H]. destruct (tex vis Top n) as [w|] eqn:W; [|discriminate H]. injection H as <-.
      apply nested_opt. apply N_app; [apply (Fa _ u E)|]. apply nested_cons; [exact I|]. apply N_braces, (Fn Top w W).
Qed.
Print Assumptions C139_nested.
(* ... so that a reader who keeps a stack accepts it *)
Theorem C139_accepted : forall vis e p t, tex vis p e = Some t -> closes [] t = true.
Proof.
  intros vis e p t H. apply C139_nested in H. rewrite <- (app_nil_r t). rewrite (nested_closes t H). reflexivity.
Qed.
Print Assumptions C139_accepted.

(* Refuted: the text does not determine the expression.  E and a variable e are
   printed alike *)
Theorem C139_names_refuted : forall vis p s, vis (sysname "E") = "E"%string -> vis s = "e"%string ->
  sysname "E" <> s /\ tex vis p (ESym (sysname "E")) = tex vis p (ESym s).
Proof.
  intros vis p s H K. split; [intros <-; congruence|]. cbn [tex]. rewrite H, K. reflexivity.
Qed.
Print Assumptions C139_names_refuted.
(* a negative number is not put into parentheses: the power (-n)^y of a number and the
   text of a minus sign in front of n^y are the same tokens *)
Theorem C139_negative_base_refuted : forall vis p n y t, (0 < n)%Z -> tex vis p (EExpr [sys "Power"; EInt n; ESym y]) = Some t -> needs_parens (sysname "Power") p = false ->
  is_sameq (ESym y) (ERat 1 2) = false -> is_sameq (ESym y) (ERat (-1) 2) = false -> is_sameq (ESym y) (EInt (-1)) = false ->
  tex vis p (EExpr [sys "Power"; EInt (- n); ESym y]) = Some (XMinus :: t).
Proof.
  intros vis p n y t Hn H Np A B C. unfold sys in *. cbn [tex] in *.
  replace (existsb (String.eqb (sysname "Power")) left_out) with false in * by (vm_compute; reflexivity).
  replace (xfunction (sysname "Power")) with (@None (list xtok)) in * by (vm_compute; reflexivity).
  replace (String.eqb (sysname "Power") (sysname "Plus")) with false in * by (vm_compute; reflexivity).
  replace (String.eqb (sysname "Power") (sysname "Power")) with true in * by (vm_compute; reflexivity).
  cbn [andb] in *. cbv zeta in *. rewrite A, B, C in *. rewrite Np in *. injection H as <-. unfold xparens.
  do 2 f_equal. unfold xint. replace (- n <? 0)%Z with true by (symmetry; apply Z.ltb_lt; lia). replace (n <? 0)%Z with false by (symmetry; apply Z.ltb_ge; lia).
  rewrite Z.opp_involutive. reflexivity.
Qed.
Print Assumptions C139_negative_base_refuted.

(* a sum as the base of a power is written in parentheses *)
Lemma tex_sum vis p args : 1 < List.length args ->
  tex vis p (EExpr (sys "Plus" :: args)) = option_map (fun l => xparens (needs_parens (sysname "Plus") p) (xsum l)) (all_some (map (tex vis (Under (sysname "Plus"))) args)).
Proof.
  intro L. unfold sys. cbn [tex]. replace (existsb (String.eqb (sysname "Plus")) left_out) with false by (vm_compute; reflexivity).
  replace (xfunction (sysname "Plus")) with (@None (list xtok)) by (vm_compute; reflexivity).
  replace (String.eqb (sysname "Plus") (sysname "Plus")) with true by (vm_compute; reflexivity).
  apply Nat.ltb_lt in L. rewrite L. reflexivity.
Qed.
Lemma tex_power vis p a n : is_sameq n (ERat 1 2) = false -> is_sameq n (ERat (-1) 2) = false -> is_sameq n (EInt (-1)) = false ->
  tex vis p (EExpr [sys "Power"; a; n]) =
  match tex vis (Under (sysname "Power")) a, tex vis Top n with
  | Some t, Some u => Some (xparens (needs_parens (sysname "Power") p) (t ++ XText "^" :: XO :: u ++ [XC]))
  | _, _ => None
  end.
Proof.
  intros A B C. unfold sys. cbn [tex].
  replace (existsb (String.eqb (sysname "Power")) left_out) with false by (vm_compute; reflexivity).
  replace (xfunction (sysname "Power")) with (@None (list xtok)) by (vm_compute; reflexivity).
  replace (String.eqb (sysname "Power") (sysname "Plus")) with false by (vm_compute; reflexivity).
  replace (String.eqb (sysname "Power") (sysname "Power")) with true by (vm_compute; reflexivity).
  cbn [andb]. cbv zeta. rewrite A, B, C. reflexivity.
Qed.
Theorem C139_sum_base : forall vis args n t, 1 < List.length args ->
  is_sameq n (ERat 1 2) = false -> is_sameq n (ERat (-1) 2) = false -> is_sameq n (EInt (-1)) = false ->
  tex vis Top (EExpr [sys "Power"; EExpr (sys "Plus" :: args); n]) = Some t ->
  exists s u, tex vis Top (EExpr (sys "Plus" :: args)) = Some s /\ tex vis Top n = Some u /\
    t = [XO; XL] ++ s ++ [XR; XC; XText "^"; XO] ++ u ++ [XC].
Proof.
  intros vis args n t L A B C H. rewrite tex_power in H by assumption. rewrite tex_sum in * by assumption.
  destruct (all_some (map (tex vis (Under (sysname "Plus"))) args)) as [l|]; [|discriminate H]. cbn [option_map] in *.
  destruct (tex vis Top n) as [u|]; [|discriminate H]. exists (xsum l), u. split; [|split; [reflexivity|]].
  - replace (needs_parens (sysname "Plus") Top) with false by reflexivity. reflexivity.
  - replace (needs_parens (sysname "Plus") (Under (sysname "Power"))) with true in H by (vm_compute; reflexivity).
    replace (needs_parens (sysname "Power") Top) with false in H by reflexivity. injection H as <-. unfold xparens.
    cbn [app]. do 2 f_equal. rewrite <- app_assoc. reflexivity.
Qed.
Print Assumptions C139_sum_base.
(* a sum as a term of a sum too; a power as a term is not *)
Theorem C139_terms : forall vis args a n, 1 < List.length args ->
  (forall s, tex vis Top (EExpr (sys "Plus" :: args)) = Some s ->
    tex vis (Under (sysname "Plus")) (EExpr (sys "Plus" :: args)) = Some ([XO; XL] ++ s ++ [XR; XC])) /\
  (is_sameq n (ERat 1 2) = false -> is_sameq n (ERat (-1) 2) = false -> is_sameq n (EInt (-1)) = false ->
    tex vis (Under (sysname "Plus")) (EExpr [sys "Power"; a; n]) = tex vis Top (EExpr [sys "Power"; a; n])).
Proof.
  intros vis args a n L. split.
  - intros s H. rewrite tex_sum in * by exact L. destruct (all_some _) as [l|]; [|discriminate H]. cbn [option_map] in *. injection H as <-.
    replace (needs_parens (sysname "Plus") (Under (sysname "Plus"))) with true by (vm_compute; reflexivity). reflexivity.
  - intros A B C. rewrite !tex_power by assumption.
    replace (needs_parens (sysname "Power") (Under (sysname "Plus"))) with false by (vm_compute; reflexivity). reflexivity.
Qed.
Print Assumptions C139_terms.

(* 1 + Sin[x]^(a + b), and (1 - foo)^(1/2) *)
Definition vis0 (s : string) : string := substring 7 100 s. (* System` and Global` *)
Definition g (s : string) : ex := ESym (append "Global`" s).
Example C139_ex :
  tex vis0 Top (EExpr [sys "Plus"; EInt 1; EExpr [sys "Power"; EExpr [sys "Sin"; g "x"]; EExpr [sys "Plus"; g "a"; g "b"]]]) =
    Some [XInt 1; XText " + "; XText "\sin"; XL; XText "x"; XR; XText "^"; XO; XText "a"; XText " + "; XText "b"; XC] /\
  tex vis0 Top (EExpr [sys "Power"; EExpr [sys "Plus"; EInt 1; g "foo"; EInt (-2)]; g "n"]) =
    Some [XO; XL; XInt 1; XText " + "; XText "\text"; XO; XText "foo"; XC; XText " - "; XInt 2; XR; XC; XText "^"; XO; XText "n"; XC].
Proof. split; vm_compute; reflexivity. Qed.
Example C139_meets : tex vis0 Top (EExpr [sys "Power"; EInt (-3); g "n"]) = Some [XMinus; XInt 3; XText "^"; XO; XText "n"; XC] /\
  vis0 (sysname "E") = "E"%string /\ vis0 "Global`e" = "e"%string.
Proof. repeat split; vm_compute; reflexivity. Qed.
