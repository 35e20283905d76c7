(* Proofs for C65: what is printed has the right value. *)
From Verif Require Import M_Syntax M_Float M_Hash M_InputForm S_InputForm P_InputForm.
From Coq Require Import Ring.
Open Scope nat_scope.

Section Val.
Variable J : interp.
Notation "a [+] b" := (radd J a b) (at level 50, left associativity).
Notation "a [*] b" := (rmul J a b) (at level 40, left associativity).
Notation val := (value J).
Lemma Rth : ring_theory (r0 J) (r1 J) (radd J) (rmul J) (fun a b => a [+] rneg J b) (rneg J) (@eq (R J)).
Proof.
  constructor; intros.
  - apply add_0. - apply add_comm. - apply add_assoc. - apply mul_1. - apply mul_comm. - apply mul_assoc. - apply distr. - reflexivity. - apply add_neg.
Qed.
Add Ring Jring : Rth.

Lemma int_0 : rint J 0 = r0 J.
Proof. pose proof (int_add J 0 0) as H. cbn in H. assert (E : rint J 0 [+] rneg J (rint J 0) = rint J 0 [+] rint J 0 [+] rneg J (rint J 0)) by (rewrite <- H; reflexivity). ring_simplify in E. symmetry. exact E. Qed.
Lemma int_neg z : rint J (- z) = rneg J (rint J z).
Proof. pose proof (int_add J z (- z)) as H. rewrite Z.add_opp_diag_r, int_0 in H. assert (E : r0 J [+] rneg J (rint J z) = rint J z [+] rint J (- z) [+] rneg J (rint J z)) by (rewrite H; reflexivity). ring_simplify in E. symmetry. exact E. Qed.
Lemma int_m1 : rint J (-1) = rneg J (r1 J).
Proof. change (-1)%Z with (- (1))%Z. rewrite int_neg, int_1. reflexivity. Qed.

Lemma val_plus a b : val (e_plus a b) = val a [+] val b.
Proof. change (val (e_plus a b)) with (val a [+] (val b [+] r0 J)). ring. Qed.
Lemma val_times a b : val (e_times a b) = val a [*] val b.
Proof. change (val (e_times a b)) with (val a [*] (val b [*] r1 J)). ring. Qed.
Lemma val_pow a b : val (e_pow a b) = rpow J (val a) (val b).
Proof. reflexivity. Qed.
Lemma val_neg a : val (e_neg a) = rneg J (val a).
Proof. unfold e_neg. rewrite val_times. change (val (EInt (-1))) with (rint J (-1)). rewrite int_m1. ring. Qed.
Lemma val_div a b : val (e_times a (e_pow b (EInt (-1)))) = val a [*] rinv J (val b).
Proof. rewrite val_times, val_pow. change (val (EInt (-1))) with (rint J (-1)). rewrite pow_inv. reflexivity. Qed.

Lemma neg_mul_l a b : rneg J (a [*] b) = rneg J a [*] b.
Proof. ring. Qed.

(* contexts in which arithmetic is printed *)
Definition ctx (p : prev) : Prop := p = Top \/ p = Under (sysname "Plus") \/ p = Under (sysname "Times") \/ p = Under (sysname "Power").

(* a text of level l for the value v *)
Definition T (l : lv) (ts : list tok) (v : R J) : Prop := exists t, G l ts [t] /\ val t = v.
Lemma T_prim_fac ts v : T LPrim ts v -> T LFac ts v.
Proof. intros [t [H E]]. exists t. split; [apply g_prim; exact H|exact E]. Qed.
Lemma T_fac_prod ts v : T LFac ts v -> T LProd ts v.
Proof. intros [t [H E]]. exists t. split; [apply g_fac; exact H|exact E]. Qed.
Lemma T_prod_sum ts v : T LProd ts v -> T LSum ts v.
Proof. intros [t [H E]]. exists t. split; [apply g_prod; exact H|exact E]. Qed.
Lemma T_paren ts v : T LSum ts v -> T LPrim (TLP :: ts ++ [TRP]) v.
Proof. intros [t [H E]]. exists t. split; [apply g_paren; exact H|exact E]. Qed.
Lemma T_neg ts v : T LFac ts v -> hd_error ts <> Some TMinus -> T LFac (TMinus :: ts) (rneg J v).
Proof. intros [t [H E]] N. exists (e_neg t). split; [apply g_neg; assumption|]. rewrite val_neg, E. reflexivity. Qed.
Lemma T_pow a b x y : T LPrim a x -> T LFac b y -> T LFac (a ++ TPow :: b) (rpow J x y).
Proof. intros [t [H E]] [u [H' E']]. exists (e_pow t u). split; [apply g_pow; assumption|]. rewrite val_pow, E, E'. reflexivity. Qed.
Lemma T_times a b x y : T LProd a x -> T LFac b y -> T LProd (a ++ TTimes :: b) (x [*] y).
Proof. intros [t [H E]] [u [H' E']]. exists (e_times t u). split; [apply g_times; assumption|]. rewrite val_times, E, E'. reflexivity. Qed.
Lemma T_div a b x y : T LProd a x -> T LFac b y -> T LProd (a ++ TDiv :: b) (x [*] rinv J y).
Proof. intros [t [H E]] [u [H' E']]. exists (e_times t (e_pow u (EInt (-1)))). split; [apply g_div; assumption|]. rewrite val_div, E, E'. reflexivity. Qed.
Lemma T_plus a b x y : T LSum a x -> T LProd b y -> T LSum (a ++ TSpace :: TPlus :: TSpace :: b) (x [+] y).
Proof. intros [t [H E]] [u [H' E']]. exists (e_plus t u). split; [apply g_plus; assumption|]. rewrite val_plus, E, E'. reflexivity. Qed.
Lemma T_minus a b x y : T LSum a x -> T LProd b y -> T LSum (a ++ TSpace :: TMinus :: TSpace :: b) (x [+] rneg J y).
Proof. intros [t [H E]] [u [H' E']]. exists (e_plus t (e_neg u)). split; [apply g_minus; assumption|]. rewrite val_plus, val_neg, E, E'. reflexivity. Qed.
Lemma T_nonempty l ts v : T l ts v -> ts <> [].
Proof. intros [t [H _]] ->. exact (G_nil _ _ H). Qed.

(* taking the sign off a product *)
Lemma neg_prod_G l ts xs : G l ts xs -> forall r x, ts = TMinus :: r -> xs = [x] -> l = LFac \/ l = LProd ->
  hd_error r <> Some TMinus /\ T l r (rneg J (val x)).
Proof.
  induction 1 as [k|s|ts t H IH|s|s ts l H IH| |ts l H IH|ts t H IH|a b x y H1 IH1 H2 IH2|a x H IH Hh|ts t H IH|a b x y H1 IH1 H2 IH2|a b x y H1 IH1 H2 IH2|ts t H IH|a b x y H1 IH1 H2 IH2|a b x y H1 IH1 H2 IH2|ts t H IH|a b x l H1 IH1 H2 IH2];
  intros r z Er Ez Hl; try (destruct Hl; discriminate); try (injection Ez as <-).
  - exfalso. subst ts. destruct (G_first _ _ _ H) as [u [r' [E [O|[_ O]]]]]; [injection E as <- _; discriminate|congruence].
  - exfalso. destruct (G_first _ _ _ H1) as [u [r' [-> [O|[_ O]]]]]; [|congruence]. cbn [app] in Er. injection Er as -> _. discriminate.
  - injection Er as <-. split; [exact Hh|]. exists x. split; [exact H|]. rewrite val_neg. ring.
  - destruct (IH r t Er eq_refl (or_introl eq_refl)) as [A B]. split; [exact A|apply T_fac_prod; exact B].
  - destruct a as [|u a]; [destruct (G_nil _ _ H1)|]. cbn [app] in Er. injection Er as -> <-.
    destruct (IH1 a x eq_refl eq_refl (or_intror eq_refl)) as [A B]. split.
    + destruct a as [|w a]; [exfalso; exact (T_nonempty _ _ _ B eq_refl)|exact A].
    + rewrite val_times. replace (rneg J (val x [*] val y)) with (rneg J (val x) [*] val y) by ring. apply T_times; [exact B|]. exists y. split; [exact H2|reflexivity].
  - destruct a as [|u a]; [destruct (G_nil _ _ H1)|]. cbn [app] in Er. injection Er as -> <-.
    destruct (IH1 a x eq_refl eq_refl (or_intror eq_refl)) as [A B]. split.
    + destruct a as [|w a]; [exfalso; exact (T_nonempty _ _ _ B eq_refl)|exact A].
    + rewrite val_div. replace (rneg J (val x [*] rinv J (val y))) with (rneg J (val x) [*] rinv J (val y)) by ring. apply T_div; [exact B|]. exists y. split; [exact H2|reflexivity].
Qed.
Lemma neg_prod r v : T LProd (TMinus :: r) v -> T LProd r (rneg J v).
Proof. intros [t [H <-]]. apply (neg_prod_G _ _ _ H r t eq_refl eq_refl (or_intror eq_refl)). Qed.
Lemma put_neg_G l ts xs : G l ts xs -> forall x, xs = [x] -> l = LFac \/ l = LProd -> hd_error ts <> Some TMinus -> T l (TMinus :: ts) (rneg J (val x)).
Proof.
  induction 1 as [k|s|ts t H IH|s|s ts l H IH| |ts l H IH|ts t H IH|a b x y H1 IH1 H2 IH2|a x H IH Hh|ts t H IH|a b x y H1 IH1 H2 IH2|a b x y H1 IH1 H2 IH2|ts t H IH|a b x y H1 IH1 H2 IH2|a b x y H1 IH1 H2 IH2|ts t H IH|a b x l H1 IH1 H2 IH2];
  intros z Ez Hl Hn; try (destruct Hl; discriminate); try (injection Ez as <-).
  - apply T_neg; [|exact Hn]. exists t. split; [apply g_prim; exact H|reflexivity].
  - apply T_neg; [|exact Hn]. exists (e_pow x y). split; [apply g_pow; assumption|reflexivity].
  - destruct (Hn eq_refl).
  - apply T_fac_prod. apply IH; auto.
  - assert (Ha : hd_error a <> Some TMinus) by (destruct a; [discriminate|exact Hn]).
    rewrite val_times. replace (rneg J (val x [*] val y)) with (rneg J (val x) [*] val y) by ring. apply (T_times (TMinus :: a)); [apply IH1; auto|]. exists y. split; [exact H2|reflexivity].
  - assert (Ha : hd_error a <> Some TMinus) by (destruct a; [discriminate|exact Hn]).
    rewrite val_div. replace (rneg J (val x [*] rinv J (val y))) with (rneg J (val x) [*] rinv J (val y)) by ring. apply (T_div (TMinus :: a)); [apply IH1; auto|]. exists y. split; [exact H2|reflexivity].
Qed.
Lemma put_neg ts v : T LProd ts v -> hd_error ts <> Some TMinus -> T LProd (TMinus :: ts) (rneg J v).
Proof. intros [t [H <-]] N. apply (put_neg_G _ _ _ H t eq_refl (or_intror eq_refl) N). Qed.

(* ---- joining ---- *)
Lemma join_prod texts vs : Forall2 (T LFac) texts vs -> forall a v, T LProd a v -> texts <> [] ->
  T LProd (a ++ TTimes :: joined [TTimes] texts) (v [*] prod_of J vs).
Proof.
  induction 1 as [|t x ts xs H F IH]; intros a v Ha N; [congruence|]. cbn [prod_of fold_right]. fold (prod_of J xs). destruct ts as [|t' ts].
  - inversion F; subst. cbn [joined prod_of fold_right]. replace (v [*] (x [*] r1 J)) with (v [*] x) by ring. apply T_times; assumption.
  - change (joined [TTimes] (t :: t' :: ts)) with (t ++ [TTimes] ++ joined [TTimes] (t' :: ts)). replace (v [*] (x [*] prod_of J xs)) with (v [*] x [*] prod_of J xs) by ring.
    replace (a ++ TTimes :: t ++ [TTimes] ++ joined [TTimes] (t' :: ts)) with ((a ++ TTimes :: t) ++ TTimes :: joined [TTimes] (t' :: ts)) by (rewrite <- app_assoc; reflexivity).
    apply IH; [|discriminate]. apply T_times; assumption.
Qed.
Lemma joined_prod texts vs : Forall2 (T LFac) texts vs -> texts <> [] -> T LProd (joined [TTimes] texts) (prod_of J vs).
Proof.
  intros F N. destruct F as [|t x ts xs H F]; [congruence|]. destruct ts as [|t' ts].
  - inversion F; subst. cbn [joined prod_of fold_right]. replace (x [*] r1 J) with x by ring. apply T_fac_prod. exact H.
  - change (joined [TTimes] (t :: t' :: ts)) with (t ++ TTimes :: joined [TTimes] (t' :: ts)). change (prod_of J (x :: xs)) with (x [*] prod_of J xs). apply (join_prod _ _ F); [apply T_fac_prod; exact H|discriminate].
Qed.
Lemma sum_terms texts vs : Forall2 (T LProd) texts vs -> forall a v, T LSum a v -> T LSum (a ++ flat_map next_term texts) (v [+] sum_of J vs).
Proof.
  induction 1 as [|t x ts xs H F IH]; intros a v Ha.
  - cbn [flat_map sum_of fold_right]. rewrite app_nil_r. replace (v [+] r0 J) with v by ring. exact Ha.
  - cbn [flat_map sum_of fold_right]. fold (sum_of J xs). rewrite app_assoc. replace (v [+] (x [+] sum_of J xs)) with (v [+] x [+] sum_of J xs) by ring.
    apply IH. assert (K : (exists r, t = TMinus :: r) \/ next_term t = TSpace :: TPlus :: TSpace :: t) by (destruct t as [|u r]; [right; reflexivity|]; destruct u; try (right; reflexivity); left; eexists; reflexivity).
    destruct K as [[r ->]| ->].
    + cbn [next_term]. apply neg_prod in H. replace (v [+] x) with (v [+] rneg J (rneg J x)) by ring. apply T_minus; assumption.
    + apply T_plus; assumption.
Qed.

(* a text that strip_neg_one leaves alone, whatever other than '*' follows *)
Definition safe (ts : list tok) : Prop :=
  match ts with
  | [] => False
  | [TMinus] => False
  | TMinus :: TInt 1%N :: TTimes :: _ => False
  | _ => True
  end.
Lemma safe_strip ts tail : safe ts -> match tail with TTimes :: _ => False | _ => True end -> strip_neg_one (ts ++ tail) = None.
Proof.
  destruct ts as [|t ts]; [intros []|]. destruct t; try reflexivity. destruct ts as [|t ts]; [intros []|]. destruct t; try reflexivity.
  destruct n; try reflexivity. destruct p; try reflexivity. destruct ts as [|t ts].
  - intros _ H. destruct tail as [|u tail]; [reflexivity|]. destruct u; try reflexivity. destruct H.
  - intros H _. destruct t; try reflexivity. destruct H.
Qed.
Lemma safe_hd ts t : hd_error ts = Some t -> t <> TMinus -> safe ts.
Proof. destruct ts as [|u r]; [discriminate|]. intro E. injection E as ->. intro N. destruct t; try exact I. congruence. Qed.
Lemma safe_app ts tail : safe ts -> match tail with TTimes :: _ => False | _ => True end -> safe (ts ++ tail).
Proof.
  destruct ts as [|t ts]; [intros []|]. destruct t; try (intros; exact I). destruct ts as [|t ts]; [intros []|]. destruct t; try (intros; exact I).
  destruct n; try (intros; exact I). destruct p; try (intros; exact I). destruct ts as [|t ts].
  - intros _ H. cbn. destruct tail as [|u tail]; [exact I|]. destruct u; try exact I. destruct H.
  - intros H _. destruct t; try exact I. destruct H.
Qed.
(* the first factor of a product that strip_neg_one changes is -1 *)
Lemma strip_first t r s : safe t -> strip_neg_one (t ++ TTimes :: r) = Some s -> t = [TMinus; TInt 1] /\ s = r.
Proof.
  destruct t as [|u t]; [intros []|]. destruct u; try discriminate. destruct t as [|u t]; [intros []|]. destruct u; try discriminate.
  destruct n; try discriminate. destruct p; try discriminate. destruct t as [|u t].
  - intros _ E. cbn in E. injection E as <-. split; reflexivity.
  - intros H E. destruct u; try discriminate. destruct H.
Qed.
(* texts of factors that are not numbers *)
Definition plain (t : list tok) : Prop := hd_error t <> Some TMinus /\ forall r, t = TInt 1 :: r -> exists r', r = TPow :: r'.
Lemma plain_hd t u : hd_error t = Some u -> u <> TMinus -> u <> TInt 1 -> plain t.
Proof. intros E N M. split; [congruence|]. intros r ->. cbn in E. congruence. Qed.

Lemma minus_one_value v : T LFac [TMinus; TInt 1] v -> v = rneg J (r1 J).
Proof.
  intros [t [H <-]]. pose proof (G_read _ _ _ H t eq_refl [] I) as A. cbn [nosp filter is_space negb app] in A.
  assert (B : Rd PFac [TMinus; TInt 1] (e_neg (EInt 1), [])) by (exists 3; reflexivity).
  pose proof (Rd_fun _ _ _ _ A B) as E. injection E as ->. rewrite val_neg. cbn [value]. rewrite int_1. reflexivity.
Qed.

(* the product of two or more factors, when a leading -1* becomes - *)
Lemma strip_product texts vs : Forall2 (T LFac) texts vs -> Forall safe texts -> 2 <= length texts ->
  T LProd (joined [TTimes] texts) (prod_of J vs) /\
  forall s, strip_neg_one (joined [TTimes] texts) = Some s ->
    T LProd s (rneg J (prod_of J vs)) /\ s = joined [TTimes] (tl texts).
Proof.
  intros F S L. split; [apply joined_prod; [exact F|destruct texts; [cbn in L; lia|discriminate]]|].
  intros s E. destruct F as [|t x ts xs H F]; [discriminate|]. destruct ts as [|t' ts]; [cbn in L; lia|].
  change (joined [TTimes] (t :: t' :: ts)) with (t ++ TTimes :: joined [TTimes] (t' :: ts)) in E.
  inversion S; subst. destruct (strip_first _ _ _ ltac:(eassumption) E) as [-> ->]. split; [|reflexivity].
  apply minus_one_value in H. subst x. change (prod_of J (rneg J (r1 J) :: xs)) with (rneg J (r1 J) [*] prod_of J xs).
  replace (rneg J (rneg J (r1 J) [*] prod_of J xs)) with (prod_of J xs) by ring. apply joined_prod; [exact F|discriminate].
Qed.
Lemma plain_joined t ts : plain t -> t <> [] -> hd_error (joined [TTimes] (t :: ts)) <> Some TMinus /\ safe (TMinus :: joined [TTimes] (t :: ts)).
Proof.
  intros [H P] N. destruct t as [|u r]; [congruence|]. assert (E : exists r', joined [TTimes] ((u :: r) :: ts) = u :: r ++ r').
  { destruct ts; [exists []; cbn; rewrite app_nil_r; reflexivity|]. eexists. cbn [joined]. reflexivity. }
  destruct E as [r' ->]. split; [exact H|]. destruct u; try exact I. destruct n; try exact I. destruct p; try exact I.
  destruct (P r eq_refl) as [q ->]. exact I.
Qed.


(* ---- what is proved about every printed expression ---- *)
Definition U (h : string) : prev := Under (sysname h).
Definition claims (p : prev) (e : ex) (ts : list tok) : Prop :=
  T LSum ts (val e) /\ safe ts /\ (p <> Top -> T LProd ts (val e)) /\
  (p = U "Times" \/ p = U "Power" -> ~ fraction e -> T LFac ts (val e)) /\
  (p = U "Power" -> ~ negative e -> ~ fraction e -> T LPrim ts (val e)) /\
  (p = U "Times" -> ~ number e -> ~ fraction e -> plain ts).
Definition good (e : ex) : Prop := forall p, ctx p -> exists ts, pr p e = Some ts /\ claims p e ts.

Lemma claims_prim p e ts : T LPrim ts (val e) -> (~ number e -> plain ts) -> claims p e ts.
Proof.
  intros H P. pose proof (T_prim_fac _ _ H) as HF. pose proof (T_fac_prod _ _ HF) as HP. pose proof (T_prod_sum _ _ HP) as HS.
  split; [exact HS|]. split; [|split; [|split; [|split]]]; auto.
  destruct H as [t [H _]]. destruct (G_first _ _ _ H) as [u [r [-> [O|[_ O]]]]]; [|congruence]. apply (safe_hd _ u); [reflexivity|]. destruct u; discriminate.
Qed.
Lemma claims_paren p e ts : T LSum ts (val e) -> claims p e (TLP :: ts ++ [TRP]).
Proof. intro H. apply claims_prim; [apply T_paren; exact H|]. intros _. apply (plain_hd _ TLP); [reflexivity|discriminate..]. Qed.

Lemma np_plus p : ctx p -> needs_parens (sysname "Plus") p = match p with Top => false | _ => true end.
Proof. intros [->|[->|[->| ->]]]; reflexivity. Qed.
Lemma np_times p : ctx p -> (needs_parens (sysname "Times") p = true /\ (p = U "Times" \/ p = U "Power")) \/ (needs_parens (sysname "Times") p = false /\ p <> U "Times" /\ p <> U "Power").
Proof. intros [->|[->|[->| ->]]]; [right|right|left|left]; (split; [reflexivity|]); try (split; discriminate); auto. Qed.
Lemma np_power p : ctx p -> (needs_parens (sysname "Power") p = true /\ p = U "Power") \/ (needs_parens (sysname "Power") p = false /\ p <> U "Power").
Proof. intros [->|[->|[->| ->]]]; [right|right|right|left]; (split; [reflexivity|]); try discriminate; auto. Qed.

Lemma int_text_ok z : T LFac (int_toks z) (rint J z) /\ safe (int_toks z) /\ ((0 <= z)%Z -> T LPrim (int_toks z) (rint J z)).
Proof.
  unfold int_toks. destruct (Z.ltb_spec z 0) as [L|L].
  - split; [|split; [destruct (Z.to_N (- z)) as [|p0]; [exact I|destruct p0; exact I]|lia]].
    replace (rint J z) with (rneg J (rint J (- z))) by (rewrite int_neg; ring). apply T_neg; [|discriminate]. apply T_prim_fac.
    eexists. split; [apply g_int|]. cbn [value]. rewrite Z2N.id by lia. reflexivity.
  - assert (H : T LPrim [TInt (Z.to_N z)] (rint J z)) by (eexists; split; [apply g_int|]; cbn [value]; rewrite Z2N.id by lia; reflexivity).
    split; [apply T_prim_fac; exact H|]. split; [exact I|]. intros _. exact H.
Qed.

Lemma good_int z : good (EInt z).
Proof.
  intros p Hp. exists (int_toks z). split; [reflexivity|]. destruct (int_text_ok z) as [F [S P]]. pose proof (T_fac_prod _ _ F) as HP. pose proof (T_prod_sum _ _ HP) as HS.
  split; [exact HS|]. split; [exact S|]. split; [auto|]. split; [auto|]. split.
  - intros _ N _. apply P. destruct (Z.lt_ge_cases z 0) as [L|L]; [|exact L]. destruct N. exists z. split; [reflexivity|exact L].
  - intros _ N _. destruct N. left. exists z. reflexivity.
Qed.
Lemma good_sym s : good (ESym s).
Proof.
  intros p Hp. exists [TName s]. split; [reflexivity|]. apply claims_prim; [eexists; split; [apply g_name|reflexivity]|].
  intros _. apply (plain_hd _ (TName s)); [reflexivity|discriminate..].
Qed.
Lemma good_rat n d : good (ERat n d).
Proof.
  intros p Hp. eexists. split; [reflexivity|]. destruct (int_text_ok n) as [F [S _]]. destruct (int_text_ok d) as [F' _].
  assert (B : T LProd (int_toks n ++ [TDiv] ++ int_toks d) (val (ERat n d))) by (apply T_div; [apply T_fac_prod; exact F|exact F']).
  destruct (np_times p Hp) as [[-> _]|[-> [N1 N2]]]; cbn [parens].
  - apply claims_paren. apply T_prod_sum. exact B.
  - split; [apply T_prod_sum; exact B|]. split; [apply safe_app; [exact S|exact I]|]. split; [auto|].
    split; [intros [E|E]; congruence|]. split; intro; congruence.
Qed.

Lemma all_some_good p args : ctx p -> Forall good args -> exists texts, all_some (map (pr p) args) = Some texts /\ Forall2 (claims p) args texts.
Proof.
  intros Hp. induction 1 as [|x l Hx Hl IH]; cbn [map all_some]; [exists []; split; [reflexivity|constructor]|].
  destruct (Hx p Hp) as [t [-> C]]. destruct IH as [ts [-> F]]. exists (t :: ts). split; [reflexivity|]. constructor; assumption.
Qed.

Lemma args_G args texts : Forall2 (claims Top) args texts -> args <> [] -> exists l, G LArgs (joined [TComma; TSpace] texts) l /\ map val l = map val args.
Proof.
  induction 1 as [|x t l ts C F IH]; intro N; [congruence|]. destruct C as [[y [Hy Ey]] _]. destruct F as [|x' t' l ts C F].
  - exists [y]. split; [apply g_arg; exact Hy|]. cbn [map]. rewrite Ey. reflexivity.
  - destruct (IH ltac:(discriminate)) as [l' [G' E']]. exists (y :: l').
    change (joined [TComma; TSpace] (t :: t' :: ts)) with (t ++ TComma :: TSpace :: joined [TComma; TSpace] (t' :: ts)). split; [apply g_args; assumption|].
    cbn [map] in E' |- *. rewrite Ey, E'. reflexivity.
Qed.
Lemma val_expr h l l' : map val l = map val l' -> val (EExpr (ESym h :: l)) = val (EExpr (ESym h :: l')).
Proof. intro E. cbn [value]. rewrite E. reflexivity. Qed.

Lemma default_ok p h args : Forall good args -> exists ts, option_map (call_text h) (all_some (map (pr Top) args)) = Some ts /\ claims p (EExpr (ESym h :: args)) ts.
Proof.
  intro H. destruct (all_some_good Top args (or_introl eq_refl) H) as [texts [-> F]]. eexists. split; [reflexivity|]. apply claims_prim.
  2:{ intros _. apply (plain_hd _ (TName h)); [reflexivity|discriminate..]. }
  unfold call_text. destruct args as [|x args].
  - inversion F; subst. eexists. split; [apply g_call0|reflexivity].
  - destruct (args_G _ _ F ltac:(discriminate)) as [l [HG E]]. eexists. split; [apply g_call; exact HG|]. apply val_expr. exact E.
Qed.
Lemma good_list args : Forall good args -> good (EExpr (sys "List" :: args)).
Proof.
  intros H p Hp. destruct (all_some_good Top args (or_introl eq_refl) H) as [texts [E F]].
  exists (TLC :: joined [TComma; TSpace] texts ++ [TRC]). split.
  { change (pr p (EExpr (sys "List" :: args))) with (option_map (fun ts => TLC :: joined [TComma; TSpace] ts ++ [TRC]) (all_some (map (pr Top) args))). rewrite E. reflexivity. }
  apply claims_prim. 2:{ intros _. apply (plain_hd _ TLC); [reflexivity|discriminate..]. }
  destruct args as [|x args].
  - inversion F; subst. eexists. split; [apply g_list0|reflexivity].
  - destruct (args_G _ _ F ltac:(discriminate)) as [l [HG E']]. eexists. split; [apply g_list; exact HG|]. apply val_expr. exact E'.
Qed.
Lemma good_call h args : Forall good args -> ~ In h special -> h <> sysname "Plus" -> h <> sysname "Times" -> h <> sysname "Power" -> good (EExpr (ESym h :: args)).
Proof.
  intros H Hs H1 H2 H3. destruct (String.eqb_spec h (sysname "List")) as [->|H4]; [apply good_list; exact H|]. intros p Hp.
  destruct (default_ok p h args H) as [ts [E C]]. exists ts. split; [|exact C]. cbn [pr].
  apply String.eqb_neq in H1, H2, H3, H4. rewrite H1, H2, H3, H4.
  destruct (existsb (String.eqb h) special) eqn:X; [|exact E]. apply existsb_exists in X. destruct X as [y [Hy Ey]]. apply String.eqb_eq in Ey. subst y. contradiction.
Qed.

Lemma good_plus args : Forall good args -> good (EExpr (sys "Plus" :: args)).
Proof.
  intros H p Hp.
  assert (E : pr p (EExpr (sys "Plus" :: args)) = if length args <? 2 then option_map (call_text (sysname "Plus")) (all_some (map (pr Top) args))
     else option_map (fun ts => parens (needs_parens (sysname "Plus") p) (sum_text ts)) (all_some (map (pr (U "Plus")) args))) by reflexivity.
  rewrite E. clear E. destruct (length args <? 2) eqn:L; [apply default_ok; exact H|].
  destruct (all_some_good (U "Plus") args (or_intror (or_introl eq_refl)) H) as [texts [-> F]]. cbn [option_map]. eexists. split; [reflexivity|].
  assert (B : T LSum (sum_text texts) (val (EExpr (sys "Plus" :: args))) /\ safe (sum_text texts)).
  { destruct F as [|x t l ts C F]; [discriminate|]. cbn [sum_text].
    change (val (EExpr (sys "Plus" :: x :: l))) with (val x [+] sum_of J (map val l)). split.
    - apply sum_terms; [|apply C]. clear - F. induction F as [|x t l ts C F IH]; [constructor|]. cbn [map]. constructor; [apply C; discriminate|exact IH].
    - apply safe_app; [apply C|]. destruct ts as [|t' ts]; [exact I|]. cbn [flat_map]. destruct t' as [|u r]; [exact I|]. destruct u; exact I. }
  destruct B as [B S]. rewrite np_plus by exact Hp. destruct p as [|h]; cbn [parens]; [|apply claims_paren; exact B].
  split; [exact B|]. split; [exact S|]. split; [congruence|]. split; [intros [X|X]; discriminate|]. split; intro; discriminate.
Qed.

(* ---- powers ---- *)
Lemma pr_power p b x : pr p (EExpr [sys "Power"; b; x]) =
  if is_sameq x (ERat 1 2) then option_map (fun t => TName (sysname "Sqrt") :: TLB :: t ++ [TRB]) (pr Top b)
  else if is_sameq x (ERat (-1) 2) then option_map (fun t => [TLP; TInt 1; TDiv; TName (sysname "Sqrt"); TLB] ++ t ++ [TRB; TRP]) (pr Top b)
  else if is_sameq x (EInt (-1)) then option_map (fun t => [TLP; TInt 1; TDiv; TLP] ++ t ++ [TRP; TRP]) (pr Top b)
  else option_map (infix [TPow] (sysname "Power") p) (all_some [pr (U "Power") b; pr (U "Power") x]).
Proof. reflexivity. Qed.
Lemma T_sqrt ts v : T LSum ts v -> T LPrim (TName (sysname "Sqrt") :: TLB :: ts ++ [TRB]) (rfun J (sysname "Sqrt") [v]).
Proof. intros [t [H <-]]. eexists. split; [apply g_call; apply g_arg; exact H|]. reflexivity. Qed.
Lemma T_one : T LProd [TInt 1] (r1 J).
Proof. apply T_fac_prod, T_prim_fac. eexists. split; [apply g_int|]. cbn [value]. apply int_1. Qed.
Lemma first_int_prim k r x : G LPrim (TInt k :: r) [x] -> r = [].
Proof. intro H. inversion H; subst; reflexivity. Qed.

Lemma good_pow b x : good b -> good x -> ~ negative b -> ~ fraction b -> ~ fraction x -> no_collision x -> good (EExpr [sys "Power"; b; x]).
Proof.
  intros Hb Hx Nb Fb Fx NC p Hp. rewrite pr_power.
  assert (EV : val (EExpr [sys "Power"; b; x]) = rpow J (val b) (val x)) by reflexivity.
  destruct (Hb Top (or_introl eq_refl)) as [tb [Eb [Sb _]]].
  destruct (is_sameq x (ERat 1 2)) eqn:E1.
  { apply NC in E1; [|left; reflexivity]. subst x. rewrite Eb. eexists. split; [reflexivity|]. apply claims_prim.
    - rewrite EV. cbn [value]. rewrite int_1, pow_sqrt. apply T_sqrt. exact Sb.
    - intros _. apply (plain_hd _ (TName (sysname "Sqrt"))); [reflexivity|discriminate..]. }
  destruct (is_sameq x (ERat (-1) 2)) eqn:E2.
  { apply NC in E2; [|right; left; reflexivity]. subst x. rewrite Eb. cbn [option_map]. eexists. split; [reflexivity|].
    replace ([TLP; TInt 1; TDiv; TName (sysname "Sqrt"); TLB] ++ tb ++ [TRB; TRP]) with (TLP :: ([TInt 1] ++ TDiv :: (TName (sysname "Sqrt") :: TLB :: tb ++ [TRB])) ++ [TRP]).
    2:{ cbn [app]. rewrite <- app_assoc. reflexivity. }
    apply claims_paren. apply T_prod_sum. rewrite EV. cbn [value]. rewrite pow_rsqrt.
    replace (rinv J (rfun J (sysname "Sqrt") [val b])) with (r1 J [*] rinv J (rfun J (sysname "Sqrt") [val b])) by ring.
    apply T_div; [apply T_one|]. apply T_prim_fac. apply T_sqrt. exact Sb. }
  destruct (is_sameq x (EInt (-1))) eqn:E3.
  { apply NC in E3; [|right; right; left; reflexivity]. subst x. rewrite Eb. cbn [option_map]. eexists. split; [reflexivity|].
    replace ([TLP; TInt 1; TDiv; TLP] ++ tb ++ [TRP; TRP]) with (TLP :: ([TInt 1] ++ TDiv :: (TLP :: tb ++ [TRP])) ++ [TRP]).
    2:{ cbn [app]. rewrite <- app_assoc. reflexivity. }
    apply claims_paren. apply T_prod_sum. rewrite EV. cbn [value]. rewrite pow_inv.
    replace (rinv J (val b)) with (r1 J [*] rinv J (val b)) by ring.
    apply T_div; [apply T_one|]. apply T_prim_fac. apply T_paren. exact Sb. }
  assert (CP : ctx (U "Power")) by (right; right; right; reflexivity).
  destruct (Hb _ CP) as [sb [-> [_ [_ [_ [_ [Pb _]]]]]]]. destruct (Hx _ CP) as [sx [-> [_ [_ [_ [Px _]]]]]]. cbn [all_some option_map].
  specialize (Pb eq_refl Nb Fb). specialize (Px (or_intror eq_refl) Fx). eexists. split; [reflexivity|]. unfold infix. cbn [joined].
  assert (B : T LFac (sb ++ [TPow] ++ sx) (val (EExpr [sys "Power"; b; x]))) by (rewrite EV; apply T_pow; assumption).
  pose proof (T_fac_prod _ _ B) as BP. pose proof (T_prod_sum _ _ BP) as BS.
  destruct (np_power p Hp) as [[-> _]|[-> N]]; cbn [parens]; [apply claims_paren; exact BS|].
  destruct Pb as [yb [Gb Eyb]]. destruct (G_first _ _ _ Gb) as [u [r [-> [O|[_ O]]]]]; [|congruence].
  split; [exact BS|]. split; [apply (safe_hd _ u); [reflexivity|destruct u; discriminate]|]. split; [auto|]. split; [auto|]. split; [congruence|].
  intros _ _ _. split; [cbn; destruct u; discriminate|]. intros r0 E0. cbn [app] in E0. injection E0 as -> E0. apply first_int_prim in Gb. subst r. cbn [app] in E0. eexists. symmetry. exact E0.
Qed.

(* ---- products ---- *)
Definition printer : Type := prev -> option (list tok).
Definition splitf (x : ex) : option printer * option printer :=
  match x with
  | EExpr [ESym g; b; EInt z] =>
      if String.eqb g (sysname "Power") && (wrap64 z =? -1)%Z then (None, Some (fun q => pr q b))
      else (Some (fun q => pr q x), None)
  | ERat n d => ((if (wrap64 n =? 1)%Z then None else Some (fun _ => Some (int_toks n))), Some (fun _ => Some (int_toks d)))
  | _ => (Some (fun q => pr q x), None)
  end.
Definition somes : list (option printer) -> list printer :=
  fold_right (fun (o : option printer) acc => match o with Some f => f :: acc | None => acc end) [].
Definition side (p : prev) (l : list printer) : option (list tok) :=
  match l with
  | [f] => f p
  | _ => option_map (infix [TTimes] (sysname "Times") p) (all_some (map (fun f => f (U "Times")) l))
  end.
Definition nums (args : list ex) := somes (map (fun x => fst (splitf x)) args).
Definition dens (args : list ex) := somes (map (fun x => snd (splitf x)) args).
Lemma pr_times p args : pr p (EExpr (sys "Times" :: args)) =
  match nums args, dens args with
  | [], _ => option_map (call_text (sysname "Times")) (all_some (map (pr Top) args))
  | [_], [] => option_map (call_text (sysname "Times")) (all_some (map (pr Top) args))
  | _, _ :: _ =>
      match side p (nums args), side p (dens args) with
      | Some n, Some d =>
          match strip_neg_one n with
          | Some n' => Some ([TMinus; TLP] ++ n' ++ [TRP; TDiv; TLP] ++ d ++ [TRP])
          | None => Some ([TLP] ++ n ++ [TRP; TDiv; TLP] ++ d ++ [TRP])
          end
      | _, _ => None
      end
  | _, [] => option_map (fun r => match strip_neg_one r with Some r' => TMinus :: r' | None => r end) (side p (nums args))
  end.
Proof. reflexivity. Qed.

Definition goodf (f : printer) (v : R J) (pl : Prop) : Prop := forall p, ctx p -> exists ts, f p = Some ts /\
  T LSum ts v /\ safe ts /\ (p = U "Times" -> T LFac ts v /\ (pl -> plain ts)).
Lemma good_goodf x : good x -> ~ fraction x -> goodf (fun q => pr q x) (val x) (~ number x).
Proof.
  intros H F p Hp. destruct (H p Hp) as [ts [E [A [B [_ [C [_ D]]]]]]]. exists ts. split; [exact E|]. split; [exact A|]. split; [exact B|].
  intro Ep. split; [apply C; auto|intro; apply D; auto].
Qed.
Lemma goodf_int z : goodf (fun _ => Some (int_toks z)) (rint J z) False.
Proof. intros p Hp. destruct (int_text_ok z) as [A [B _]]. exists (int_toks z). split; [reflexivity|]. split; [apply T_prod_sum, T_fac_prod; exact A|]. split; [exact B|]. intros _. split; [exact A|intros []]. Qed.
Lemma goodf_weak f v (P Q : Prop) : goodf f v P -> (Q -> P) -> goodf f v Q.
Proof. intros H W p Hp. destruct (H p Hp) as [ts [E [A [B C]]]]. exists ts. split; [exact E|]. split; [exact A|]. split; [exact B|]. intro Ep. destruct (C Ep) as [C1 C2]. split; auto. Qed.

Definition okopt (o : option printer) (v : option (R J)) (pl : Prop) : Prop :=
  match o, v with Some f, Some w => goodf f w pl | None, None => True | _, _ => False end.
Definition onum (v : option (R J)) : R J := match v with Some w => w | None => r1 J end.
Definition oden (v : option (R J)) : R J := match v with Some w => rinv J w | None => r1 J end.

Lemma wrap_m1 z : wrap64 z = (-1)%Z -> low64 z = low64 (-1).
Proof. unfold wrap64, low64. intro H. assert (E : ((z + 2 ^ 63) mod 2 ^ 64 = 2 ^ 63 - 1)%Z) by lia. clear H. Z.div_mod_to_equations. lia. Qed.
Lemma wrap_1 z : wrap64 z = 1%Z -> low64 z = 1%Z.
Proof. unfold wrap64, low64. intro H. assert (E : ((z + 2 ^ 63) mod 2 ^ 64 = 2 ^ 63 + 1)%Z) by lia. clear H. Z.div_mod_to_equations. lia. Qed.

Lemma faithful_power b x : faithful (EExpr [sys "Power"; b; x]) ->
  faithful b /\ faithful x /\ ~ negative b /\ ~ fraction b /\ ~ fraction x /\ (forall z, x = EInt z -> low64 z = low64 (-1) -> z = (-1)%Z) /\ no_collision x.
Proof. intro H. inversion H as [ | | | args F E | args F1 F2 F3 E | b' x' H1 H2 H3 H4 H5 H6 H7 E | h args F N1 N2 N3 N4 E]; subst; [tauto|]. destruct (N4 eq_refl). Qed.

Lemma split_ok x : faithful x -> ~ fraction x -> good x -> (forall b z, x = EExpr [sys "Power"; b; EInt z] -> good b) ->
  exists vn vd, okopt (fst (splitf x)) vn (~ number x) /\ okopt (snd (splitf x)) vd False /\ val x = onum vn [*] oden vd /\
    (vd <> None -> fraction_factor x).
Proof.
  intros Hf Nf Hg Hb.
  assert (K : splitf x = (Some (fun q => pr q x), None) -> exists vn vd, okopt (fst (splitf x)) vn (~ number x) /\ okopt (snd (splitf x)) vd False /\ val x = onum vn [*] oden vd /\ (vd <> None -> fraction_factor x)).
  { intros ->. exists (Some (val x)), None. split; [apply good_goodf; assumption|]. split; [exact I|]. split; [cbn; ring|congruence]. }
  destruct x as [s|s|z|n d|f|a c|l]; try (apply K; reflexivity).
  - cbn [splitf fst snd]. inversion Hf; subst. destruct (Z.eqb_spec (wrap64 n) 1) as [W|W].
    + apply wrap_1 in W. exists None, (Some (rint J d)). split; [exact I|]. split; [apply goodf_int|]. split; [|intros _; left; eauto]. cbn [value onum oden].
      match goal with H : low64 n = 1%Z -> n = 1%Z |- _ => rewrite (H W) end. rewrite int_1. reflexivity.
    + exists (Some (rint J n)), (Some (rint J d)). split; [|split; [apply goodf_int|split; [reflexivity|intros _; left; eauto]]].
      apply (goodf_weak _ _ False); [apply goodf_int|]. intro N. apply N. right. eauto.
  - destruct l as [|h l]; [apply K; reflexivity|]. destruct h as [g|s|z|n d|f|a c|l']; try (apply K; reflexivity).
    destruct l as [|b l]; [apply K; reflexivity|]. destruct l as [|y l]; [apply K; reflexivity|]. destruct y as [s|s|z|n d|f|a c|l']; try (apply K; reflexivity).
    destruct l; [|apply K; reflexivity]. cbn [splitf] in K |- *. destruct (String.eqb_spec g (sysname "Power")) as [->|]; cbn [andb] in K |- *; [|apply K; reflexivity].
    destruct (Z.eqb_spec (wrap64 z) (-1)) as [W|W]; [|apply K; reflexivity]. clear K. cbn [fst snd].
    destruct (faithful_power _ _ Hf) as [_ [_ [_ [Fb [_ [Hz _]]]]]]. specialize (Hz z eq_refl (wrap_m1 _ W)). subst z.
    exists None, (Some (val b)). split; [exact I|]. split; [|split].
    + apply (goodf_weak _ _ (~ number b)); [|intros []]. apply good_goodf; [|exact Fb]. apply (Hb b (-1)%Z). reflexivity.
    + change (val (EExpr [ESym (sysname "Power"); b; EInt (-1)])) with (rpow J (val b) (rint J (-1))). rewrite pow_inv. cbn [onum oden]. ring.
    + intros _. right. exists b. reflexivity.
Qed.

(* the numerators, the denominators and their values *)
Lemma splits_ok args (pl : Prop) : Forall (fun x => faithful x /\ ~ fraction x /\ good x /\ (forall b z, x = EExpr [sys "Power"; b; EInt z] -> good b) /\ (pl -> ~ number x)) args ->
  exists vn vd, Forall2 (fun f v => goodf f v pl) (nums args) vn /\ Forall2 (fun f v => goodf f v False) (dens args) vd /\
    prod_of J (map val args) = prod_of J vn [*] prod_of J (map (rinv J) vd) /\
    (vd <> [] -> exists x, In x args /\ fraction_factor x).
Proof.
  induction 1 as [|x l [A [B [C [D E]]]] H IH].
  - exists [], []. split; [constructor|]. split; [constructor|]. split; [cbn; ring|congruence].
  - destruct IH as [vn [vd [I1 [I2 [I3 I4]]]]]. destruct (split_ok x A B C D) as [on [od [S1 [S2 [S3 S4]]]]].
    exists (match on with Some v => v :: vn | None => vn end), (match od with Some v => v :: vd | None => vd end).
    unfold nums, dens. cbn [map somes fold_right]. fold (somes (map (fun x => fst (splitf x)) l)) (somes (map (fun x => snd (splitf x)) l)). fold (nums l) (dens l).
    split; [|split; [|split]].
    + destruct (fst (splitf x)) as [f|], on as [v|]; cbn in S1; try contradiction; [|exact I1]. constructor; [|exact I1]. apply (goodf_weak _ _ _ _ S1 E).
    + destruct (snd (splitf x)) as [f|], od as [v|]; cbn in S2; try contradiction; [|exact I2]. constructor; assumption.
    + cbn [map prod_of fold_right]. fold (prod_of J (map val l)). rewrite I3, S3. destruct on, od; cbn [onum oden map prod_of fold_right]; fold (prod_of J vn) (prod_of J (map (rinv J) vd)); ring.
    + intro N. destruct od as [v|]; [exists x; split; [left; reflexivity|apply S4; discriminate]|]. destruct (I4 N) as [y [Hy Fy]]. exists y. split; [right; exact Hy|exact Fy].
Qed.

Lemma inv_prod vd : vd <> [] -> prod_of J (map (rinv J) vd) = rinv J (prod_of J vd).
Proof.
  induction vd as [|v vd IH]; intro N; [congruence|]. destruct vd as [|w vd].
  - cbn. replace (v [*] r1 J) with v by ring. ring.
  - specialize (IH ltac:(discriminate)). change (prod_of J (map (rinv J) (v :: w :: vd))) with (rinv J v [*] prod_of J (map (rinv J) (w :: vd))). rewrite IH.
    change (prod_of J (v :: w :: vd)) with (v [*] prod_of J (w :: vd)). rewrite inv_mul. reflexivity.
Qed.

Lemma factors l vs pl : Forall2 (fun f v => goodf f v pl) l vs -> exists texts, all_some (map (fun f => f (U "Times")) l) = Some texts /\
  Forall2 (T LFac) texts vs /\ Forall safe texts /\ length texts = length l /\ (pl -> Forall plain texts).
Proof.
  induction 1 as [|f v l vs H F IH]; cbn [map all_some].
  - exists []. repeat split; constructor.
  - destruct IH as [ts [E [I1 [I2 [I3 I4]]]]]. destruct (H (U "Times") ltac:(right; right; left; reflexivity)) as [t [Et [_ [S C]]]]. destruct (C eq_refl) as [C1 C2].
    exists (t :: ts). rewrite Et, E. split; [reflexivity|]. split; [constructor; assumption|]. split; [constructor; assumption|]. split; [cbn; congruence|]. intro P. constructor; auto.
Qed.
Lemma strip_paren b : strip_neg_one (TLP :: b) = None. Proof. reflexivity. Qed.

Lemma side_ok p l vs pl : ctx p -> l <> [] -> Forall2 (fun f v => goodf f v pl) l vs -> exists ts, side p l = Some ts /\ T LSum ts (prod_of J vs) /\
  forall s, strip_neg_one ts = Some s -> T LSum s (rneg J (prod_of J vs)).
Proof.
  intros Hp N F. destruct l as [|f l]; [congruence|]. destruct l as [|g l].
  - inversion F as [|? v ? ? H F']; subst. inversion F'; subst. destruct (H p Hp) as [ts [E [A [B _]]]]. exists ts. split; [exact E|].
    cbn [prod_of fold_right]. replace (v [*] r1 J) with v by ring. split; [exact A|]. intros s Es. pose proof (safe_strip ts [] B I) as Q. rewrite app_nil_r in Q. congruence.
  - destruct (factors _ _ _ F) as [texts [E [I1 [I2 [I3 _]]]]]. cbn [side]. rewrite E. cbn [option_map]. eexists. split; [reflexivity|]. unfold infix.
    destruct (strip_product texts vs I1 I2 ltac:(rewrite I3; cbn; lia)) as [K1 K2].
    destruct (needs_parens (sysname "Times") p); cbn [parens].
    + split; [apply T_prod_sum, T_fac_prod, T_prim_fac, T_paren, T_prod_sum; exact K1|]. intros s Es. discriminate.
    + split; [apply T_prod_sum; exact K1|]. intros s Es. apply T_prod_sum. apply K2. exact Es.
Qed.

Lemma safe_of_strip ts : 2 <= length ts -> strip_neg_one ts = None -> safe ts.
Proof.
  destruct ts as [|t ts]; [cbn; lia|]. destruct t; try (intros; exact I). destruct ts as [|u ts]; [cbn; lia|]. destruct u; try (intros; exact I).
  destruct n; try (intros; exact I). destruct p; try (intros; exact I). destruct ts as [|u ts]; [intros; exact I|]. destruct u; try (intros; exact I). intros _ E. discriminate.
Qed.

Lemma num_tail x l : exists h, nums (x :: l) = h ++ nums l /\ length h <= 1.
Proof. unfold nums. cbn [map somes fold_right]. destruct (fst (splitf x)) as [f|]; [exists [f]|exists []]; split; try reflexivity; cbn; lia. Qed.

Lemma good_times args : Forall (fun x => faithful x /\ ~ fraction x /\ good x /\ (forall b z, x = EExpr [sys "Power"; b; EInt z] -> good b)) args ->
  Forall (fun x => ~ number x) (tl args) -> good (EExpr (sys "Times" :: args)).
Proof.
  intros H HT p Hp. rewrite pr_times.
  assert (HG : Forall good args) by (eapply Forall_impl; [|exact H]; cbn; tauto).
  assert (H0 : Forall (fun x => faithful x /\ ~ fraction x /\ good x /\ (forall b z, x = EExpr [sys "Power"; b; EInt z] -> good b) /\ (False -> ~ number x)) args)
    by (eapply Forall_impl; [|exact H]; cbn; tauto).
  destruct (splits_ok args False H0) as [vn [vd [N [D [EV FR]]]]].
  assert (EV' : val (EExpr (sys "Times" :: args)) = prod_of J vn [*] prod_of J (map (rinv J) vd)) by exact EV.
  destruct (nums args) as [|f nl] eqn:EN; [apply default_ok; exact HG|].
  destruct (dens args) as [|g dl] eqn:ED.
  - (* no denominator *)
    inversion D; subst vd. assert (EV2 : val (EExpr (sys "Times" :: args)) = prod_of J vn) by (rewrite EV'; cbn [map prod_of fold_right]; change (fold_right (rmul J) (r1 J) vn) with (prod_of J vn); ring). clear EV'. rename EV2 into EV'.
    destruct nl as [|f2 nl]; [apply default_ok; exact HG|].
    destruct (factors _ _ _ N) as [texts [E [I1 [I2 [I3 _]]]]].
    assert (PL : exists t t2 ts, texts = t :: t2 :: ts /\ plain t2).
    { destruct args as [|x l]; [discriminate|]. cbn [tl] in HT. destruct (num_tail x l) as [h [Eh Lh]]. rewrite EN in Eh.
      assert (Hl : Forall (fun x => faithful x /\ ~ fraction x /\ good x /\ (forall b z, x = EExpr [sys "Power"; b; EInt z] -> good b) /\ (True -> ~ number x)) l).
      { inversion H as [|? ? _ Hl']; subst. clear - Hl' HT. revert HT. induction Hl' as [|y l Hy Hl IH]; intro HT; [constructor|]. inversion HT; subst. constructor; [tauto|apply IH; assumption]. }
      destruct (splits_ok l True Hl) as [vn' [vd' [N' _]]]. destruct (factors _ _ _ N') as [texts' [E' [_ [_ [L' P']]]]]. specialize (P' I).
      assert (ET : exists hs, texts = hs ++ texts' /\ length hs = length h).
      { rewrite Eh in E. clear - E E'. revert texts E. induction h as [|q h IH]; intros texts E; cbn [app map all_some] in E.
        - exists []. split; [cbn [app]; congruence|reflexivity].
        - destruct (q (U "Times")) as [t|]; [|discriminate]. match type of E with option_map _ ?x = _ => destruct x as [ts|] eqn:Q end; [|discriminate]. cbn [option_map] in E. injection E as <-.
          destruct (IH ts eq_refl) as [hs [-> Lh]]. exists (t :: hs). split; [reflexivity|cbn; congruence]. }
      destruct ET as [hs [-> Lhs]]. destruct hs as [|a [|a' hs]]; [| |cbn in Lhs; lia].
      - cbn [app] in *. destruct texts' as [|t [|t2 ts]]; cbn in I3; try lia. exists t, t2, ts. split; [reflexivity|]. inversion P' as [|? ? _ P'']; subst. inversion P''; assumption.
      - cbn [app] in *. destruct texts' as [|t2 ts]; cbn in I3; try lia. exists a, t2, ts. split; [reflexivity|]. inversion P'; assumption. }
    destruct PL as [t [t2 [ts [ET PL]]]].
    cbn [side]. rewrite E. cbn [option_map]. unfold infix.
    destruct (strip_product texts vn I1 I2 ltac:(rewrite I3; cbn; lia)) as [K1 K2].
    destruct (np_times p Hp) as [[-> _]|[-> [N1 N2]]]; cbn [parens].
    + rewrite strip_paren. eexists. split; [reflexivity|]. apply claims_paren. rewrite EV'. apply T_prod_sum. exact K1.
    + assert (C : forall txt, T LProd txt (prod_of J vn) -> safe txt -> claims p (EExpr (sys "Times" :: args)) txt).
      { intros txt HP HS. unfold claims. rewrite EV'. split; [apply T_prod_sum; exact HP|]. split; [exact HS|]. split; [auto|]. split; [intros [X|X]; congruence|]. split; intro; congruence. }
      destruct (strip_neg_one (joined [TTimes] texts)) as [s|] eqn:ES.
      * eexists. split; [reflexivity|]. destruct (K2 s eq_refl) as [K3 Es]. rewrite ET in Es. cbn [tl] in Es.
        assert (t2 <> []) by (rewrite ET in I1; inversion I1 as [|? ? ? ? _ I1']; subst; inversion I1' as [|? ? ? ? Q _]; subst; apply (T_nonempty _ _ _ Q)).
        destruct (plain_joined t2 ts PL ltac:(assumption)) as [Q1 Q2]. rewrite <- Es in Q1, Q2. apply C; [|exact Q2].
        replace (prod_of J vn) with (rneg J (rneg J (prod_of J vn))) by ring. apply put_neg; assumption.
      * eexists. split; [reflexivity|]. apply C; [exact K1|]. apply safe_of_strip; [|exact ES]. rewrite ET.
        change (joined [TTimes] (t :: t2 :: ts)) with (t ++ TTimes :: joined [TTimes] (t2 :: ts)). rewrite app_length. cbn [length].
        assert (t <> []) by (rewrite ET in I1; inversion I1 as [|? ? ? ? Q _]; subst; apply (T_nonempty _ _ _ Q)). destruct t; [congruence|]. cbn. lia.
  - (* with a denominator *)
    assert (Nvd : vd <> []) by (intros ->; inversion D).
    assert (FR' : fraction (EExpr (sys "Times" :: args))) by (destruct (FR Nvd) as [x [Hx Fx]]; exists args, x; auto).
    rewrite inv_prod in EV' by exact Nvd.
    destruct (side_ok p (f :: nl) vn False Hp ltac:(discriminate) N) as [tn [En [An Sn]]].
    destruct (side_ok p (g :: dl) vd False Hp ltac:(discriminate) D) as [td [Ed [Ad _]]].
    assert (C : forall txt, T LProd txt (prod_of J vn [*] rinv J (prod_of J vd)) -> safe txt -> claims p (EExpr (sys "Times" :: args)) txt).
    { intros txt HP HS. unfold claims. rewrite EV'. split; [apply T_prod_sum; exact HP|]. split; [exact HS|]. split; [auto|]. split; [intros _ X; contradiction|]. split; intros; contradiction. }
    assert (K : exists ts, match side p (f :: nl), side p (g :: dl) with
      | Some n, Some d =>
          match strip_neg_one n with
          | Some n' => Some ([TMinus; TLP] ++ n' ++ [TRP; TDiv; TLP] ++ d ++ [TRP])
          | None => Some ([TLP] ++ n ++ [TRP; TDiv; TLP] ++ d ++ [TRP])
          end
      | _, _ => None
      end = Some ts /\ claims p (EExpr (sys "Times" :: args)) ts).
    { rewrite En, Ed. destruct (strip_neg_one tn) as [s|] eqn:ES.
      - eexists. split; [reflexivity|]. apply C; [|exact I].
        replace ([TMinus; TLP] ++ s ++ [TRP; TDiv; TLP] ++ td ++ [TRP]) with ((TMinus :: TLP :: s ++ [TRP]) ++ TDiv :: (TLP :: td ++ [TRP])) by (cbn [app]; rewrite <- !app_assoc; reflexivity).
        replace (prod_of J vn) with (rneg J (rneg J (prod_of J vn))) by ring. apply T_div.
        + apply T_fac_prod. apply T_neg; [|discriminate]. apply T_prim_fac, T_paren. apply Sn. reflexivity.
        + apply T_prim_fac, T_paren. exact Ad.
      - eexists. split; [reflexivity|]. apply C; [|exact I].
        replace ([TLP] ++ tn ++ [TRP; TDiv; TLP] ++ td ++ [TRP]) with ((TLP :: tn ++ [TRP]) ++ TDiv :: (TLP :: td ++ [TRP])) by (cbn [app]; rewrite <- !app_assoc; reflexivity).
        apply T_div; [apply T_fac_prod, T_prim_fac, T_paren; exact An|]. apply T_prim_fac, T_paren. exact Ad. }
    destruct nl; exact K.
Qed.

Lemma in_size x h l : In x l -> ex_size x < ex_size (EExpr (h :: l)).
Proof. intro H. rewrite ex_size_expr. pose proof (list_size_in x (h :: l) (or_intror H)). lia. Qed.

Lemma faithful_good : forall n e, ex_size e < n -> faithful e -> good e.
Proof.
  induction n as [|n IH]; intros e L F; [lia|].
  destruct F as [s|z|a d W|args F|args F1 F2 F3|b x Fb Fx N1 N2 N3 Z1 NC|h args F S P1 P2 P3].
  - apply good_sym. - apply good_int. - apply good_rat.
  - apply good_plus. rewrite Forall_forall in *. intros x Hx. apply IH; [|apply F; exact Hx]. pose proof (in_size x (sys "Plus") _ Hx). lia.
  - apply good_times; [|exact F3]. rewrite Forall_forall in *. intros x Hx. pose proof (in_size x (sys "Times") _ Hx) as Sx. split; [apply F1; exact Hx|]. split; [apply F2; exact Hx|].
    split; [apply IH; [lia|apply F1; exact Hx]|]. intros b z ->. apply IH.
    + pose proof (in_size b (sys "Power") [b; EInt z] (or_introl eq_refl)). lia.
    + specialize (F1 _ Hx). apply faithful_power in F1. apply F1.
  - apply good_pow; try assumption; apply IH; try assumption.
    + pose proof (in_size b (sys "Power") [b; x] (or_introl eq_refl)). lia.
    + pose proof (in_size x (sys "Power") [b; x] (or_intror (or_introl eq_refl))). lia.
  - apply good_call; try assumption. rewrite Forall_forall in *. intros x Hx. apply IH; [|apply F; exact Hx]. pose proof (in_size x (ESym h) _ Hx). lia.
Qed.

Lemma printed_value e : faithful e -> exists ts t, input_form e = Some ts /\ reads ts t /\ val t = val e.
Proof.
  intro F. destruct (faithful_good _ e (Nat.lt_succ_diag_r _) F Top (or_introl eq_refl)) as [ts [E [[t [H V]] _]]].
  exists ts, t. split; [exact E|]. split; [apply G_reads; exact H|exact V].
Qed.

End Val.
