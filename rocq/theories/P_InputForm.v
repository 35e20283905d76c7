(* Proofs for C65: printed arithmetic is read back with the same value. *)
From Verif Require Import M_Syntax M_Float M_Hash M_InputForm S_InputForm.
Open Scope nat_scope.

(* ---- the reader ---- *)
Lemma rd_mono1 : forall n ph ts r, rd n ph ts = Some r -> rd (S n) ph ts = Some r.
Proof.
  induction n as [|n IH]; intros ph ts r H; [discriminate|].
  cbn [rd] in H. remember (S n) as m. cbn [rd].
  destruct ph.
  - destruct (rd n PProd ts) as [[a q]|] eqn:E; [|discriminate]. subst m. rewrite (IH _ _ _ E). apply IH. exact H.
  - destruct ts as [|t q]; [exact H|]. destruct t; try exact H;
    (destruct (rd n PProd q) as [[b q']|] eqn:E; [|discriminate]; subst m; rewrite (IH _ _ _ E); apply IH; exact H).
  - destruct (rd n PFac ts) as [[a q]|] eqn:E; [|discriminate]. subst m. rewrite (IH _ _ _ E). apply IH. exact H.
  - destruct ts as [|t q]; [exact H|]. destruct t; try exact H;
    (destruct (rd n PFac q) as [[b q']|] eqn:E; [|discriminate]; subst m; rewrite (IH _ _ _ E); apply IH; exact H).
  - destruct ts as [|t q].
    + destruct (rd n PPrim []) as [[a q]|] eqn:E; [|discriminate]. subst m. rewrite (IH _ _ _ E).
      destruct q as [|u q']; [exact H|]. destruct u; try exact H. destruct (rd n PFac q') as [[b q'']|] eqn:E'; [|discriminate]. rewrite (IH _ _ _ E'). exact H.
    + destruct t; try (
      match goal with |- context [rd m PPrim ?l] =>
        destruct (rd n PPrim l) as [[a q0]|] eqn:E; [|discriminate]; subst m; rewrite (IH _ _ _ E);
        destruct q0 as [|u q']; [exact H|]; destruct u; try exact H;
        destruct (rd n PFac q') as [[b q'']|] eqn:E'; [|discriminate]; rewrite (IH _ _ _ E'); exact H end).
      destruct (rd n PFac q) as [[a q']|] eqn:E; [|discriminate]. subst m. rewrite (IH _ _ _ E). exact H.
  - destruct ts as [|t q]; [exact H|]. destruct t; try exact H.
    + destruct q as [|u q]; [exact H|]. destruct u; try exact H. subst m. apply IH. exact H.
    + destruct (rd n PSum q) as [[a q']|] eqn:E; [|discriminate]. subst m. rewrite (IH _ _ _ E). exact H.
    + subst m. apply IH. exact H.
  - destruct ts as [|t q]; [exact H|]. destruct (is_close close t); [exact H|].
    destruct (rd n PSum (t :: q)) as [[a q']|] eqn:E; [|discriminate]. subst m. rewrite (IH _ _ _ E). apply IH. exact H.
  - destruct ts as [|t q]; [exact H|]. destruct t; try exact H.
    destruct (rd n PSum q) as [[a q']|] eqn:E; [|discriminate]. subst m. rewrite (IH _ _ _ E). apply IH. exact H.
Qed.
Lemma rd_mono : forall m n ph ts r, rd n ph ts = Some r -> n <= m -> rd m ph ts = Some r.
Proof. induction m as [|m IH]; intros n ph ts r H L; [replace n with 0 in H by lia; exact H|]. destruct (Nat.eq_dec n (S m)) as [->|]; [exact H|]. apply rd_mono1. apply (IH n); [exact H|lia]. Qed.

Definition Rd (ph : phase) (ts : list tok) (res : ex * list tok) : Prop := exists n, rd n ph ts = Some res.
Lemma Rd_fun ph ts r r' : Rd ph ts r -> Rd ph ts r' -> r = r'.
Proof. intros [n H] [m H']. apply (rd_mono (n + m)) in H; [|lia]. apply (rd_mono (n + m)) in H'; [|lia]. congruence. Qed.

Ltac mono H n := apply (rd_mono n) in H; [|lia].

Lemma Rd_sum ts a r res : Rd PProd ts (a, r) -> Rd (PSumRest a) r res -> Rd PSum ts res.
Proof. intros [n H] [m H']. exists (S (n + m)). mono H (n + m). mono H' (n + m). cbn [rd]. rewrite H. exact H'. Qed.
Lemma Rd_sum_plus a ts b r res : Rd PProd ts (b, r) -> Rd (PSumRest (e_plus a b)) r res -> Rd (PSumRest a) (TPlus :: ts) res.
Proof. intros [n H] [m H']. exists (S (n + m)). mono H (n + m). mono H' (n + m). cbn [rd]. rewrite H. exact H'. Qed.
Lemma Rd_sum_minus a ts b r res : Rd PProd ts (b, r) -> Rd (PSumRest (e_plus a (e_neg b))) r res -> Rd (PSumRest a) (TMinus :: ts) res.
Proof. intros [n H] [m H']. exists (S (n + m)). mono H (n + m). mono H' (n + m). cbn [rd]. rewrite H. exact H'. Qed.
Lemma Rd_prod ts a r res : Rd PFac ts (a, r) -> Rd (PProdRest a) r res -> Rd PProd ts res.
Proof. intros [n H] [m H']. exists (S (n + m)). mono H (n + m). mono H' (n + m). cbn [rd]. rewrite H. exact H'. Qed.
Lemma Rd_prod_times a ts b r res : Rd PFac ts (b, r) -> Rd (PProdRest (e_times a b)) r res -> Rd (PProdRest a) (TTimes :: ts) res.
Proof. intros [n H] [m H']. exists (S (n + m)). mono H (n + m). mono H' (n + m). cbn [rd]. rewrite H. exact H'. Qed.
Lemma Rd_prod_div a ts b r res : Rd PFac ts (b, r) -> Rd (PProdRest (e_times a (e_pow b (EInt (-1))))) r res -> Rd (PProdRest a) (TDiv :: ts) res.
Proof. intros [n H] [m H']. exists (S (n + m)). mono H (n + m). mono H' (n + m). cbn [rd]. rewrite H. exact H'. Qed.
Lemma Rd_neg ts a r : Rd PFac ts (a, r) -> Rd PFac (TMinus :: ts) (e_neg a, r).
Proof. intros [n H]. exists (S n). cbn [rd]. rewrite H. reflexivity. Qed.

(* ---- texts and the trees they are read as ---- *)
Inductive lv := LPrim | LFac | LProd | LSum | LArgs.
Inductive G : lv -> list tok -> list ex -> Prop :=
| g_int k : G LPrim [TInt k] [EInt (Z.of_N k)]
| g_name s : G LPrim [TName s] [ESym s]
| g_paren ts t : G LSum ts [t] -> G LPrim (TLP :: ts ++ [TRP]) [t]
| g_call0 s : G LPrim [TName s; TLB; TRB] [EExpr [ESym s]]
| g_call s ts l : G LArgs ts l -> G LPrim (TName s :: TLB :: ts ++ [TRB]) [EExpr (ESym s :: l)]
| g_list0 : G LPrim [TLC; TRC] [EExpr [sys "List"]]
| g_list ts l : G LArgs ts l -> G LPrim (TLC :: ts ++ [TRC]) [EExpr (sys "List" :: l)]
| g_prim ts t : G LPrim ts [t] -> G LFac ts [t]
| g_pow a b x y : G LPrim a [x] -> G LFac b [y] -> G LFac (a ++ TPow :: b) [e_pow x y]
| g_neg a x : G LFac a [x] -> hd_error a <> Some TMinus -> G LFac (TMinus :: a) [e_neg x]
| g_fac ts t : G LFac ts [t] -> G LProd ts [t]
| g_times a b x y : G LProd a [x] -> G LFac b [y] -> G LProd (a ++ TTimes :: b) [e_times x y]
| g_div a b x y : G LProd a [x] -> G LFac b [y] -> G LProd (a ++ TDiv :: b) [e_times x (e_pow y (EInt (-1)))]
| g_prod ts t : G LProd ts [t] -> G LSum ts [t]
| g_plus a b x y : G LSum a [x] -> G LProd b [y] -> G LSum (a ++ TSpace :: TPlus :: TSpace :: b) [e_plus x y]
| g_minus a b x y : G LSum a [x] -> G LProd b [y] -> G LSum (a ++ TSpace :: TMinus :: TSpace :: b) [e_plus x (e_neg y)]
| g_arg ts t : G LSum ts [t] -> G LArgs ts [t]
| g_args a b x l : G LSum a [x] -> G LArgs b l -> G LArgs (a ++ TComma :: TSpace :: b) (x :: l).

Definition nosp (ts : list tok) : list tok := filter (fun t => negb (is_space t)) ts.
Lemma nosp_app a b : nosp (a ++ b) = nosp a ++ nosp b.
Proof. apply filter_app. Qed.

(* the first token *)
Definition opener (t : tok) : bool := match t with TInt _ | TName _ | TLP | TLC => true | _ => false end.
Lemma G_first l ts xs : G l ts xs -> exists t r, ts = t :: r /\ (opener t = true \/ t = TMinus /\ l <> LPrim).
Proof.
  induction 1 as [k|s|ts t H IH|s|s ts l H IH| |ts l H IH|ts t H IH|a b x y H1 IH1 H2 IH2|a x H IH Hh|ts t H IH|a b x y H1 IH1 H2 IH2|a b x y H1 IH1 H2 IH2|ts t H IH|a b x y H1 IH1 H2 IH2|a b x y H1 IH1 H2 IH2|ts t H IH|a b x l H1 IH1 H2 IH2];
  try (eexists _, _; split; [reflexivity|left; reflexivity]);
  try (destruct IH as [t0 [r [-> [O|[-> O]]]]]; eexists _, _; (split; [reflexivity|]); [left; exact O|right; split; [reflexivity|congruence]]);
  try (destruct IH1 as [t0 [r [-> [O|[-> O]]]]]; eexists _, _; (split; [reflexivity|]); [left; exact O|right; split; [reflexivity|congruence]]).
  eexists _, _. split; [reflexivity|]. right. split; [reflexivity|discriminate].
Qed.

(* what may follow a text of some level without being swallowed *)
Definition follows (l : lv) (r : list tok) : Prop :=
  match r with
  | TLB :: _ => False
  | TPow :: _ => l = LPrim
  | TTimes :: _ | TDiv :: _ => l = LPrim \/ l = LFac
  | TPlus :: _ | TMinus :: _ => l = LPrim \/ l = LFac \/ l = LProd
  | _ => True
  end.
Lemma follows_weak l l' r : follows l r -> match l, l' with LSum, _ => True | LProd, LProd => True | LProd, LFac => True | LProd, LPrim => True | LFac, LFac => True | LFac, LPrim => True | LPrim, LPrim => True | _, _ => False end -> follows l' r.
Proof. destruct r as [|t r]; [intros; exact I|]. destruct t, l, l'; cbn; intuition congruence. Qed.

Definition read_as (l : lv) (ts : list tok) (xs : list ex) : Prop :=
  match l with
  | LPrim => forall x, xs = [x] -> forall rest, follows LPrim rest -> Rd PPrim (nosp ts ++ rest) (x, rest)
  | LFac => forall x, xs = [x] -> forall rest, follows LFac rest -> Rd PFac (nosp ts ++ rest) (x, rest)
  | LProd => forall x, xs = [x] -> forall rest res, follows LFac rest -> Rd (PProdRest x) rest res -> Rd PProd (nosp ts ++ rest) res
  | LSum => forall x, xs = [x] -> forall rest res, follows LProd rest -> Rd (PSumRest x) rest res -> Rd PSum (nosp ts ++ rest) res
  | LArgs => forall c h acc rest, c = TRB \/ c = TRC ->
      Rd (PArgs c h acc) (nosp ts ++ c :: rest) (EExpr (h :: acc ++ xs), rest) /\
      Rd (PArgsRest c h acc) (TComma :: nosp ts ++ c :: rest) (EExpr (h :: acc ++ xs), rest)
  end.

Lemma Rd_prod_end x rest : follows LProd rest -> Rd (PProdRest x) rest (x, rest).
Proof. intro F. exists 1. cbn [rd]. destruct rest as [|t r]; [reflexivity|]. destruct t; try reflexivity; cbn in F; intuition congruence. Qed.
Lemma Rd_sum_end x rest : follows LSum rest -> Rd (PSumRest x) rest (x, rest).
Proof. intro F. exists 1. cbn [rd]. destruct rest as [|t r]; [reflexivity|]. destruct t; try reflexivity; cbn in F; intuition congruence. Qed.

Lemma sum_whole ts x rest : read_as LSum ts [x] -> follows LSum rest -> Rd PSum (nosp ts ++ rest) (x, rest).
Proof. intros H F. apply (H x eq_refl); [exact (follows_weak _ LProd _ F I)|]. apply Rd_sum_end. exact F. Qed.
Lemma prod_whole ts x rest : read_as LProd ts [x] -> follows LProd rest -> Rd PProd (nosp ts ++ rest) (x, rest).
Proof. intros H F. apply (H x eq_refl); [exact (follows_weak _ LFac _ F I)|]. apply Rd_prod_end. exact F. Qed.

Lemma close_follows c rest : c = TRB \/ c = TRC -> follows LSum (c :: rest).
Proof. intros [-> | ->]; exact I. Qed.
Lemma opener_not_close c t : c = TRB \/ c = TRC -> (opener t = true \/ t = TMinus) -> is_close c t = false.
Proof. intros [-> | ->] [H | ->]; try reflexivity; destruct t; try discriminate; reflexivity. Qed.
Lemma Rd_args_first c h acc t r a r' res : is_close c t = false -> Rd PSum (t :: r) (a, r') -> Rd (PArgsRest c h (acc ++ [a])) r' res -> Rd (PArgs c h acc) (t :: r) res.
Proof. intros Hc [n H] [m H']. exists (S (n + m)). mono H (n + m). mono H' (n + m). cbn [rd]. rewrite Hc, H. exact H'. Qed.
Lemma Rd_args_comma c h acc ts a r' res : Rd PSum ts (a, r') -> Rd (PArgsRest c h (acc ++ [a])) r' res -> Rd (PArgsRest c h acc) (TComma :: ts) res.
Proof. intros [n H] [m H']. exists (S (n + m)). mono H (n + m). mono H' (n + m). cbn [rd]. rewrite H. exact H'. Qed.
Lemma Rd_args_close c h acc rest : c = TRB \/ c = TRC -> Rd (PArgsRest c h acc) (c :: rest) (EExpr (h :: acc), rest).
Proof. intros [-> | ->]; exists 1; reflexivity. Qed.

Lemma args_step ts x : G LSum ts [x] -> read_as LSum ts [x] -> forall c h acc rest res,
  follows LSum rest -> Rd (PArgsRest c h (acc ++ [x])) rest res -> c = TRB \/ c = TRC ->
  Rd (PArgs c h acc) (nosp ts ++ rest) res /\ Rd (PArgsRest c h acc) (TComma :: nosp ts ++ rest) res.
Proof.
  intros g H c h acc rest res F K Hc. pose proof (sum_whole _ _ _ H F) as W. split.
  - destruct (G_first _ _ _ g) as [t [r [E O]]]. assert (is_space t = false) as Es by (destruct O as [O|[-> _]]; [destruct t; try discriminate; reflexivity|reflexivity]).
    assert (nosp ts = t :: nosp r) as En by (subst ts; unfold nosp; cbn [filter]; rewrite Es; reflexivity). rewrite En in W |- *. cbn [app] in W |- *.
    apply (Rd_args_first c h acc t _ x rest); [apply opener_not_close; [exact Hc|destruct O as [O|[O _]]; auto]|exact W|exact K].
  - apply (Rd_args_comma _ _ _ _ x rest); assumption.
Qed.

Lemma prim_fac ts x rest : (forall rest, follows LPrim rest -> Rd PPrim (nosp ts ++ rest) (x, rest)) -> G LPrim ts [x] ->
  (follows LFac rest -> Rd PFac (nosp ts ++ rest) (x, rest)) /\
  (forall b y r, rest = TPow :: b -> Rd PFac b (y, r) -> Rd PFac (nosp ts ++ rest) (e_pow x y, r)).
Proof.
  intros H g. destruct (G_first _ _ _ g) as [t [r0 [E [O|[_ O]]]]]; [|congruence].
  assert (is_space t = false /\ t <> TMinus) as [Es Em] by (destruct t; try discriminate; split; [reflexivity|discriminate|reflexivity|discriminate|reflexivity|discriminate|reflexivity|discriminate]).
  assert (nosp ts = t :: nosp r0) as En by (subst ts; unfold nosp; cbn [filter]; rewrite Es; reflexivity).
  split.
  - intro F. destruct (H rest (follows_weak _ LPrim _ F I)) as [n Hn]. exists (S n). rewrite En in Hn |- *. cbn [app] in Hn |- *.
    cbn [rd]. destruct t; try discriminate; rewrite Hn; (destruct rest as [|u rest]; [reflexivity|]; destruct u; try reflexivity; cbn in F; discriminate).
  - intros b y r -> [m Hm]. destruct (H (TPow :: b) eq_refl) as [n Hn]. exists (S (n + m)). mono Hn (n + m). mono Hm (n + m).
    rewrite En in Hn |- *. cbn [app] in Hn |- *. cbn [rd]. destruct t; try discriminate; rewrite Hn, Hm; reflexivity.
Qed.

Lemma G_read l ts xs : G l ts xs -> read_as l ts xs.
Proof.
  induction 1 as [k|s|ts t H IH|s|s ts l H IH| |ts l H IH|ts t H IH|a b x y H1 IH1 H2 IH2|a x H IH Hh|ts t H IH|a b x y H1 IH1 H2 IH2|a b x y H1 IH1 H2 IH2|ts t H IH|a b x y H1 IH1 H2 IH2|a b x y H1 IH1 H2 IH2|ts t H IH|a b x l H1 IH1 H2 IH2];
  cbn [read_as]; try (intros z Ez; injection Ez as <-).
  - intros rest F. exists 1. reflexivity.
  - intros rest F. exists 1. cbn. destruct rest as [|u rest]; [reflexivity|]. destruct u; try reflexivity. destruct F.
  - intros rest F. change (nosp (TLP :: ts ++ [TRP])) with (TLP :: nosp (ts ++ [TRP])). rewrite nosp_app. change (nosp [TRP]) with [TRP]. cbn [app]. rewrite <- app_assoc. cbn [app].
    destruct (sum_whole ts t (TRP :: rest) IH I) as [n Hn]. exists (S n). cbn [rd]. rewrite Hn. reflexivity.
  - intros rest F. exists 2. reflexivity.
  - intros rest F. change (nosp (TName s :: TLB :: ts ++ [TRB])) with (TName s :: TLB :: nosp (ts ++ [TRB])). rewrite nosp_app. cbn [app]. rewrite <- app_assoc.
    destruct (IH TRB (ESym s) [] rest (or_introl eq_refl)) as [[n Hn] _]. exists (S n). cbn [rd]. exact Hn.
  - intros rest F. exists 2. reflexivity.
  - intros rest F. change (nosp (TLC :: ts ++ [TRC])) with (TLC :: nosp (ts ++ [TRC])). rewrite nosp_app. cbn [app]. rewrite <- app_assoc.
    destruct (IH TRC (sys "List") [] rest (or_intror eq_refl)) as [[n Hn] _]. exists (S n). cbn [rd]. exact Hn.
  - intros rest F. apply (prim_fac ts t rest); [exact (IH t eq_refl)|exact H|exact F].
  - intros rest F. rewrite nosp_app, <- app_assoc. change (nosp (TPow :: b) ++ rest) with (TPow :: nosp b ++ rest).
    destruct (prim_fac a x (TPow :: nosp b ++ rest) (IH1 x eq_refl) H1) as [_ K]. apply (K _ y rest eq_refl). apply (IH2 y eq_refl). exact F.
  - intros rest F. apply Rd_neg. apply (IH x eq_refl). exact F.
  - intros rest res F K. apply (Rd_prod _ t rest); [|exact K]. apply (IH t eq_refl). exact F.
  - intros rest res F K. rewrite nosp_app, <- app_assoc. change (nosp (TTimes :: b) ++ rest) with (TTimes :: nosp b ++ rest).
    apply (IH1 x eq_refl); [right; reflexivity|]. apply (Rd_prod_times _ _ y rest); [|exact K]. apply (IH2 y eq_refl). exact F.
  - intros rest res F K. rewrite nosp_app, <- app_assoc. change (nosp (TDiv :: b) ++ rest) with (TDiv :: nosp b ++ rest).
    apply (IH1 x eq_refl); [right; reflexivity|]. apply (Rd_prod_div _ _ y rest); [|exact K]. apply (IH2 y eq_refl). exact F.
  - intros rest res F K. apply (Rd_sum _ t rest); [|exact K]. apply prod_whole; assumption.
  - intros rest res F K. rewrite nosp_app, <- app_assoc. change (nosp (TSpace :: TPlus :: TSpace :: b) ++ rest) with (TPlus :: nosp b ++ rest).
    apply (IH1 x eq_refl); [right; right; reflexivity|]. apply (Rd_sum_plus _ _ y rest); [|exact K]. apply prod_whole; assumption.
  - intros rest res F K. rewrite nosp_app, <- app_assoc. change (nosp (TSpace :: TMinus :: TSpace :: b) ++ rest) with (TMinus :: nosp b ++ rest).
    apply (IH1 x eq_refl); [right; right; reflexivity|]. apply (Rd_sum_minus _ _ y rest); [|exact K]. apply prod_whole; assumption.
  - intros c h acc rest Hc. apply (args_step _ _ H IH); [apply close_follows; exact Hc| |exact Hc]. apply Rd_args_close. exact Hc.
  - intros c h acc rest Hc. rewrite nosp_app. change (nosp (TComma :: TSpace :: b)) with (TComma :: nosp b). rewrite <- app_assoc. cbn [app].
    apply (args_step _ _ H1 IH1); [exact I| |exact Hc].
    destruct (IH2 c h (acc ++ [x]) rest Hc) as [_ K]. rewrite <- app_assoc in K. exact K.
Qed.

(* no "--", no trailing '-' *)
Definition ends_minus (ts : list tok) : bool := match last ts TSpace with TMinus => true | _ => false end.
Lemma dm_app a b : double_minus a = false -> double_minus b = false -> ends_minus a = false \/ hd_error b <> Some TMinus -> double_minus (a ++ b) = false.
Proof.
  induction a as [|t a IH]; intros Ha Hb Hc; [exact Hb|]. destruct a as [|u a].
  - cbn [app]. destruct t; cbn [double_minus]; try exact Hb. destruct b as [|v b]; [reflexivity|]. destruct v; try exact Hb. destruct Hc as [Hc|Hc]; [discriminate|cbn in Hc; congruence].
  - assert (Ha' : double_minus (u :: a) = false) by (cbn [double_minus] in Ha; destruct t; try exact Ha; destruct u; try discriminate; exact Ha).
    specialize (IH Ha' Hb Hc). cbn [app] in IH |- *. destruct t; cbn [double_minus]; try exact IH. destruct u; try exact IH. discriminate Ha.
Qed.
Lemma ends_app a t b : ends_minus (a ++ t :: b) = ends_minus (t :: b).
Proof. unfold ends_minus. f_equal. induction a as [|u a IH]; [reflexivity|]. cbn [app]. rewrite <- IH. destruct (a ++ t :: b) eqn:E; [destruct a; discriminate|reflexivity]. Qed.
Lemma ends_cons t a : a <> [] -> ends_minus (t :: a) = ends_minus a.
Proof. destruct a; [congruence|reflexivity]. Qed.
Lemma dm_cons t a : t <> TMinus \/ hd_error a <> Some TMinus -> double_minus a = false -> double_minus (t :: a) = false.
Proof. intros H Ha. destruct t; try exact Ha. destruct a as [|u a]; [reflexivity|]. destruct u; try exact Ha. destruct H as [H|H]; cbn in H; congruence. Qed.
Lemma G_nil l xs : ~ G l [] xs.
Proof. intro H. destruct (G_first _ _ _ H) as [t [r [E _]]]. discriminate. Qed.
Lemma G_minus_ok l ts xs : G l ts xs -> double_minus ts = false /\ ends_minus ts = false.
Proof.
  induction 1 as [k|s|ts t H IH|s|s ts l H IH| |ts l H IH|ts t H IH|a b x y H1 IH1 H2 IH2|a x H IH Hh|ts t H IH|a b x y H1 IH1 H2 IH2|a b x y H1 IH1 H2 IH2|ts t H IH|a b x y H1 IH1 H2 IH2|a b x y H1 IH1 H2 IH2|ts t H IH|a b x l H1 IH1 H2 IH2];
  try (split; reflexivity); try exact IH.
  - destruct IH as [I1 I2]. split; [apply dm_cons; [left; discriminate|]; apply dm_app; [exact I1|reflexivity|left; exact I2]|]. apply (ends_app (TLP :: ts)).
  - destruct IH as [I1 I2]. split; [apply dm_cons; [left; discriminate|]; apply dm_cons; [left; discriminate|]; apply dm_app; [exact I1|reflexivity|left; exact I2]|]. apply (ends_app (TName s :: TLB :: ts)).
  - destruct IH as [I1 I2]. split; [apply dm_cons; [left; discriminate|]; apply dm_app; [exact I1|reflexivity|left; exact I2]|]. apply (ends_app (TLC :: ts)).
  - destruct IH1 as [I1 I2], IH2 as [J1 J2]. assert (b <> []) by (intros ->; exact (G_nil _ _ H2)). split.
    + apply dm_app; [exact I1| |left; exact I2]. apply dm_cons; [left; discriminate|exact J1].
    + rewrite ends_app, ends_cons by assumption. exact J2.
  - destruct IH as [I1 I2]. split; [apply dm_cons; [right; exact Hh|exact I1]|]. rewrite ends_cons; [exact I2|]. intros ->. exact (G_nil _ _ H).
  - destruct IH1 as [I1 I2], IH2 as [J1 J2]. assert (b <> []) by (intros ->; exact (G_nil _ _ H2)). split.
    + apply dm_app; [exact I1| |left; exact I2]. apply dm_cons; [left; discriminate|exact J1].
    + rewrite ends_app, ends_cons by assumption. exact J2.
  - destruct IH1 as [I1 I2], IH2 as [J1 J2]. assert (b <> []) by (intros ->; exact (G_nil _ _ H2)). split.
    + apply dm_app; [exact I1| |left; exact I2]. apply dm_cons; [left; discriminate|exact J1].
    + rewrite ends_app, ends_cons by assumption. exact J2.
  - destruct IH1 as [I1 I2], IH2 as [J1 J2]. assert (b <> []) by (intros ->; exact (G_nil _ _ H2)). split.
    + apply dm_app; [exact I1| |left; exact I2]. repeat (apply dm_cons; [left; discriminate|]). exact J1.
    + rewrite ends_app, ends_cons, ends_cons, ends_cons by (discriminate || assumption). exact J2.
  - destruct IH1 as [I1 I2], IH2 as [J1 J2]. assert (b <> []) by (intros ->; exact (G_nil _ _ H2)). split.
    + apply dm_app; [exact I1| |left; exact I2]. apply dm_cons; [left; discriminate|]. apply dm_cons; [right; discriminate|]. apply dm_cons; [left; discriminate|]. exact J1.
    + rewrite ends_app, ends_cons, ends_cons, ends_cons by (discriminate || assumption). exact J2.
  - destruct IH1 as [I1 I2], IH2 as [J1 J2]. assert (b <> []) by (intros ->; exact (G_nil _ _ H2)). split.
    + apply dm_app; [exact I1| |left; exact I2]. repeat (apply dm_cons; [left; discriminate|]). exact J1.
    + rewrite ends_app, ends_cons, ends_cons by (discriminate || assumption). exact J2.
Qed.

Lemma G_reads ts t : G LSum ts [t] -> reads ts t.
Proof.
  intro H. split; [apply (G_minus_ok _ _ _ H)|]. pose proof (sum_whole ts t [] (G_read _ _ _ H) I) as K. rewrite app_nil_r in K. exact K.
Qed.
Lemma reads_fun ts t t' : reads ts t -> reads ts t' -> t = t'.
Proof. intros [_ H] [_ H']. pose proof (Rd_fun _ _ _ _ H H') as E. congruence. Qed.
