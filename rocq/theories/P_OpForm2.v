(* Lemmas for C102: what is printed. *)
From Verif Require Import M_Syntax M_Float M_Hash M_Parse M_OpForm S_Parse S_InputForm S_OpForm P_Parse P_OpForm.
From Verif Require T_Parse.
Open Scope nat_scope.

Lemma strip_app p s : strip_prefix p (append p s) = Some s.
Proof. induction p as [|c p IH]; [reflexivity|]. cbn [append strip_prefix]. rewrite Ascii.eqb_refl. exact IH. Qed.
Lemma strip_inv p s r : strip_prefix p s = Some r -> s = append p r.
Proof.
  revert s. induction p as [|c p IH]; intros s H; [cbn in *; congruence|]. destruct s as [|b s]; [discriminate|].
  cbn [strip_prefix] in H. destruct (Ascii.eqb_spec c b) as [->|]; [|discriminate]. cbn [append]. f_equal. apply IH. exact H.
Qed.
Lemma short_sys op : short (sysname op) = op.
Proof. unfold short, sysname. rewrite strip_app. reflexivity. Qed.
Lemma short_cases h : h = sysname (short h) \/ short h = EmptyString.
Proof.
  unfold short. destruct (strip_prefix "System`" h) as [r|] eqn:E; [|now right]. left. apply strip_inv in E. exact E.
Qed.
Lemma existsb_in h l : existsb (String.eqb h) l = true <-> In h l.
Proof.
  rewrite existsb_exists. split.
  - intros (x & H & E). apply String.eqb_eq in E. subst x. exact H.
  - intros H. exists h. split; [exact H|apply String.eqb_refl].
Qed.
Lemma existsb_nin h l : ~ In h l -> existsb (String.eqb h) l = false.
Proof. intros N. destruct (existsb (String.eqb h) l) eqn:E; [|reflexivity]. apply existsb_in in E. contradiction. Qed.

Section Tab.
Variable T : table.
Variable nf : flt -> flt.
Hypothesis Sane : sane T.
Notation opr := (opr T).
Notation cv := (conv nf).
Notation claim := (claim T).
Notation ptext := (ptext T).

Definition level (p : oprev) : nat :=
  match p with
  | OTop => 0
  | OUnder h => if existsb (String.eqb h) heads_to_tokens then S (tprec T h) else uminus T
  end.
Definition ctx (p : oprev) : Prop := p = OTop \/ p = OUnder "" \/ exists op, (In op loose \/ In op arith) /\ p = OUnder op.
Definition arithctx (p : oprev) : Prop := exists op, In op arith /\ p = OUnder op.
Definition thish (op : string) : string :=
  if existsb (String.eqb op) ["And"; "Or"; "StringJoin"; "Less"; "Greater"; "LessEqual"; "GreaterEqual"; "ReplaceAll"; "ReplaceRepeated"]%string then ""%string else op.
Definition starts (ts : list otok) : Prop := exists t r, ts = t :: r /\ t <> KMinus.
Definition headsame (e : ex) (a : past) : Prop := forall s l, cv a = EExpr (ESym s :: l) -> exists l', e = EExpr (ESym s :: l').
Definition openinfo (p : oprev) (e : ex) : Prop :=
  forall op l, e = EExpr (sys op :: l) -> In op chain_ops -> 2 <= length l -> oneeds T (thish op) p = false.
Definition headinfo (p : oprev) (e : ex) (a : past) : Prop := (exists b, a = PParen b) \/ headsame e a /\ openinfo p e.
Definition fine (p : oprev) (e : ex) (ta : list otok * past) : Prop :=
  unparen (cv (snd ta)) = e /\ (level p <= uminus T \/ ~ neg_int e -> claim (level p) (fst ta) (snd ta)) /\
  headinfo p e (snd ta) /\ (arithctx p -> ~ neg_int e -> starts (fst ta)).
Definition good (e : ex) : Prop := forall p, ctx p -> exists ta, opr p e = Some (fst ta) /\ fine p e ta.
Definition cfine (e : ex) (ta : list otok * past) : Prop :=
  unparen (cv (snd ta)) = e /\ ptext (fst ta) (snd ta) /\ headsame e (snd ta) /\
  (forall op l, e = EExpr (sys op :: l) -> In op chain_ops -> length l < 2) /\ starts (fst ta).
Definition cgood (e : ex) : Prop := forall p, ctx p -> exists ta, opr p e = Some (fst ta) /\ cfine e ta.

Lemma cgood_good e : cgood e -> good e.
Proof.
  intros H p C. destruct (H p C) as (ta & E & U & P & S0 & O & St). exists ta. split; [exact E|]. split; [exact U|].
  split; [intros _; apply ptext_claim; exact P|]. split; [|intros _ _; exact St].
  right. split; [exact S0|]. intros op l -> I L. specialize (O op l eq_refl I). lia.
Qed.

Lemma ctx_top : ctx OTop. Proof. now left. Qed.
Lemma ctx_anon : ctx (OUnder ""). Proof. right. now left. Qed.
Lemma ctx_op op : In op loose \/ In op arith -> ctx (OUnder op). Proof. intros H. right. right. exists op. auto. Qed.

Lemma oall_map_some {A B} (f : A -> option B) l r : Forall2 (fun a b => f a = Some b) l r -> oall (map f l) = Some r.
Proof. induction 1 as [|a b l r H F IH]; [reflexivity|]. cbn [map oall]. rewrite H, IH. reflexivity. Qed.
Lemma good_args p args : ctx p -> Forall good args -> exists tl, oall (map (opr p) args) = Some (map fst tl) /\ Forall2 (fine p) args tl.
Proof.
  intros C H. enough (exists tl, Forall2 (fun e b => opr p e = Some b) args (map fst tl) /\ Forall2 (fine p) args tl) as (tl & A & B).
  { exists tl. split; [apply oall_map_some; exact A|exact B]. }
  induction H as [|e args G F IH]; [exists []; split; constructor|].
  destruct (G p C) as (ta & E & Fi), IH as (tl & A & B). exists (ta :: tl). split; constructor; assumption.
Qed.
Lemma top_args args : Forall good args -> exists texts l, oall (map (opr OTop) args) = Some texts /\ Forall2 (claim 0) texts l /\
  map unparen (map cv l) = args.
Proof.
  intros H. destruct (good_args OTop args ctx_top H) as (tl & E & F). exists (map fst tl), (map snd tl). split; [exact E|].
  clear E H. induction F as [|e ta args tl Fi F (A & B)]; [split; constructor|]. destruct Fi as (U & Cl & _). split.
  - constructor; [|exact A]. apply Cl. left. cbn [level]. lia.
  - cbn [map]. rewrite U, B. reflexivity.
Qed.

(* ---- operators in general ---- *)
Lemma in_heads op : In op loose \/ In op arith -> existsb (String.eqb op) heads_to_tokens = true.
Proof. intros [H|H]; repeat (destruct H as [<-|H]; [reflexivity|]); contradiction. Qed.
Lemma needs_level op this p : ctx p -> this = op \/ this = ""%string -> oneeds T this p = false -> level p <= tprec T op.
Proof.
  intros C Ht N. destruct p as [|h]; [cbn [level]; lia|]. cbn [oneeds] in N. cbn [level].
  destruct (existsb (String.eqb h) heads_to_tokens); [|discriminate]. cbn [andb] in N.
  destruct Ht as [-> | ->]; [|discriminate].
  destruct (existsb (String.eqb op) heads_to_tokens); [|discriminate]. apply negb_false_iff, Nat.ltb_lt in N. lia.
Qed.
Lemma wrap_fine op this p e body ch : ctx p -> this = thish op -> this = op \/ this = ""%string ->
  (exists l, e = EExpr (sys op :: l)) -> claim (tprec T op) body ch -> unparen (cv ch) = e ->
  (exists l, cv ch = EExpr (sys op :: l)) ->
  (arithctx p -> oneeds T this p = true \/ starts body) ->
  exists a, fine p e (oparens (oneeds T this p) body, a).
Proof.
  intros C Th Ht [le He] Cl U [lc Hc] St. destruct (oneeds T this p) eqn:N.
  - exists (PParen ch). split; [|split; [|split]]; cbn [fst snd].
    + cbn [conv]. rewrite unparen_parens. exact U.
    + intros _. apply ptext_claim. cbn [oparens]. eapply paren_ptext. exact Cl.
    + left. exists ch. reflexivity.
    + intros _ _. exists KLP, (body ++ [KRP]). split; [reflexivity|discriminate].
  - exists ch. split; [|split; [|split]]; cbn [fst snd].
    + exact U.
    + intros _. cbn [oparens]. eapply claim_mono; [|exact Cl]. eapply needs_level; [exact C|exact Ht|exact N].
    + right. split.
      * intros s l E. rewrite Hc in E. injection E as <- _. exists le. exact He.
      * intros op' l E _ _. rewrite He in E. injection E as E _. subst op'. rewrite <- Th. exact N.
    + intros Ac _. destruct (St Ac) as [A|A]; [discriminate|]. exact A.
Qed.

Lemma not_headed_paren hs b : ~ In (ESym nParens) hs -> ~ headed_by hs (cv (PParen b)).
Proof. intros N (h & l & I & E). cbn [conv] in E. injection E as <- _. contradiction. Qed.

(* the first operand of a chain is not swallowed *)
Lemma first_ok op e0 ta : In op chain_ops -> ~ In op surrounded -> ~ absorbed op e0 -> fine (OUnder (thish op)) e0 ta ->
  ~ headed_by [sys op] (cv (snd ta)) /\ (In op comparisons -> ~ headed_by comparison_heads (cv (snd ta))).
Proof.
  intros I NS NA (_ & _ & [[b E]|[HS OI]] & _).
  - rewrite E. split; [|intros _]; apply not_headed_paren.
    + intros [Q|[]]. discriminate Q.
    + intros Q. unfold comparison_heads in Q. apply in_map_iff in Q. destruct Q as (x & Q & _). discriminate Q.
  - assert (Self : oneeds T (thish op) (OUnder (thish op)) = true).
    { cbn [oneeds]. destruct (existsb _ heads_to_tokens && existsb _ heads_to_tokens); [|reflexivity]. rewrite Nat.ltb_irrefl. reflexivity. }
    split.
    + intros (h & l & [<-|[]] & E). destruct (HS (sysname op) l E) as [l' E'].
      destruct (le_lt_dec 2 (length l')) as [L|L].
      * specialize (OI op l' E' I L). congruence.
      * apply NA. exists op, l'. split; [exact E'|]. left. split; [reflexivity|exact L].
    + intros Cm (h & l & Ih & E). unfold comparison_heads in Ih. apply in_map_iff in Ih. destruct Ih as (g & <- & Ig).
      destruct (HS (sysname g) l E) as [l' E'].
      assert (Oeq : op = "Equal"%string \/ op = "Unequal"%string).
      { revert NS Cm. clear. intros NS Cm. cbn in Cm, NS.
        destruct Cm as [<-|[<-|Cm]]; [now left|now right|]. exfalso. apply NS.
        destruct Cm as [<-|[<-|[<-|[<-|[]]]]]; tauto. }
      assert (Oin : In op ["Equal"; "Unequal"]%string) by (destruct Oeq as [-> | ->]; cbn; tauto).
      destruct Ig as [<-|Ig].
      * apply NA. exists "Inequality"%string, l'. split; [exact E'|]. right. split; [exact Oin|]. now right.
      * destruct (le_lt_dec 2 (length l')) as [L|L].
        -- assert (Ic : In g chain_ops) by (revert Ig; clear; intros H; repeat (destruct H as [<-|H]; [cbn; tauto|]); contradiction).
           specialize (OI g l' E' Ic L). revert OI. clear - Oeq Ig Sane. intros OI.
           pose proof (eq_alike T Sane) as Q.
           destruct Oeq as [-> | ->]; cbn in Ig; (destruct Ig as [<-|[<-|[<-|[<-|[<-|[<-|[]]]]]]]); cbn in OI; try discriminate OI;
             apply negb_false_iff, Nat.ltb_lt in OI; lia.
        -- apply NA. exists g, l'. split; [exact E'|]. right. split; [exact Oin|]. left. split; [exact Ig|exact L].
Qed.

Lemma opr_op op args s p : op_style op (length args) = Some s ->
  opr p (EExpr (sys op :: args)) =
  option_map (fun ts => oparens (oneeds T (this_head s op) p) (ojoined [KOp op] (match s with Each => map (oparens true) ts | _ => ts end)))
    (oall (map (opr (OUnder (this_head s op))) args)).
Proof.
  intros H. unfold sys. cbn [M_OpForm.opr]. rewrite short_sys, H. reflexivity.
Qed.

(* claims of the operands *)
Lemma fine_claims p k args tl : Forall2 (fine p) args tl -> k <= level p -> Forall (fun e => level p <= uminus T \/ ~ neg_int e) args ->
  Forall2 (claim k) (map fst tl) (map snd tl) /\ map unparen (map cv (map snd tl)) = args.
Proof.
  intros F L. induction F as [|e ta args tl Fi F IH]; intros N; [split; constructor|]. inversion N; subst.
  destruct Fi as (U & Cl & _). destruct (IH H2) as (A & B). split.
  - cbn [map]. constructor; [|exact A]. eapply claim_mono; [exact L|]. apply Cl. assumption.
  - cbn [map]. rewrite U, B. reflexivity.
Qed.
Lemma surround_claims p k args tl : Forall2 (fine p) args tl -> Forall (fun e => level p <= uminus T \/ ~ neg_int e) args ->
  Forall2 (claim k) (map (oparens true) (map fst tl)) (map PParen (map snd tl)) /\ map unparen (map cv (map PParen (map snd tl))) = args.
Proof.
  intros F. induction F as [|e ta args tl Fi F IH]; intros N; [split; constructor|]. inversion N; subst.
  destruct Fi as (U & Cl & _). destruct (IH H2) as (A & B). split.
  - cbn [map]. constructor; [|exact A]. apply ptext_claim. eapply paren_ptext. apply Cl. assumption.
  - cbn [map]. rewrite B. f_equal. cbn [conv]. rewrite unparen_parens. exact U.
Qed.
Lemma low_left p args : level p <= uminus T -> Forall (fun e => level p <= uminus T \/ ~ neg_int e) args.
Proof. intros L. apply Forall_forall. intros e _. now left. Qed.
Lemma no_neg_right p args : Forall (fun x => ~ neg_int x) args -> Forall (fun e => level p <= uminus T \/ ~ neg_int e) args.
Proof. intros H. eapply Forall_impl; [|exact H]. intros e He. now right. Qed.

Lemma unparen_cv_chain op a0 l e0 args : l <> [] -> ~ headed_by [sys op] (cv a0) -> (In op comparisons -> ~ headed_by comparison_heads (cv a0)) ->
  unparen (cv a0) = e0 -> map unparen (map cv l) = args ->
  unparen (cv (chain a0 (map (fun a => (op, a)) l))) = EExpr (sys op :: e0 :: args) /\
  exists r, cv (chain a0 (map (fun a => (op, a)) l)) = EExpr (sys op :: r).
Proof.
  intros NE N1 N2 E0 E1. rewrite (chain_same nf op a0 l NE N1 N2). split; [|eexists; reflexivity].
  rewrite unparen_expr by (intros Q; discriminate Q). cbn [map]. rewrite E0, E1. reflexivity.
Qed.

(* a chain printed with operand texts t0, ts *)
Lemma chain_fine op this p e0 args t0 a0 ts l : ctx p -> this = thish op -> this = op \/ this = ""%string -> In op chain_ops ->
  claim (S (tprec T op)) t0 a0 -> Forall2 (claim (S (tprec T op))) ts l -> ts <> [] ->
  ~ headed_by [sys op] (cv a0) -> (In op comparisons -> ~ headed_by comparison_heads (cv a0)) ->
  unparen (cv a0) = e0 -> map unparen (map cv l) = args -> (arithctx p -> oneeds T this p = true \/ starts t0) ->
  exists a, fine p (EExpr (sys op :: e0 :: args)) (oparens (oneeds T this p) (ojoined [KOp op] (t0 :: ts)), a).
Proof.
  intros C Th Ht I C0 Cs NE N1 N2 E0 E1 St.
  assert (NE' : l <> []) by (destruct Cs; congruence).
  destruct (unparen_cv_chain op a0 l e0 args NE' N1 N2 E0 E1) as (U & r & Er).
  eapply (wrap_fine op this p _ _ (chain a0 (map (fun a => (op, a)) l)) C Th Ht).
  - eexists; reflexivity.
  - apply chain_claim; [exact (group_left T Sane op I)|exact I|exact C0|exact NE|exact Cs].
  - exact U.
  - exists r. exact Er.
  - intros Ac. destruct (St Ac) as [A|A]; [now left|right]. rewrite ojoined_cons. destruct A as (t & r0 & -> & Nt).
    exists t, (r0 ++ flat_map (fun x => [KOp op] ++ x) ts). split; [reflexivity|exact Nt].
Qed.

Lemma arith_loose op this p : In op loose -> this = op \/ this = ""%string -> arithctx p -> oneeds T this p = true.
Proof.
  intros Il Ht (a & Ia & ->). pose proof (arith_tight T Sane op a Il Ia) as L. cbn [oneeds].
  destruct Ht as [-> | ->].
  - destruct (existsb _ heads_to_tokens && existsb _ heads_to_tokens); [|reflexivity].
    rewrite (proj2 (Nat.ltb_ge _ _)) by lia. reflexivity.
  - rewrite andb_false_r. reflexivity.
Qed.

Lemma style_chain op n : In op loose -> In op chain_ops -> exists s, op_style op (S (S n)) = Some s /\ this_head s op = thish op /\
  (thish op = op \/ thish op = ""%string) /\ (s = Each <-> In op surrounded).
Proof.
  intros Il Ic. unfold loose in Il.
  repeat (destruct Il as [<-|Il]; [
    first [ exfalso; cbn in Ic; (repeat (destruct Ic as [Q|Ic]; [discriminate Q|])); contradiction
          | eexists; split; [reflexivity|]; split; [reflexivity|]; split; [cbn; tauto|]; cbn; split; [intros Q; first [discriminate Q|tauto]|
              intros Q; first [reflexivity | exfalso; (repeat (destruct Q as [Q|Q]; [discriminate Q|])); contradiction]]]|]).
  contradiction.
Qed.
Lemma style_binary op : In op loose -> In op binary_ops -> exists s, op_style op 2 = Some s /\ this_head s op = thish op /\
  (thish op = op \/ thish op = ""%string) /\ ~ In op chain_ops /\ op <> "Pattern"%string /\ s <> Anon /\ (s = Own -> thish op = op).
Proof.
  intros Il Ic. unfold loose in Il.
  repeat (destruct Il as [<-|Il]; [
    first [ exfalso; cbn in Ic; (repeat (destruct Ic as [Q|Ic]; [discriminate Q|])); contradiction
          | eexists; split; [reflexivity|]; split; [reflexivity|]; split; [cbn; tauto|]; split;
              [intros Q; cbn in Q; (repeat (destruct Q as [Q|Q]; [discriminate Q|])); contradiction|]; split; [discriminate|]; split; [discriminate|];
              intros Q; first [reflexivity|discriminate Q]]|]).
  contradiction.
Qed.
Lemma level_this op this : In op loose -> this = op \/ this = ""%string -> ctx (OUnder this) /\ S (tprec T op) <= level (OUnder this) <= uminus T.
Proof.
  intros Il [-> | ->].
  - split; [apply ctx_op; now left|]. cbn [level]. rewrite in_heads by (now left). pose proof (sign_tight T Sane op Il). lia.
  - split; [apply ctx_anon|]. pose proof (sign_tight T Sane op Il). cbn. lia.
Qed.

Lemma good_chain op e0 args : In op loose -> In op chain_ops -> args <> [] -> Forall good (e0 :: args) ->
  (~ In op surrounded -> ~ absorbed op e0) -> good (EExpr (sys op :: e0 :: args)).
Proof.
  intros Il Ic NE G NA p C. destruct args as [|e1 args]; [congruence|]. clear NE.
  destruct (style_chain op (length args) Il Ic) as (s & Hs & Ht & Hcase & Heach).
  rewrite (opr_op op (e0 :: e1 :: args) s p Hs), Ht.
  destruct (level_this op (thish op) Il Hcase) as (Cc & L1 & L2).
  destruct (good_args (OUnder (thish op)) (e0 :: e1 :: args) Cc G) as (tl & -> & F). cbn [option_map].
  pose proof (low_left (OUnder (thish op)) (e0 :: e1 :: args) L2) as Low.
  destruct tl as [|ta [|tb tl]]; [inversion F|inversion F as [|? ? ? ? ? F']; inversion F'|].
  assert (St : forall t0, arithctx p -> oneeds T (thish op) p = true \/ starts t0) by (intros t0 Ac; left; exact (arith_loose op (thish op) p Il Hcase Ac)).
  assert (Q : exists a, fine p (EExpr (sys op :: e0 :: e1 :: args)) (oparens (oneeds T (thish op) p)
      (ojoined [KOp op] match s with Each => map (oparens true) (map fst (ta :: tb :: tl)) | _ => map fst (ta :: tb :: tl) end), a)).
  { destruct (in_dec string_dec op surrounded) as [Is|Ns].
    - rewrite (proj2 Heach Is). destruct (surround_claims (OUnder (thish op)) (S (tprec T op)) _ _ F Low) as (A & B).
      cbn [map] in A, B |- *. inversion A as [|? ? ? ? A0 A1]; subst. injection B as B0 B1 B2.
      apply (chain_fine op (thish op) p e0 (e1 :: args) _ (PParen (snd ta)) _ (PParen (snd tb) :: map PParen (map snd tl)) C eq_refl Hcase Ic).
      + exact A0.
      + exact A1.
      + discriminate.
      + apply not_headed_paren. intros [Q|[]]. discriminate Q.
      + intros _. apply not_headed_paren. intros Q. unfold comparison_heads in Q. apply in_map_iff in Q. destruct Q as (x & Q & _).
        discriminate Q.
      + exact B0.
      + cbn [map]. rewrite <- B1, <- B2. reflexivity.
      + apply St.
    - assert (Se : match s with Each => map (oparens true) (map fst (ta :: tb :: tl)) | _ => map fst (ta :: tb :: tl) end = map fst (ta :: tb :: tl)).
      { destruct s; try reflexivity. exfalso. apply Ns, Heach. reflexivity. }
      rewrite Se. destruct (fine_claims (OUnder (thish op)) (S (tprec T op)) _ _ F L1 Low) as (A & B).
      inversion F as [|? ? ? ? F0 _]; subst. destruct (first_ok op e0 ta Ic Ns (NA Ns) F0) as (N1 & N2).
      cbn [map] in A, B |- *. inversion A as [|? ? ? ? A0 A1]; subst. injection B as B0 B1 B2.
      apply (chain_fine op (thish op) p e0 (e1 :: args) _ (snd ta) _ (snd tb :: map snd tl) C eq_refl Hcase Ic).
      + exact A0.
      + exact A1.
      + discriminate.
      + exact N1.
      + exact N2.
      + exact B0.
      + cbn [map]. rewrite B1, B2. reflexivity.
      + apply St. }
  destruct Q as [a Q]. eexists. split; [|exact Q]. reflexivity.
Qed.

Lemma bin_fine op this p a b t0 a0 t1 a1 : ctx p -> this = thish op -> this = op \/ this = ""%string -> ~ In op chain_ops -> op <> "Pattern"%string ->
  claim (S (tprec T op)) t0 a0 -> claim (S (tprec T op)) t1 a1 -> unparen (cv a0) = a -> unparen (cv a1) = b ->
  (arithctx p -> oneeds T this p = true \/ starts t0) ->
  exists x, fine p (EExpr [sys op; a; b]) (oparens (oneeds T this p) (ojoined [KOp op] [t0; t1]), x).
Proof.
  intros C Th Ht Nc Np C0 C1 U0 U1 St. eapply (wrap_fine op this p _ _ (PBin op a0 a1) C Th Ht).
  - eexists; reflexivity.
  - apply bin_claim; assumption.
  - cbn [conv]. rewrite unparen_expr by (intros Q; discriminate Q). cbn [map]. rewrite U0, U1. reflexivity.
  - eexists. reflexivity.
  - intros Ac. destruct (St Ac) as [A|A]; [now left|right]. rewrite ojoined_cons. destruct A as (t & r0 & -> & Nt). eexists _, _. split; [reflexivity|exact Nt].
Qed.
Lemma good_binary op a b : In op loose -> In op binary_ops -> good a -> good b -> good (EExpr [sys op; a; b]).
Proof.
  intros Il Ib Ga Gb p C. destruct (style_binary op Il Ib) as (s & Hs & Ht & Hcase & Nc & Np & Na & Ow).
  rewrite (opr_op op [a; b] s p Hs), Ht.
  destruct (level_this op (thish op) Il Hcase) as (Cc & L1 & L2).
  destruct (good_args (OUnder (thish op)) [a; b] Cc (Forall_cons _ Ga (Forall_cons _ Gb (Forall_nil _)))) as (tl & -> & F). cbn [option_map].
  pose proof (low_left (OUnder (thish op)) [a; b] L2) as Low.
  destruct tl as [|ta [|tb [|tc tl]]]; [inversion F|inversion F as [|? ? ? ? ? F']; inversion F'| |inversion F as [|? ? ? ? ? F']; inversion F' as [|? ? ? ? ? F'']; inversion F''].
  assert (St : forall t0, arithctx p -> oneeds T (thish op) p = true \/ starts t0) by (intros t0 Ac; left; exact (arith_loose op (thish op) p Il Hcase Ac)).
  assert (Q : exists x, fine p (EExpr [sys op; a; b]) (oparens (oneeds T (thish op) p)
      (ojoined [KOp op] match s with Each => map (oparens true) (map fst [ta; tb]) | _ => map fst [ta; tb] end), x)).
  { destruct s; [| congruence |].
    - destruct (fine_claims (OUnder (thish op)) (S (tprec T op)) _ _ F L1 Low) as (A & B). cbn [map] in A, B |- *.
      inversion A as [|? ? ? ? A0 A1]; subst. inversion A1 as [|? ? ? ? A2 _]; subst. injection B as B0 B1.
      apply (bin_fine op (thish op) p a b _ (snd ta) _ (snd tb)); auto.
    - destruct (surround_claims (OUnder (thish op)) (S (tprec T op)) _ _ F Low) as (A & B). cbn [map] in A, B |- *.
      inversion A as [|? ? ? ? A0 A1]; subst. inversion A1 as [|? ? ? ? A2 _]; subst. injection B as B0 B1.
      apply (bin_fine op (thish op) p a b _ (PParen (snd ta)) _ (PParen (snd tb))); auto. }
  destruct Q as [x Q]. eexists. split; [|exact Q]. reflexivity.
Qed.

(* ---- arithmetic ---- *)
Lemma level_arith op : In op arith -> ctx (OUnder op) /\ level (OUnder op) = S (tprec T op) /\ arithctx (OUnder op) /\ thish op = op.
Proof.
  intros Ia. split; [apply ctx_op; now right|]. split; [cbn [level]; rewrite in_heads by (now right); reflexivity|].
  split; [exists op; auto|]. repeat (destruct Ia as [<-|Ia]; [reflexivity|]). contradiction.
Qed.
Lemma fine_starts p args tl : arithctx p -> Forall (fun x => ~ neg_int x) args -> Forall2 (fine p) args tl -> Forall starts (map fst tl).
Proof.
  intros Ac N F. induction F as [|e ta args tl Fi F IH]; [constructor|]. inversion N; subst. cbn [map]. constructor; [|apply IH; assumption].
  destruct Fi as (_ & _ & _ & St). apply St; assumption.
Qed.
Lemma plus_joined t ts : Forall starts ts -> plus_text (t :: ts) = ojoined [KOp "Plus"] (t :: ts).
Proof.
  intros H. rewrite ojoined_cons. cbn [plus_text]. f_equal. induction H as [|u us (x & r & -> & N) F IH]; [reflexivity|].
  cbn [flat_map]. rewrite IH. f_equal. destruct x; try reflexivity. congruence.
Qed.
Lemma drop_starts b t ts : starts t -> drop_neg_one (oparens b (ojoined [KOp "Times"] (t :: ts))) = oparens b (ojoined [KOp "Times"] (t :: ts)).
Proof.
  intros (x & r & -> & N). destruct b; [reflexivity|]. cbn [oparens]. rewrite ojoined_cons. cbn [app]. destruct x; try reflexivity. congruence.
Qed.
Lemma arith_chain op p e0 e1 args (text : list (list otok) -> list otok) : op = "Plus"%string \/ op = "Times"%string -> ctx p ->
  Forall good (e0 :: e1 :: args) -> Forall (fun x => ~ neg_int x) (e0 :: e1 :: args) -> ~ absorbed op e0 ->
  (forall t ts, starts t -> Forall starts ts -> text (t :: ts) = oparens (oneeds T op p) (ojoined [KOp op] (t :: ts))) ->
  exists ta, option_map text (oall (map (opr (OUnder op)) (e0 :: e1 :: args))) = Some (fst ta) /\ fine p (EExpr (sys op :: e0 :: e1 :: args)) ta.
Proof.
  intros Ho C G N NA Tx.
  assert (Ia : In op arith) by (destruct Ho as [-> | ->]; cbn; tauto).
  assert (Ic : In op chain_ops) by (destruct Ho as [-> | ->]; cbn; tauto).
  assert (Ns : ~ In op surrounded) by (destruct Ho as [-> | ->]; cbn; intuition discriminate).
  destruct (level_arith op Ia) as (Cc & Lv & Ac & Th).
  destruct (good_args (OUnder op) (e0 :: e1 :: args) Cc G) as (tl & -> & F). cbn [option_map].
  pose proof (no_neg_right (OUnder op) (e0 :: e1 :: args) N) as Low.
  pose proof (fine_starts _ _ _ Ac N F) as Sts.
  destruct tl as [|ta [|tb tl]]; [inversion F|inversion F as [|? ? ? ? ? F']; inversion F'|].
  destruct (fine_claims (OUnder op) (S (tprec T op)) _ _ F ltac:(lia) Low) as (A & B).
  inversion F as [|? ? ? ? F0 _]; subst. rewrite <- Th in F0. destruct (first_ok op e0 ta Ic Ns NA F0) as (N1 & N2).
  cbn [map] in A, B, Sts |- *. inversion A as [|? ? ? ? A0 A1]; subst. injection B as B0 B1 B2. inversion Sts as [|? ? S0 S1]; subst.
  rewrite (Tx _ _ S0 S1).
  destruct (chain_fine op op p (unparen (cv (snd ta))) (unparen (cv (snd tb)) :: map unparen (map cv (map snd tl))) (fst ta) (snd ta) (fst tb :: map fst tl) (snd tb :: map snd tl) C (eq_sym Th) (or_introl eq_refl) Ic) as [a Q].
  - exact A0.
  - exact A1.
  - discriminate.
  - exact N1.
  - exact N2.
  - reflexivity.
  - reflexivity.
  - intros _. right. exact S0.
  - eexists. split; [|exact Q]. reflexivity.
Qed.
Lemma good_plus e0 args : args <> [] -> Forall good (e0 :: args) -> Forall (fun x => ~ neg_int x) (e0 :: args) -> ~ absorbed "Plus" e0 ->
  good (EExpr (sys "Plus" :: e0 :: args)).
Proof.
  intros NE G N NA p C. destruct args as [|e1 args]; [congruence|].
  change (opr p (EExpr (sys "Plus" :: e0 :: e1 :: args))) with
    (option_map (fun ts => oparens (oneeds T "Plus" p) (plus_text ts)) (oall (map (opr (OUnder "Plus")) (e0 :: e1 :: args)))).
  apply arith_chain; auto. intros t ts _ St. rewrite (plus_joined t ts St). reflexivity.
Qed.
Lemma unsplit_false x : unsplit x -> splits x = false.
Proof.
  intros [H1 H2]. destruct x as [s|s|z|n d|f|a1 a2|[|[g| | | | | |] [|b [|y [|]]]]]; try reflexivity; try (destruct y; reflexivity); [elim (H1 n d eq_refl)|].
  destruct y as [| |z| | | |]; try reflexivity. cbn [splits]. destruct (String.eqb_spec g (sysname "Power")) as [->|]; [|reflexivity]. cbn [andb].
  destruct (Z.eqb_spec (wrap64 z) (-1)) as [W|]; [|reflexivity]. exfalso. apply (H2 b z eq_refl). revert W. clear. unfold wrap64. intros W.
  assert (E : ((z + 2 ^ 63) mod 2 ^ 64 = 2 ^ 63 - 1)%Z) by lia. clear W. Z.div_mod_to_equations. lia.
Qed.
Lemma splits_false args : Forall unsplit args -> existsb splits args = false.
Proof. induction 1 as [|x l H F IH]; [reflexivity|]. cbn [existsb]. rewrite (unsplit_false x H). exact IH. Qed.
Lemma good_times e0 args : args <> [] -> Forall good (e0 :: args) -> Forall (fun x => ~ neg_int x) (e0 :: args) -> ~ absorbed "Times" e0 ->
  Forall unsplit (e0 :: args) -> good (EExpr (sys "Times" :: e0 :: args)).
Proof.
  intros NE G N NA Us p C. destruct args as [|e1 args]; [congruence|].
  change (opr p (EExpr (sys "Times" :: e0 :: e1 :: args))) with
    (if existsb splits (e0 :: e1 :: args) then None else
     option_map (fun ts => drop_neg_one (oparens (oneeds T "Times" p) (ojoined [KOp "Times"] ts))) (oall (map (opr (OUnder "Times")) (e0 :: e1 :: args)))).
  rewrite (splits_false _ Us). apply arith_chain; auto. intros t ts St _. apply drop_starts. exact St.
Qed.
Lemma good_power a b : good a -> good b -> ~ neg_int a -> ~ neg_int b ->
  Forall (fun y => is_sameq b y = false) [ERat 1 2; ERat (-1) 2; EInt (-1)] -> good (EExpr [sys "Power"; a; b]).
Proof.
  intros Ga Gb Na Nb H p C. inversion H as [|? ? E1 H1]; subst. inversion H1 as [|? ? E2 H2]; subst. inversion H2 as [|? ? E3 _]; subst. clear H H1 H2.
  change (opr p (EExpr [sys "Power"; a; b])) with
    (if is_sameq b (ERat 1 2) || is_sameq b (ERat (-1) 2) || is_sameq b (EInt (-1)) then None else
     option_map (fun ts => oparens (oneeds T "Power" p) (ojoined [KOp "Power"] ts)) (oall (map (opr (OUnder "Power")) [a; b]))).
  rewrite E1, E2, E3. cbn [orb]. clear E1 E2 E3.
  destruct (level_arith "Power") as (Cc & Lv & Ac & Th); [cbn; tauto|].
  assert (N : Forall (fun x => ~ neg_int x) [a; b]) by (repeat constructor; assumption).
  destruct (good_args (OUnder "Power") [a; b] Cc (Forall_cons _ Ga (Forall_cons _ Gb (Forall_nil _)))) as (tl & -> & F). cbn [option_map].
  pose proof (no_neg_right (OUnder "Power") [a; b] N) as Low. pose proof (fine_starts _ _ _ Ac N F) as Sts.
  destruct tl as [|ta [|tb [|tc tl]]]; [inversion F|inversion F as [|? ? ? ? ? F']; inversion F'| |inversion F as [|? ? ? ? ? F']; inversion F' as [|? ? ? ? ? F'']; inversion F''].
  destruct (fine_claims (OUnder "Power") (S (tprec T "Power")) _ _ F ltac:(lia) Low) as (A & B). cbn [map] in A, B, Sts |- *.
  inversion A as [|? ? ? ? A0 A1]; subst. inversion A1 as [|? ? ? ? A2 _]; subst. injection B as B0 B1. inversion Sts as [|? ? S0 S1]; subst.
  destruct (bin_fine "Power" "Power" p (unparen (cv (snd ta))) (unparen (cv (snd tb))) (fst ta) (snd ta) (fst tb) (snd tb) C eq_refl (or_introl eq_refl)) as [x Q].
  - cbn. intuition discriminate.
  - discriminate.
  - exact A0.
  - exact A2.
  - reflexivity.
  - reflexivity.
  - intros _. right. exact S0.
  - eexists. split; [|exact Q]. reflexivity.
Qed.

(* ---- the rest ---- *)
Lemma good_int z : good (EInt z).
Proof.
  intros p C. cbn [M_OpForm.opr]. destruct (Z.ltb_spec z 0) as [N|N].
  - exists (int_text z, PNeg (PInt (- z))). split; [reflexivity|]. split; [|split; [|split]]; cbn [fst snd].
    + cbn [conv unparen]. f_equal. lia.
    + intros [L|L]; [apply neg_claim; assumption|]. exfalso. apply L. exists z. split; [reflexivity|exact N].
    + right. split; [intros s l E; discriminate E|intros op l E; discriminate E].
    + intros _ L. exfalso. apply L. exists z. split; [reflexivity|exact N].
  - exists ([KInt (Z.to_N z)], PInt (Z.of_N (Z.to_N z))). unfold int_text. rewrite (proj2 (Z.ltb_ge _ _) N).
    split; [reflexivity|]. split; [|split; [|split]]; cbn [fst snd].
    + cbn [conv unparen]. f_equal. lia.
    + intros _. apply ptext_claim, int_ptext.
    + right. split; [intros s l E; discriminate E|intros op l E; discriminate E].
    + intros _ _. eexists _, _. split; [reflexivity|discriminate].
Qed.
Lemma cgood_nat z : (0 <= z)%Z -> cgood (EInt z).
Proof.
  intros N p C. cbn [M_OpForm.opr]. exists ([KInt (Z.to_N z)], PInt (Z.of_N (Z.to_N z))). unfold int_text. rewrite (proj2 (Z.ltb_ge _ _) N).
  split; [reflexivity|]. split; [|split; [|split; [|split]]]; cbn [fst snd].
  - cbn [conv unparen]. f_equal. lia.
  - apply int_ptext.
  - intros s l E; discriminate E.
  - intros op l E; discriminate E.
  - eexists _, _. split; [reflexivity|discriminate].
Qed.
Lemma plain_unicode s : plain_name s -> unicode_redefine s = s /\ s <> nParens.
Proof.
  intros H. unfold plain_name in H. cbn [In] in H. unfold unicode_redefine.
  destruct (String.eqb_spec s "π") as [->|]; [tauto|]. destruct (String.eqb_spec s "ⅈ") as [->|]; [tauto|].
  destruct (String.eqb_spec s "ⅉ") as [->|]; [tauto|]. split; [reflexivity|]. intros ->. apply H. now right; right; right; left.
Qed.
Lemma cgood_sym s : plain_name s -> cgood (ESym s).
Proof.
  intros H p C. destruct (plain_unicode s H) as (U & _). exists ([KName s], PIdent s). split; [reflexivity|]. split; [|split; [|split; [|split]]]; cbn [fst snd].
  - cbn [conv unparen]. rewrite U. reflexivity.
  - apply name_ptext.
  - intros s' l E; discriminate E.
  - intros op l E; discriminate E.
  - eexists _, _. split; [reflexivity|discriminate].
Qed.
Lemma cgood_str s : cgood (EStr s).
Proof.
  intros p C. exists ([KStr s], PString s). split; [reflexivity|]. split; [|split; [|split; [|split]]]; cbn [fst snd].
  - reflexivity.
  - apply str_ptext.
  - intros s' l E; discriminate E.
  - intros op l E; discriminate E.
  - eexists _, _. split; [reflexivity|discriminate].
Qed.

Lemma blank_parse k b h s : blank_of k b -> no_under s -> no_under h -> h <> "."%string ->
  parse_pattern (append s (append (under k) h)) =
  (let bl := EExpr (sys b :: if String.eqb h "" then [] else [ESym h]) in if String.eqb s "" then bl else EExpr [sys "Pattern"; ESym s; bl]).
Proof.
  intros B Hs Hh Hd. assert (L : 1 <= k <= 3) by (destruct B; lia).
  pose proof (T_Parse.C53_pattern s h k Hs Hh L (fun Q => Hd (proj2 Q))) as E. cbv zeta in E |- *. rewrite E. destruct B; reflexivity.
Qed.
Lemma no_under_nil : no_under ""%string.
Proof. intros a b. destruct a; discriminate. Qed.
(* a blank: its text, and how that text continues a name *)
Lemma blank_facts e : blank e -> is_blank e = true /\ exists t, blank_text e = Some t /\ unparen e = e /\ parse_pattern t = e /\
  (forall s, pattern_name s -> parse_pattern (append s t) = EExpr [sys "Pattern"; ESym s; e]) /\
  exists b l, e = EExpr (sys b :: l) /\ In b ["Blank"; "BlankSequence"; "BlankNullSequence"]%string.
Proof.
  intros [k b B|k b h B [Hne Hu] Hd].
  - split; [destruct B; reflexivity|]. exists (under k). split; [destruct B; reflexivity|]. split; [destruct B; reflexivity|]. split; [destruct B; reflexivity|].
    split; [|exists b, []; split; [reflexivity|destruct B; cbn; tauto]].
    intros s [Hs1 Hs2]. pose proof (blank_parse k b "" s B Hs2 no_under_nil ltac:(discriminate)) as E. cbv zeta in E.
    rewrite app_nil_s in E. rewrite E. destruct (String.eqb_spec s "") as [->|]; [congruence|]. reflexivity.
  - split; [destruct B; reflexivity|]. exists (append (under k) h). split; [destruct B; reflexivity|]. split; [destruct B; reflexivity|].
    assert (Eh : String.eqb h "" = false) by (destruct (String.eqb_spec h ""); [contradiction|reflexivity]).
    split; [|split; [|exists b, [ESym h]; split; [reflexivity|destruct B; cbn; tauto]]].
    + pose proof (blank_parse k b h "" B no_under_nil Hu Hd) as E. cbv zeta in E. rewrite Eh in E. exact E.
    + intros s [Hs1 Hs2]. pose proof (blank_parse k b h s B Hs2 Hu Hd) as E. cbv zeta in E. rewrite Eh in E.
      rewrite E. destruct (String.eqb_spec s "") as [->|]; [congruence|]. reflexivity.
Qed.
Lemma cgood_blank e : blank e -> cgood e.
Proof.
  intros H p C. destruct (blank_facts e H) as (Ib & t & Et & U & P & _ & b & l & He & Hb). exists ([KPat t], PPattern t).
  split; [|split; [|split; [|split; [|split]]]]; cbn [fst snd].
  - assert (Q : opr p e = option_map (fun s => [KPat s]) (blank_text e)).
    { rewrite He. destruct Hb as [<-|[<-|[<-|[]]]]; reflexivity. }
    rewrite Q, Et. reflexivity.
  - cbn [conv]. rewrite P. exact U.
  - apply pat_ptext.
  - intros s l' E. cbn [conv] in E. rewrite P in E. exists l'. exact E.
  - intros op l' E I. exfalso. rewrite He in E. injection E as E _. subst op. cbn in I.
    destruct Hb as [<-|[<-|[<-|[]]]]; intuition discriminate.
  - eexists _, _. split; [reflexivity|discriminate].
Qed.
Lemma cgood_pattern s e : pattern_name s -> blank e -> cgood (EExpr [sys "Pattern"; ESym s; e]).
Proof.
  intros Hs H p C. destruct (blank_facts e H) as (Ib & t & Et & U & _ & P & _). exists ([KPat (append s t)], PPattern (append s t)).
  split; [|split; [|split; [|split; [|split]]]]; cbn [fst snd].
  - change (opr p (EExpr [sys "Pattern"; ESym s; e])) with
      (if is_blank e then match blank_text e with Some t => Some [KPat (append s t)] | None => None end
       else match opr p (ESym s), opr p e with
            | Some tx, Some tb => Some (KLP :: tx ++ [KRP; KOp "Pattern"; KLP] ++ tb ++ [KRP])
            | _, _ => None
            end).
    rewrite Ib, Et. reflexivity.
  - cbn [conv]. rewrite (P s Hs). rewrite unparen_sys. cbn [map unparen]. rewrite U. reflexivity.
  - apply pat_ptext.
  - intros s' l' E. cbn [conv] in E. rewrite (P s Hs) in E. exists l'. exact E.
  - intros op l' E I. exfalso. injection E as E _. subst op. cbn in I. intuition discriminate.
  - eexists _, _. split; [reflexivity|discriminate].
Qed.
Lemma cgood_list args : Forall good args -> cgood (EExpr (sys "List" :: args)).
Proof.
  intros G p C. destruct (top_args args G) as (texts & l & E & F & U). exists (KLC :: ojoined [KComma] texts ++ [KRC], PList l).
  split; [|split; [|split; [|split; [|split]]]]; cbn [fst snd].
  - change (opr p (EExpr (sys "List" :: args))) with (option_map (fun ts => KLC :: ojoined [KComma] ts ++ [KRC]) (oall (map (opr OTop) args))).
    rewrite E. reflexivity.
  - cbn [conv]. change sList with (sys "List"). rewrite unparen_sys, U. reflexivity.
  - apply list_ptext. exact F.
  - intros s l' Q. cbn [conv] in Q. injection Q as <- _. exists args. reflexivity.
  - intros op l' Q I. exfalso. injection Q as Q _. subst op. cbn in I. intuition discriminate.
  - eexists _, _. split; [reflexivity|discriminate].
Qed.
Lemma cgood_part e i args : cgood e -> Forall good (i :: args) -> cgood (EExpr (sys "Part" :: e :: i :: args)).
Proof.
  intros Ge G p C. destruct (Ge p C) as ([te ae] & Ee & Ue & Pe & _ & _ & Ste). cbn [fst snd] in *.
  destruct (top_args (i :: args) G) as (texts & l & E & F & U). exists (te ++ KLBB :: ojoined [KComma] texts ++ [KRBB], PPart ae l).
  split; [|split; [|split; [|split; [|split]]]]; cbn [fst snd].
  - change (opr p (EExpr (sys "Part" :: e :: i :: args))) with
      (match opr p e, oall (map (opr OTop) (i :: args)) with
       | Some t, Some ts => Some (t ++ KLBB :: ojoined [KComma] ts ++ [KRBB])
       | _, _ => None
       end). rewrite Ee, E. reflexivity.
  - cbn [conv]. rewrite unparen_sys. cbn [map]. rewrite Ue, U. reflexivity.
  - apply part_ptext; assumption.
  - intros s l' Q. cbn [conv] in Q. injection Q as <- _. exists (e :: i :: args). reflexivity.
  - intros op l' Q I. exfalso. injection Q as Q _. subst op. cbn in I. intuition discriminate.
  - destruct Ste as (t & r & -> & N). eexists _, _. split; [reflexivity|exact N].
Qed.
Lemma cgood_apply h args : cgood h -> is_sym h = false -> Forall good args -> cgood (EExpr (h :: args)).
Proof.
  intros Gh Ns G p C. destruct (Gh p C) as ([th ah] & Eh & Uh & Ph & _ & _ & Sth). cbn [fst snd] in *.
  destruct (top_args args G) as (texts & l & E & F & U). exists (th ++ KLB :: ojoined [KComma] texts ++ [KRB], PCall ah l).
  assert (Nc : forall s, cv ah <> ESym s) by (intros s Q; rewrite Q in Uh; cbn [unparen] in Uh; subst h; discriminate Ns).
  split; [|split; [|split; [|split; [|split]]]]; cbn [fst snd].
  - assert (Q : opr p (EExpr (h :: args)) = match opr p h, oall (map (opr OTop) args) with
                  | Some th, Some ts => Some (th ++ KLB :: ojoined [KComma] ts ++ [KRB]) | _, _ => None end).
    { destruct h; try reflexivity. discriminate Ns. }
    rewrite Q, Eh, E. reflexivity.
  - cbn [conv]. rewrite unparen_expr by apply Nc. cbn [map]. rewrite Uh, U. reflexivity.
  - apply call_ptext; assumption.
  - intros s l' Q. cbn [conv] in Q. injection Q as Q _. elim (Nc s Q).
  - intros op l' Q I. exfalso. injection Q as Q _. rewrite Q in Ns. discriminate Ns.
  - destruct Sth as (t & r & -> & N). eexists _, _. split; [reflexivity|exact N].
Qed.

Lemma style_none op n : (In op chain_ops -> n < 2) -> (In op binary_ops -> op <> "Power"%string -> n <> 2) -> op_style op n = None.
Proof.
  intros H1 H2. unfold op_style. cbv zeta.
  destruct (existsb (String.eqb op) ["And"; "Or"; "StringJoin"]%string) eqn:Q1.
  { apply existsb_in in Q1. rewrite (proj2 (Nat.ltb_lt n 2)); [reflexivity|]. apply H1. cbn in Q1 |- *. tauto. }
  destruct (existsb (String.eqb op) ["Equal"; "Unequal"; "SameQ"; "UnsameQ"]%string) eqn:Q2.
  { apply existsb_in in Q2. rewrite (proj2 (Nat.ltb_lt n 2)); [reflexivity|]. apply H1. cbn in Q2 |- *. tauto. }
  destruct (existsb (String.eqb op) ["Less"; "Greater"; "LessEqual"; "GreaterEqual"]%string) eqn:Q3.
  { apply existsb_in in Q3. rewrite (proj2 (Nat.ltb_lt n 2)); [reflexivity|]. apply H1. cbn in Q3 |- *. tauto. }
  destruct (existsb (String.eqb op) ["ReplaceAll"; "ReplaceRepeated"]%string) eqn:Q4.
  { apply existsb_in in Q4. rewrite (proj2 (Nat.eqb_neq n 2)); [reflexivity|]. apply H2; cbn in Q4 |- *; [tauto|]. intros ->. intuition discriminate. }
  destruct (existsb (String.eqb op) ["Rule"; "RuleDelayed"; "Set"; "SetDelayed"]%string) eqn:Q5; [|reflexivity].
  apply existsb_in in Q5. rewrite (proj2 (Nat.eqb_neq n 2)); [reflexivity|]. apply H2; cbn in Q5 |- *; [tauto|]. intros ->. intuition discriminate.
Qed.
Lemma opr_call h args p : call_form h args -> Forall (fun x => h = sysname "Times" -> unsplit x) args ->
  opr p (EExpr (ESym h :: args)) = option_map (fun ts => KName h :: KLB :: ojoined [KComma] ts ++ [KRB]) (oall (map (opr OTop) args)).
Proof.
  intros (Pn & H) Us. cbn [M_OpForm.opr].
  assert (Nb : forall b, In b notations -> h <> sysname b) by (intros b Ib Q; exact (proj1 (H b Q) Ib)).
  destruct (short_cases h) as [Eh|Eh].
  - destruct (H (short h) Eh) as (Nn & Hc & Hb & Hp). rewrite (style_none _ _ Hc Hb). cbn [app].
    destruct (String.eqb_spec (short h) "Plus") as [Q|_].
    { rewrite (proj2 (Nat.ltb_lt _ 2)); [reflexivity|]. apply Hc. rewrite Q. cbn. tauto. }
    destruct (String.eqb_spec (short h) "Times") as [Q|_].
    { rewrite splits_false.
      - rewrite (proj2 (Nat.ltb_lt _ 2)); [reflexivity|]. apply Hc. rewrite Q. cbn. tauto.
      - eapply Forall_impl; [|exact Us]. intros x Hx. apply Hx. rewrite Eh, Q. reflexivity. }
    destruct (String.eqb_spec (short h) "Power") as [Q|_].
    { specialize (Hp Q). destruct args as [|x [|y [|w r]]]; cbn [length] in Hp; try lia; reflexivity. }
    destruct (String.eqb_spec (short h) "List") as [Q|_]; [exfalso; apply Nn; rewrite Q; cbn; tauto|].
    destruct (String.eqb_spec (short h) "Part") as [Q|_]; [exfalso; apply Nn; rewrite Q; cbn; tauto|].
    destruct (String.eqb_spec (short h) "Pattern") as [Q|_]; [exfalso; apply Nn; rewrite Q; cbn; tauto|].
    assert (B : is_blank (EExpr (ESym h :: args)) = false).
    { unfold is_blank, has_head. cbn [head_assertion]. 
      destruct (String.eqb_spec h (sysname "Blank")) as [Q|_]; [exfalso; apply (Nb "Blank"%string); [cbn; tauto|exact Q]|].
      destruct (String.eqb_spec h (sysname "BlankSequence")) as [Q|_]; [exfalso; apply (Nb "BlankSequence"%string); [cbn; tauto|exact Q]|].
      destruct (String.eqb_spec h (sysname "BlankNullSequence")) as [Q|_]; [exfalso; apply (Nb "BlankNullSequence"%string); [cbn; tauto|exact Q]|].
      reflexivity. }
    rewrite B. rewrite existsb_nin; [reflexivity|]. intros Q. apply Nn. cbn in Q |- *. tauto.
  - rewrite Eh. assert (B : is_blank (EExpr (ESym h :: args)) = false).
    { unfold is_blank, has_head. cbn [head_assertion].
      destruct (String.eqb_spec h (sysname "Blank")) as [Q|_]; [exfalso; apply (Nb "Blank"%string); [cbn; tauto|exact Q]|].
      destruct (String.eqb_spec h (sysname "BlankSequence")) as [Q|_]; [exfalso; apply (Nb "BlankSequence"%string); [cbn; tauto|exact Q]|].
      destruct (String.eqb_spec h (sysname "BlankNullSequence")) as [Q|_]; [exfalso; apply (Nb "BlankNullSequence"%string); [cbn; tauto|exact Q]|].
      reflexivity. }
    rewrite B. reflexivity.
Qed.
Lemma cgood_call h args : call_form h args -> Forall good args -> Forall (fun x => h = sysname "Times" -> unsplit x) args -> cgood (EExpr (ESym h :: args)).
Proof.
  intros Cf G Us p C. pose proof (opr_call h args p Cf Us) as Q. destruct Cf as (Pn & H). destruct (plain_unicode h Pn) as (Uh & Np).
  destruct (top_args args G) as (texts & l & E & F & U). exists ([KName h] ++ KLB :: ojoined [KComma] texts ++ [KRB], PCall (PIdent h) l).
  split; [|split; [|split; [|split; [|split]]]]; cbn [fst snd].
  - rewrite Q, E. reflexivity.
  - cbn [conv]. rewrite Uh, unparen_expr by congruence. cbn [map unparen]. rewrite U. reflexivity.
  - apply call_ptext; [apply name_ptext|exact F].
  - intros s l' R. cbn [conv] in R. rewrite Uh in R. injection R as <- _. exists args. reflexivity.
  - intros op l' R I. injection R as -> <-. destruct (H op eq_refl) as (_ & Hc & _). exact (Hc I).
  - eexists _, _. split; [reflexivity|discriminate].
Qed.

Lemma in_size x h l : In x l -> ex_size x < ex_size (EExpr (h :: l)).
Proof.
  intros H. enough (ex_size x < ex_size (EExpr l)) by (cbn [ex_size map list_sum fold_right] in *; lia).
  induction l as [|y l IH]; [contradiction|]. cbn [ex_size map list_sum fold_right] in *. destruct H as [->|H]; [lia|]. specialize (IH H). lia.
Qed.
Lemma forall_good n (P : ex -> Prop) h l : (forall e, ex_size e < n -> writable e -> P e) -> ex_size (EExpr (h :: l)) < S n -> Forall writable l -> Forall P l.
Proof.
  intros IH L F. apply Forall_forall. intros x Hx. apply IH; [|rewrite Forall_forall in F; exact (F x Hx)].
  pose proof (in_size x h l Hx). lia.
Qed.
Lemma writable_good : forall n e, ex_size e < n -> (writable e -> good e) /\ (closed e -> cgood e).
Proof.
  induction n as [|n IH]; [lia|]. intros e L.
  assert (IHw : forall x, ex_size x < n -> writable x -> good x) by (intros x Lx; exact (proj1 (IH x Lx))).
  assert (IHc : forall x, ex_size x < n -> closed x -> cgood x) by (intros x Lx; exact (proj2 (IH x Lx))).
  assert (Hc : closed e -> cgood e).
  { intros W. destruct W as [s H|z H|s H|e H|s e Hs H|args F|h args Cf F Us|e i args H F|h args H Ns F].
    - apply cgood_sym. exact H.
    - apply cgood_nat. exact H.
    - apply cgood_str.
    - apply cgood_blank. exact H.
    - apply cgood_pattern; assumption.
    - apply cgood_list. exact (forall_good n good _ _ IHw L F).
    - apply cgood_call; [exact Cf| |exact Us]. exact (forall_good n good _ _ IHw L F).
    - assert (Le : ex_size e < n) by (pose proof (in_size e (sys "Part") (e :: i :: args) (or_introl eq_refl)); lia).
      apply cgood_part; [exact (IHc e Le H)|]. apply Forall_forall. intros x Hx. apply IHw.
      + pose proof (in_size x (sys "Part") (e :: i :: args) (or_intror Hx)). lia.
      + rewrite Forall_forall in F. exact (F x Hx).
    - assert (Le : ex_size h < n) by (cbn [ex_size map list_sum fold_right] in L; lia).
      apply cgood_apply; [exact (IHc h Le H)|exact Ns|]. exact (forall_good n good _ _ IHw L F). }
  split; [|exact Hc]. intros W. destruct W as [z|e H|op e0 args Il Ic NE F NA|op a b Il Ib Wa Wb|e0 args NE F N NA|e0 args NE F N NA Us|a b Wa Wb Na Nb H].
  - apply good_int.
  - apply cgood_good, Hc. exact H.
  - apply good_chain; try assumption. exact (forall_good n good _ _ IHw L F).
  - assert (La : ex_size a < n) by (pose proof (in_size a (sys op) [a; b] (or_introl eq_refl)); lia).
    assert (Lb : ex_size b < n) by (pose proof (in_size b (sys op) [a; b] (or_intror (or_introl eq_refl))); lia).
    apply good_binary; auto.
  - apply good_plus; try assumption. exact (forall_good n good _ _ IHw L F).
  - apply good_times; try assumption. exact (forall_good n good _ _ IHw L F).
  - assert (La : ex_size a < n) by (pose proof (in_size a (sys "Power") [a; b] (or_introl eq_refl)); lia).
    assert (Lb : ex_size b < n) by (pose proof (in_size b (sys "Power") [a; b] (or_intror (or_introl eq_refl))); lia).
    apply good_power; auto.
Qed.
Lemma printed_reads e p : writable e -> p = OTop \/ p = OUnder "" -> exists ts, opr p e = Some ts /\ op_reads T nf ts e.
Proof.
  intros W Hp. assert (C : ctx p) by (destruct Hp as [-> | ->]; [apply ctx_top|apply ctx_anon]).
  assert (Lv : level p <= uminus T) by (destruct Hp as [-> | ->]; cbn; lia).
  destruct (proj1 (writable_good (S (ex_size e)) e (Nat.lt_succ_diag_r _)) W p C) as ([ts a] & E & U & Cl & _). cbn [fst snd] in *.
  exists ts. split; [exact E|]. specialize (Cl (or_introl Lv)).
  destruct (claim_whole T (level p) ts a [] Cl Logic.I) as [n R]. rewrite app_nil_r in R. exists n, a. split; [exact R|exact U].
Qed.
End Tab.
Lemma op_reads_fun T nf ts e e' : op_reads T nf ts e -> op_reads T nf ts e' -> e = e'.
Proof.
  intros (n & p & R & <-) (n' & p' & R' & <-).
  assert (Q : (p, @nil otok) = (p', [])) by exact (Rd_fun T (QExpr 0) ts _ _ (ex_intro _ n R) (ex_intro _ n' R')). congruence.
Qed.
