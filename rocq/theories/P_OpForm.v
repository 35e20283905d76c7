(* Lemmas for C102: printed operators are read back. *)
From Verif Require Import M_Syntax M_Float M_Hash M_Parse M_OpForm S_Parse S_InputForm S_OpForm P_Parse.
Open Scope nat_scope.

Section Tab.
Variable T : table.
Variable nf : flt -> flt.
Notation ord := (ord T).
Notation opr := (opr T).
Notation cv := (conv nf).

Lemma ord_mono1 : forall n ph ts r, ord n ph ts = Some r -> ord (S n) ph ts = Some r.
Proof.
  induction n as [|n IH]; intros ph ts r H; [discriminate|].
  revert IH. generalize (S n) at 1 2. intros k IH.
  destruct ph as [m|m a| |a|c f args|c f args]; cbn [S_OpForm.ord] in H |- *.
  - destruct (ord n QUnary ts) as [[a r1]|] eqn:E; [|discriminate]. apply IH in E. rewrite E. apply IH. exact H.
  - destruct ts as [|[] t]; try exact H.
    + destruct (m <=? tprec T "Plus"); [|exact H].
      destruct (ord n (QExpr (S (tprec T "Plus"))) t) as [[b r1]|] eqn:E; [|discriminate]. apply IH in E. rewrite E. apply IH. exact H.
    + destruct (m <=? tprec T op); [|exact H].
      destruct (ord n (QExpr (if right T op then tprec T op else S (tprec T op))) t) as [[b r1]|] eqn:E; [|discriminate].
      apply IH in E. rewrite E. apply IH. exact H.
  - destruct ts as [|[] t]; try exact H; try (apply IH; exact H).
    + destruct (ord n (QExpr (uminus T)) t) as [[b r1]|] eqn:E; [|discriminate]. apply IH in E. rewrite E. exact H.
    + destruct (ord n (QExpr 0) t) as [[b r1]|] eqn:E; [|discriminate]. apply IH in E. rewrite E. destruct r1 as [|[] r1]; try discriminate. apply IH. exact H.
    + destruct (ord n (QArgs KRC (PIdent "") []) t) as [[b r1]|] eqn:E; [|discriminate]. apply IH in E. rewrite E. apply IH. exact H.
  - destruct ts as [|[] t]; try exact H.
    + destruct (ord n (QArgs KRB a []) t) as [[b r1]|] eqn:E; [|discriminate]. apply IH in E. rewrite E. apply IH. exact H.
    + destruct (ord n (QArgs KRBB a []) t) as [[b r1]|] eqn:E; [|discriminate]. apply IH in E. rewrite E. apply IH. exact H.
  - destruct ts as [|t r0]; [discriminate|]. destruct (closes c t); [exact H|].
    destruct (ord n (QExpr 0) (t :: r0)) as [[b r1]|] eqn:E; [|discriminate]. apply IH in E. rewrite E. apply IH. exact H.
  - destruct ts as [|[] t]; try exact H.
    destruct (ord n (QExpr 0) t) as [[b r1]|] eqn:E; [|discriminate]. apply IH in E. rewrite E. apply IH. exact H.
Qed.
Lemma ord_mono : forall m n ph ts r, ord n ph ts = Some r -> n <= m -> ord m ph ts = Some r.
Proof. intros m n ph ts r H L. induction L as [|m L IH]; [exact H|]. apply ord_mono1. exact IH. Qed.

Definition Rd ph ts res := exists n, ord n ph ts = Some res.
Lemma Rd_fun ph ts r r' : Rd ph ts r -> Rd ph ts r' -> r = r'.
Proof.
  intros [n H] [m H']. apply (ord_mono (n + m)) in H; [|lia]. apply (ord_mono (n + m)) in H'; [|lia]. congruence.
Qed.

Ltac two H H' n m := apply (ord_mono (n + m)) in H; [|lia]; apply (ord_mono (n + m)) in H'; [|lia].
Lemma Rd_expr m ts a r res : Rd QUnary ts (a, r) -> Rd (QLoop m a) r res -> Rd (QExpr m) ts res.
Proof. intros [n H] [k H']. two H H' n k. exists (S (n + k)). cbn [S_OpForm.ord]. rewrite H. exact H'. Qed.
Lemma Rd_unary_inv m ts res : Rd (QExpr m) ts res -> exists a r, Rd QUnary ts (a, r) /\ Rd (QLoop m a) r res.
Proof.
  intros [[|n] H]; [discriminate|]. cbn [S_OpForm.ord] in H. destruct (S_OpForm.ord T n QUnary ts) as [[a r]|] eqn:E; [|discriminate].
  exists a, r. split; [exists n; exact E|exists n; exact H].
Qed.
Lemma Rd_op m a op r b r' res : m <= tprec T op -> Rd (QExpr (if right T op then tprec T op else S (tprec T op))) r (b, r') ->
  Rd (QLoop m (build op a b)) r' res -> Rd (QLoop m a) (KOp op :: r) res.
Proof.
  intros L [n H] [k H']. two H H' n k. exists (S (n + k)). cbn [S_OpForm.ord]. rewrite (proj2 (Nat.leb_le _ _) L). rewrite H. exact H'.
Qed.
Definition stops (m : nat) (rest : list otok) : Prop :=
  match rest with KOp op :: _ => tprec T op < m | KMinus :: _ => tprec T "Plus" < m | _ => True end.
Lemma Rd_stop m a rest : stops m rest -> Rd (QLoop m a) rest (a, rest).
Proof.
  intros H. exists 1. cbn [S_OpForm.ord]. destruct rest as [|[] t]; try reflexivity; cbn [stops] in H.
  - rewrite (proj2 (Nat.leb_gt _ _) H). reflexivity.
  - rewrite (proj2 (Nat.leb_gt _ _) H). reflexivity.
Qed.
Lemma Rd_post a rest : match rest with KLB :: _ | KLBB :: _ => False | _ => True end -> Rd (QPost a) rest (a, rest).
Proof. intros H. exists 1. cbn [S_OpForm.ord]. destruct rest as [|[] t]; try reflexivity; contradiction. Qed.

(* what may follow a text of precedence k *)
Definition follow (k : nat) (rest : list otok) : Prop :=
  stops k rest /\ match rest with KLB :: _ | KLBB :: _ => False | _ => True end.
Lemma follow_mono k k' rest : k <= k' -> follow k rest -> follow k' rest.
Proof. intros L [H H']. split; [|exact H']. destruct rest as [|[] t]; try exact Logic.I; cbn [stops] in *; lia. Qed.

Definition claim (k : nat) (ts : list otok) (a : past) : Prop :=
  forall m rest res, m <= k -> follow k rest -> Rd (QLoop m a) rest res -> Rd (QExpr m) (ts ++ rest) res.
Lemma claim_mono k k' ts a : k' <= k -> claim k ts a -> claim k' ts a.
Proof. intros L H m rest res Lm F. apply H; [lia|]. exact (follow_mono _ _ _ L F). Qed.
Definition ptext (ts : list otok) (a : past) : Prop :=
  forall rest res, Rd (QPost a) rest res -> Rd QUnary (ts ++ rest) res.
Lemma ptext_claim k ts a : ptext ts a -> claim k ts a.
Proof.
  intros H m rest res Lm [F F'] R. eapply Rd_expr; [|exact R]. apply H. apply Rd_post. exact F'.
Qed.
(* a whole argument: followed by a comma or a closing bracket, or nothing *)
Definition ender (rest : list otok) : Prop := match rest with [] | KComma :: _ | KRP :: _ | KRB :: _ | KRC :: _ | KRBB :: _ => True | _ => False end.
Lemma ender_follow k rest : ender rest -> follow k rest.
Proof. intros H. split; destruct rest as [|[] t]; try exact Logic.I; contradiction. Qed.
Lemma claim_whole k ts a rest : claim k ts a -> ender rest -> Rd (QExpr 0) (ts ++ rest) (a, rest).
Proof.
  intros H E. apply H; [lia|exact (ender_follow _ _ E)|]. apply Rd_stop. exact (proj1 (ender_follow 0 _ E)).
Qed.
Lemma paren_ptext k ts a : claim k ts a -> ptext (KLP :: ts ++ [KRP]) (PParen a).
Proof.
  intros H rest res [n R]. cbn [app]. rewrite <- app_assoc. cbn [app].
  destruct (claim_whole k ts a (KRP :: rest) H Logic.I) as [m E]. two R E n m.
  exists (S (n + m)). cbn [S_OpForm.ord]. rewrite E. exact R.
Qed.

(* arguments *)
Lemma ojoined_cons d t ts : ojoined d (t :: ts) = t ++ flat_map (fun x => d ++ x) ts.
Proof.
  revert t. induction ts as [|u us IH]; intros t; [cbn; now rewrite app_nil_r|]. cbn [ojoined flat_map].
  rewrite <- app_assoc. f_equal. f_equal. rewrite <- IH. reflexivity.
Qed.
Definition closer (c : otok) : Prop := c = KRB \/ c = KRC \/ c = KRBB.
Lemma Rd_more_end c f args rest : closer c -> Rd (QMore c f args) (c :: rest) (finish c f args, rest).
Proof. intros [-> | [-> | ->]]; exists 1; reflexivity. Qed.
Lemma Rd_more_comma c f args ts a r res : Rd (QExpr 0) ts (a, r) -> Rd (QMore c f (args ++ [a])) r res -> Rd (QMore c f args) (KComma :: ts) res.
Proof. intros [n H] [k H']. two H H' n k. exists (S (n + k)). cbn [S_OpForm.ord]. rewrite H. exact H'. Qed.
Lemma more_args c f texts l : closer c -> Forall2 (claim 0) texts l -> forall args rest,
  Rd (QMore c f args) (flat_map (fun x => [KComma] ++ x) texts ++ c :: rest) (finish c f (args ++ l), rest).
Proof.
  intros C H. induction H as [|t a ts l H F IH]; intros args rest.
  - cbn [flat_map app]. rewrite app_nil_r. apply Rd_more_end. exact C.
  - cbn [flat_map]. rewrite <- !app_assoc. cbn [app]. eapply Rd_more_comma.
    + apply (claim_whole 0); [exact H|]. destruct ts; cbn [flat_map app]; [|exact Logic.I]. destruct C as [-> | [-> | ->]]; exact Logic.I.
    + replace (args ++ a :: l) with ((args ++ [a]) ++ l) by (rewrite <- app_assoc; reflexivity). apply IH.
Qed.
Lemma unary_opener ts res : Rd QUnary ts res -> exists t r, ts = t :: r /\ forall c, closer c -> closes c t = false.
Proof.
  intros [[|n] H]; [discriminate|]. cbn [S_OpForm.ord] in H. destruct ts as [|t r]; [discriminate|]. exists t, r. split; [reflexivity|].
  intros c [-> | [-> | ->]]; destruct t; try reflexivity; discriminate.
Qed.
Lemma Rd_args_first c f ts a r res : closer c -> Rd (QExpr 0) ts (a, r) -> Rd (QMore c f [a]) r res -> Rd (QArgs c f []) ts res.
Proof.
  intros C H H'. destruct (Rd_unary_inv _ _ _ H) as (a1 & r1 & U & _). destruct (unary_opener _ _ U) as (t & r0 & -> & N).
  destruct H as [n H], H' as [k H']. two H H' n k. exists (S (n + k)). cbn [S_OpForm.ord]. rewrite (N c C), H. exact H'.
Qed.
Lemma args_read c f texts l rest : closer c -> Forall2 (claim 0) texts l ->
  Rd (QArgs c f []) (ojoined [KComma] texts ++ c :: rest) (finish c f l, rest).
Proof.
  intros C H. destruct H as [|t a ts l H F].
  - cbn [ojoined app]. exists 1. destruct C as [-> | [-> | ->]]; reflexivity.
  - rewrite ojoined_cons, <- app_assoc. eapply (Rd_args_first c); [exact C| |exact (more_args c f ts l C F [a] rest)].
    apply (claim_whole 0); [exact H|]. destruct ts; cbn [flat_map app]; [|exact Logic.I]. destruct C as [-> | [-> | ->]]; exact Logic.I.
Qed.

(* primary texts *)
Lemma Rd_step1 t r a res : (forall n, ord (S n) QUnary (t :: r) = ord n (QPost a) r) -> Rd (QPost a) r res -> Rd QUnary (t :: r) res.
Proof. intros E [n H]. exists (S n). rewrite E. exact H. Qed.
Lemma name_ptext s : ptext [KName s] (PIdent s).
Proof. intros rest res H. apply (Rd_step1 _ _ (PIdent s)); [reflexivity|exact H]. Qed.
Lemma str_ptext s : ptext [KStr s] (PString s).
Proof. intros rest res H. apply (Rd_step1 _ _ (PString s)); [reflexivity|exact H]. Qed.
Lemma pat_ptext s : ptext [KPat s] (PPattern s).
Proof. intros rest res H. apply (Rd_step1 _ _ (PPattern s)); [reflexivity|exact H]. Qed.
Lemma int_ptext k : ptext [KInt k] (PInt (Z.of_N k)).
Proof. intros rest res H. apply (Rd_step1 _ _ (PInt (Z.of_N k))); [reflexivity|exact H]. Qed.
Lemma list_ptext texts l : Forall2 (claim 0) texts l -> ptext (KLC :: ojoined [KComma] texts ++ [KRC]) (PList l).
Proof.
  intros F rest res [n R]. cbn [app]. rewrite <- app_assoc. cbn [app].
  destruct (args_read KRC (PIdent "") texts l rest (or_intror (or_introl eq_refl)) F) as [m E]. two R E n m.
  exists (S (n + m)). cbn [S_OpForm.ord]. rewrite E. exact R.
Qed.
Lemma call_ptext th f texts l : ptext th f -> Forall2 (claim 0) texts l -> ptext (th ++ KLB :: ojoined [KComma] texts ++ [KRB]) (PCall f l).
Proof.
  intros Hf F rest res [n R]. rewrite <- app_assoc. apply Hf. cbn [app]. rewrite <- app_assoc. cbn [app].
  destruct (args_read KRB f texts l rest (or_introl eq_refl) F) as [m E]. two R E n m.
  exists (S (n + m)). cbn [S_OpForm.ord]. rewrite E. exact R.
Qed.
Lemma part_ptext th f texts l : ptext th f -> Forall2 (claim 0) texts l -> ptext (th ++ KLBB :: ojoined [KComma] texts ++ [KRBB]) (PPart f l).
Proof.
  intros Hf F rest res [n R]. rewrite <- app_assoc. apply Hf. cbn [app]. rewrite <- app_assoc. cbn [app].
  destruct (args_read KRBB f texts l rest (or_intror (or_intror eq_refl)) F) as [m E]. two R E n m.
  exists (S (n + m)). cbn [S_OpForm.ord]. rewrite E. exact R.
Qed.
Lemma neg_claim k z : k <= uminus T -> (z < 0)%Z -> claim k (int_text z) (PNeg (PInt (- z))).
Proof.
  intros L N m rest res Lm [F F'] R. unfold int_text. rewrite (proj2 (Z.ltb_lt _ _) N). cbn [app].
  eapply Rd_expr; [|exact R].
  assert (S0 : stops (uminus T) rest) by (destruct rest as [|[] t]; try exact Logic.I; cbn [stops] in *; lia).
  destruct (Rd_expr (uminus T) (KInt (Z.to_N (- z)) :: rest) (PInt (- z)) rest (PInt (- z), rest)) as [n E].
  - replace (PInt (- z)) with (PInt (Z.of_N (Z.to_N (- z)))) by (f_equal; lia). apply int_ptext. apply Rd_post. exact F'.
  - apply Rd_stop. exact S0.
  - exists (S n). cbn [S_OpForm.ord]. rewrite E. reflexivity.
Qed.

(* operators *)
Lemma chain_read op texts l : right T op = false -> In op chain_ops -> Forall2 (claim (S (tprec T op))) texts l ->
  forall a0 m rest res, m <= tprec T op -> follow (tprec T op) rest -> Rd (QLoop m (chain a0 (map (fun a => (op, a)) l))) rest res ->
  Rd (QLoop m a0) (flat_map (fun x => [KOp op] ++ x) texts ++ rest) res.
Proof.
  intros Hr Hc F. induction F as [|t a ts l H F IH]; intros a0 m rest res Lm Fo R; [exact R|].
  cbn [flat_map app]. rewrite <- app_assoc. set (rest' := flat_map _ ts ++ rest).
  assert (Fo' : follow (S (tprec T op)) rest').
  { unfold rest'. destruct ts as [|u us]; cbn [flat_map app]; [exact (follow_mono _ _ _ (Nat.le_succ_diag_r _) Fo)|].
    split; [cbn [stops]; lia|exact Logic.I]. }
  apply (Rd_op m a0 op _ a rest'); [exact Lm| |].
  - rewrite Hr. apply H; [lia|exact Fo'|]. apply Rd_stop. exact (proj1 Fo').
  - replace (build op a0 a) with (PAssoc op a0 a).
    + apply IH; [exact Lm|exact Fo|exact R].
    + unfold build. replace (existsb (String.eqb op) chain_ops) with true; [reflexivity|]. symmetry. apply existsb_exists. exists op. split; [exact Hc|apply String.eqb_refl].
Qed.
Lemma chain_claim op t0 a0 texts l : right T op = false -> In op chain_ops -> claim (S (tprec T op)) t0 a0 -> texts <> [] ->
  Forall2 (claim (S (tprec T op))) texts l ->
  claim (tprec T op) (ojoined [KOp op] (t0 :: texts)) (chain a0 (map (fun a => (op, a)) l)).
Proof.
  intros Hr Hc H0 NE F m rest res Lm Fo R. rewrite ojoined_cons, <- app_assoc. apply H0; [lia| |].
  - destruct texts as [|u us]; [congruence|]. cbn [flat_map app]. split; [cbn [stops]; lia|exact Logic.I].
  - exact (chain_read op texts l Hr Hc F a0 m rest res Lm Fo R).
Qed.
Lemma bin_claim op t0 a0 t1 a1 : ~ In op chain_ops -> op <> "Pattern"%string -> claim (S (tprec T op)) t0 a0 -> claim (S (tprec T op)) t1 a1 ->
  claim (tprec T op) (ojoined [KOp op] [t0; t1]) (PBin op a0 a1).
Proof.
  intros Hc Hp H0 H1 m rest res Lm Fo R. cbn [ojoined]. rewrite <- app_assoc. apply H0; [lia| |].
  - cbn [app]. split; [cbn [stops]; lia|exact Logic.I].
  - cbn [app]. apply (Rd_op m a0 op _ a1 rest); [exact Lm| |].
    + destruct (right T op).
      * apply H1; [lia|exact (follow_mono _ _ _ (Nat.le_succ_diag_r _) Fo)|]. apply Rd_stop. exact (proj1 Fo).
      * apply H1; [lia|exact (follow_mono _ _ _ (Nat.le_succ_diag_r _) Fo)|]. apply Rd_stop.
        exact (proj1 (follow_mono _ _ _ (Nat.le_succ_diag_r _) Fo)).
    + replace (build op a0 a1) with (PBin op a0 a1); [exact R|]. unfold build.
      destruct (existsb (String.eqb op) chain_ops) eqn:Q.
      { apply existsb_exists in Q. destruct Q as (x & Hx & E). apply String.eqb_eq in E. subst x. contradiction. }
      destruct (String.eqb_spec op "Pattern"); [contradiction|reflexivity].
Qed.
End Tab.
