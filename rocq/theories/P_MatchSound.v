(* Soundness of the matcher. *)
From Verif Require Import M_Syntax M_Hash M_Alloc M_Match S_Alloc S_Match P_Hash P_Alloc P_MatchFuel.
From Coq Require Import Permutation Relations.
Open Scope nat_scope.

(* ---- bindings as maps ---- *)
Definition nodupk (pm : pdm) : Prop := NoDup (map fst pm).
Lemma pd_get_set pm n v x : pd_get (pd_set pm n v) x = if String.eqb n x then Some v else pd_get pm x.
Proof.
  induction pm as [|[k w] t IH]; cbn; [reflexivity|].
  destruct (String.eqb_spec k n) as [->|N]; cbn.
  - destruct (String.eqb n x); reflexivity.
  - destruct (String.eqb_spec k x) as [->|N2].
    + destruct (String.eqb_spec n x); [congruence|reflexivity].
    + exact IH.
Qed.
Lemma pd_get_none pm x : pd_get pm x = None <-> ~ In x (map fst pm).
Proof.
  induction pm as [|[k w] t IH]; cbn; [tauto|]. destruct (String.eqb_spec k x) as [E|E]; [|rewrite IH]; split; try discriminate; intuition congruence.
Qed.
Lemma keys_set pm n v x : In x (map fst (pd_set pm n v)) <-> x = n \/ In x (map fst pm).
Proof.
  induction pm as [|[k w] t IH]; cbn; [intuition congruence|]. destruct (String.eqb_spec k n) as [->|N]; cbn; [intuition congruence|]. rewrite IH. tauto.
Qed.
Lemma nodup_set pm n v : nodupk pm -> nodupk (pd_set pm n v).
Proof.
  unfold nodupk. induction pm as [|[k w] t IH]; cbn; intro H.
  - constructor; [intros []|constructor].
  - inversion H as [|? ? Hk Ht]; subst. destruct (String.eqb_spec k n) as [->|N]; cbn; [exact H|].
    constructor; [|apply IH, Ht]. rewrite keys_set. intros [E|E]; [congruence|contradiction].
Qed.
Lemma update_cons pm k v t : pd_update pm ((k, v) :: t) = pd_update (pd_set pm k v) t. Proof. reflexivity. Qed.
Lemma nodup_update add : forall pm, nodupk pm -> nodupk (pd_update pm add).
Proof. induction add as [|[k v] t IH]; intros pm H; [exact H|]. rewrite update_cons. apply IH, nodup_set, H. Qed.
Lemma pd_get_update add : forall pm x, nodupk add ->
  pd_get (pd_update pm add) x = match pd_get add x with Some v => Some v | None => pd_get pm x end.
Proof.
  induction add as [|[k v] t IH]; intros pm x H; [reflexivity|]. rewrite update_cons, IH by (inversion H; assumption).
  cbn [pd_get]. rewrite pd_get_set. destruct (String.eqb_spec k x) as [->|N]; [|reflexivity].
  destruct (pd_get t x) eqn:E; [|reflexivity]. inversion H as [|? ? Hk Ht]; subst.
  exfalso. apply Hk. destruct (in_dec String.string_dec x (map fst t)) as [I|I]; [exact I|]. apply pd_get_none in I. congruence.
Qed.
Lemma nodup_nil : nodupk []. Proof. constructor. Qed.

(* exact extension, extension up to R *)
Definition incl_pd (pm pm' : pdm) : Prop := forall x v, pd_get pm x = Some v -> pd_get pm' x = Some v.
Definition le_pd (R : ex -> ex -> Prop) (pm pm' : pdm) : Prop :=
  forall x v, pd_get pm x = Some v -> exists w, pd_get pm' x = Some w /\ R v w.

Lemma same_refl x : same x x. Proof. apply rst_refl. Qed.
Lemma same_sym x y : same x y -> same y x. Proof. apply rst_sym. Qed.
Lemma same_trans x y z : same x y -> same y z -> same x z. Proof. apply rst_trans. Qed.
Lemma same_sameq x y : is_sameq x y = true -> same x y. Proof. intro. apply rst_step. assumption. Qed.

Lemma le_refl pm : le_pd same pm pm. Proof. intros x v H. exists v. split; [exact H|apply same_refl]. Qed.
Lemma le_trans a b c : le_pd same a b -> le_pd same b c -> le_pd same a c.
Proof. intros H1 H2 x v Hx. destruct (H1 x v Hx) as [w [Hw R1]]. destruct (H2 x w Hw) as [u [Hu R2]]. exists u. split; [exact Hu|]. eapply same_trans; eauto. Qed.
Lemma incl_le a b : incl_pd a b -> le_pd same a b. Proof. intros H x v Hx. exists v. split; [apply H, Hx|apply same_refl]. Qed.
Lemma covers_le sg a b : le_pd same a b -> covers same sg b -> covers same sg a.
Proof. intros H C x v Hx. destruct (H x v Hx) as [w [Hw R1]]. destruct (C x w Hw) as [u [Hu R2]]. exists u. split; [exact Hu|]. eapply same_trans; eauto. Qed.
Lemma covers_self pm : covers same (pd_bindings pm) pm. Proof. intros x v H. exists v. split; [exact H|apply same_refl]. Qed.

(* bindings of a and b for the same name are related *)
Definition compat (a b : pdm) : Prop := forall x v w, pd_get a x = Some v -> pd_get b x = Some w -> same v w.
Lemma compat_update pm m : nodupk m -> compat pm m -> le_pd same pm (pd_update pm m).
Proof.
  intros N C x v H. rewrite pd_get_update by exact N. destruct (pd_get m x) as [w|] eqn:E.
  - exists w. split; [reflexivity|]. exact (C x v w H E).
  - exists v. split; [exact H|apply same_refl].
Qed.
Lemma update_ge pm m : nodupk m -> le_pd same m (pd_update pm m).
Proof. intros N x v H. rewrite pd_get_update by exact N. rewrite H. exists v. split; [reflexivity|apply same_refl]. Qed.

(* ---- the parts ---- *)
Lemma blank_like_spec p l : blank_like p = Some l -> is_blank p l.
Proof.
  unfold blank_like. intro H. destruct (args_of p nBlank) as [x|] eqn:E1.
  { injection H as <-. apply args_of_some in E1 as ->. exists nBlank. auto. }
  destruct (args_of p nBS) as [x|] eqn:E2.
  { injection H as <-. apply args_of_some in E2 as ->. exists nBS. auto. }
  apply args_of_some in H as ->. exists nBNS. auto.
Qed.
Lemma is_blank_like p l : is_blank p l -> blank_like p = Some l.
Proof. intros [s [[->|[->| ->]] ->]]; reflexivity. Qed.

Lemma head_fits_spec l e : blank_head_ok l (head_ex e) = true <-> head_fits l e.
Proof. destruct l; cbn; [tauto|reflexivity]. Qed.

(* ---- invariants of the bindings, for all patterns ---- *)
Definition str_at (M : matcher) (a b : ex) : Prop := forall pm, nodupk pm ->
  nodupk (snd (M a b pm)) /\ incl_pd pm (snd (M a b pm)) /\
  forall m, In m (fst (M a b pm)) -> nodupk m /\ compat (snd (M a b pm)) m.

Lemma incl_refl pm : incl_pd pm pm. Proof. intros x v H; exact H. Qed.
Lemma incl_trans a b c : incl_pd a b -> incl_pd b c -> incl_pd a c. Proof. intros H1 H2 x v H. apply H2, H1, H. Qed.
Lemma le_compat a b : le_pd same a b -> compat a b.
Proof. intros L x v w H H'. destruct (L x v H) as [u [Hu R]]. congruence. Qed.
Lemma compat_nil a : compat a []. Proof. intros x v w _ H. discriminate H. Qed.

Lemma capture_str b a hd pm : nodupk pm ->
  nodupk (snd (blank_capture b a hd pm)) /\ incl_pd pm (snd (blank_capture b a hd pm)).
Proof.
  intro Hn. assert (Id : nodupk pm /\ incl_pd pm pm) by (split; [exact Hn|apply incl_refl]).
  unfold blank_capture. destruct (args_of b nPattern) as [[|s [|q r]]|].
  1,2,4: destruct (blank_like b); exact Id.
  destruct (blank_like q); [|exact Id]. destruct (blank_head_ok l hd); [|exact Id].
  destruct s as [n| | | | | |]; try exact Id. destruct (pd_get pm n) eqn:E; cbn [snd]; [exact Id|].
  split; [apply nodup_set, Hn|]. intros x v H. rewrite pd_get_set. destruct (String.eqb_spec n x); [congruence|exact H].
Qed.

Section str.
  Variable env : menv.
  Lemma comps_str M form : (forall c, str_at M c form) -> forall comps pm pm', nodupk pm -> In pm' (ami_comps M form comps pm) ->
    nodupk pm' /\ le_pd same pm pm'.
  Proof.
    intro HM. induction comps as [|c r IH]; intros pm pm' N Hin.
    - destruct Hin as [<-|[]]. split; [exact N|apply le_refl].
    - cbn [ami_comps] in Hin. destruct (HM c pm N) as [N1 [I1 S1]]. destruct (M c form pm) as [ms pm1]. cbn [fst snd] in *.
      apply in_flat_map in Hin as [m [Hm Hin]]. destruct (S1 m Hm) as [Nm Cm].
      destruct (IH (pd_update pm1 m) pm' (nodup_update m pm1 N1) Hin) as [N' L']. split; [exact N'|].
      eapply le_trans; [apply incl_le, I1|]. eapply le_trans; [apply (compat_update pm1 m Nm Cm)|exact L'].
  Qed.
  Lemma define_str lhs s sh pm pm' : nodupk pm -> define_sequence env lhs s sh pm = Some pm' -> nodupk pm' /\ le_pd same pm pm'.
  Proof.
    intros N. unfold define_sequence. destruct (pf_pat lhs) as [x|].
    2: { intro E; injection E as <-. split; [exact N|apply le_refl]. }
    set (nv := seq_value env lhs s sh). destruct (pd_get pm x) as [w|] eqn:E.
    - destruct (is_sameq w nv) eqn:S; [|discriminate]. intro Q; injection Q as <-. split; [apply nodup_set, N|].
      intros y u Hy. rewrite pd_get_set. destruct (String.eqb_spec x y) as [<-|Ne].
      + exists nv. split; [reflexivity|]. rewrite E in Hy. injection Hy as <-. apply same_sameq, S.
      + exists u. split; [exact Hy|apply same_refl].
    - intro Q; injection Q as <-. split; [apply nodup_set, N|].
      intros y u Hy. rewrite pd_get_set. destruct (String.eqb_spec x y) as [<-|Ne]; [congruence|].
      exists u. split; [exact Hy|apply same_refl].
  Qed.
  Lemma forms_str M sh : forall bl, (forall x, In x bl -> forall c, str_at M c (pf_form (fst x))) -> forall pm pm', nodupk pm ->
    In pm' (ami_forms M env sh bl pm) -> nodupk pm' /\ le_pd same pm pm'.
  Proof.
    induction bl as [|[lhs comps] bl IH]; intros HM pm pm' N Hin.
    - destruct Hin as [<-|[]]. split; [exact N|apply le_refl].
    - cbn [ami_forms] in Hin. apply in_flat_map in Hin as [pm1 [H1 Hin]].
      destruct (comps_str M _ (HM _ (or_introl eq_refl)) comps pm pm1 N H1) as [N1 L1].
      destruct (define_sequence env lhs comps sh pm1) as [pm2|] eqn:D; [|destruct Hin].
      destruct (define_str lhs comps sh pm1 pm2 N1 D) as [N2 L2].
      destruct (IH (fun x Hx => HM x (or_intror Hx)) pm2 pm' N2 Hin) as [N' L']. split; [exact N'|].
      eapply le_trans; [exact L1|]. eapply le_trans; [exact L2|exact L'].
  Qed.
  Lemma seq_str M comps forms ord sh pm pm' : (forall f, In f forms -> forall c, str_at M c (pf_form f)) -> nodupk pm ->
    In pm' (seq_match M env comps forms ord sh pm) -> nodupk pm' /\ le_pd same pm pm'.
  Proof.
    intros HM N Hin. unfold seq_match in Hin. destruct (enough_matches M comps forms); [|destruct Hin].
    apply in_flat_map in Hin as [assn [_ Hin]]. eapply forms_str; [|exact N|exact Hin].
    intros [f bl] Hx c. apply HM. eapply in_combine_l, Hx.
  Qed.
  Lemma parts_str M fo la lb pm pm' : (forall p, ex_size p < ex_size (EExpr lb) -> forall c, str_at M c p) -> nodupk pm ->
    In pm' (match_parts M env fo la lb pm) -> nodupk pm' /\ le_pd same pm pm'.
  Proof.
    intros HM N Hin.
    assert (D : forall ps comps fl sh ord, (forall p, In p ps -> In p lb) ->
       In pm' (seq_match M env comps (map (fun p => parse_form p fl sh (me_default env sh)) ps) ord sh pm) -> nodupk pm' /\ le_pd same pm pm').
    { intros ps comps fl sh ord Hps. apply seq_str; [|exact N]. intros f Hf. apply in_map_iff in Hf as [p [<- Hp]].
      rewrite parse_form_view. cbn [pform_of pf_form]. apply HM. pose proof (element_size fl sh p). pose proof (in_size p lb (Hps p Hp)). lia. }
    unfold match_parts in Hin.
    destruct la as [|[s| | | | | |] ta]; try (revert Hin; apply D; auto; fail).
    destruct lb as [|[s'| | | | | |] tb]; try (revert Hin; apply D; auto; fail).
    destruct (String.eqb s s'); [|revert Hin; apply D; auto]. revert Hin. apply D. intros p Hp; right; exact Hp.
  Qed.

  Lemma str_normal M a b : (forall c f, pat_fuel c f < pat_fuel a b -> str_at M c f) -> str_at (fun x y => match_normal M env x y) a b.
  Proof.
    intros HM pm N. unfold match_normal.
    set (bf := match verbatim_op a b with Some b' => (b', true) | None => (b, false) end).
    assert (Hb : ex_size (fst bf) <= ex_size b) by (unfold bf; destruct (verbatim_op a b) eqn:V; [apply (verbatim_size _ _ _ V)|reflexivity]).
    destruct bf as [b' fo]. cbn [fst] in Hb.
    destruct (is_blank_type_only b').
    { pose proof (capture_str b' a (head_ex a) pm N) as Q. destruct (blank_capture b' a (head_ex a) pm) as [ok pm1]. cbn [snd] in Q.
      destruct ok; cbn [fst snd]; (split; [apply Q|]); (split; [apply Q|]); [|intros m []].
      intros m [<-|[]]. split; [apply Q|apply le_compat, le_refl]. }
    assert (First : forall c, pat_fuel c b' < pat_fuel a b ->
      nodupk (snd (let '(ms, pm1) := M c b' pm in (match ms with [] => [] | m :: _ => [m] end, pm1))) /\
      incl_pd pm (snd (let '(ms, pm1) := M c b' pm in (match ms with [] => [] | m :: _ => [m] end, pm1))) /\
      forall m, In m (fst (let '(ms, pm1) := M c b' pm in (match ms with [] => [] | m :: _ => [m] end, pm1))) ->
        nodupk m /\ compat (snd (let '(ms, pm1) := M c b' pm in (match ms with [] => [] | m :: _ => [m] end, pm1))) m).
    { intros c L. destruct (HM c b' L pm N) as [A [B C]]. destruct (M c b' pm) as [ms pm1]. cbn [fst snd] in *.
      split; [exact A|]. split; [exact B|]. intros m Hm. apply C. destruct ms; [destruct Hm|]. destruct Hm as [->|[]]. left. reflexivity. }
    assert (Parts : forall la, let r := (match_parts M env fo la (parts_of b') pm, pm) in
      is_num_atom a = false \/ verbatim_op a b = None -> is_expr b' = true ->
      nodupk (snd r) /\ incl_pd pm (snd r) /\ forall m, In m (fst r) -> nodupk m /\ compat (snd r) m).
    { intros la r _ He. cbn. split; [exact N|]. split; [apply incl_refl|]. intros m Hm.
      assert (Q : nodupk m /\ le_pd same pm m).
      { eapply parts_str; [|exact N|exact Hm]. intros p Hp c. apply HM. unfold pat_fuel. destruct b' as [| | | | | |lb]; try discriminate.
        cbn [parts_of] in Hp. destruct (is_num_atom c), (is_num_atom a); lia. }
      split; [apply Q|]. apply le_compat, Q. }
    assert (Nil : nodupk (snd (@nil pdm, pm)) /\ incl_pd pm (snd (@nil pdm, pm)) /\ forall m, In m (fst (@nil pdm, pm)) -> nodupk m /\ compat (snd (@nil pdm, pm)) m).
    { cbn. split; [exact N|]. split; [apply incl_refl|intros m []]. }
    assert (Atom : forall q : bool, let r := (if q then [[]] else [] : list pdm, pm) in
       nodupk (snd r) /\ incl_pd pm (snd r) /\ forall m, In m (fst r) -> nodupk m /\ compat (snd r) m).
    { intros q. cbn. split; [exact N|]. split; [apply incl_refl|]. destruct q; intros m Hm; [|destruct Hm]. destruct Hm as [<-|[]].
      split; [apply nodup_nil|apply compat_nil]. }
    destruct (is_expr b') eqn:Eb.
    2: { destruct b'; try discriminate Eb; destruct a; cbn [assume_head]; first [apply Atom|apply Nil]. }
    destruct b' as [| | | | | |lb]; try discriminate Eb.
    destruct a as [s|s|z|n d|f|r i|la].
    4,6: apply First; unfold pat_fuel; cbn [is_num_atom]; lia.
    all: destruct (assume_head env _ (EExpr lb)) as [a'|]; [apply Parts; auto|]; try apply Atom.
    apply (Parts la); auto.
  Qed.

  Lemma str_alts M a ps : (forall p, In p ps -> str_at M a p) -> forall pm, nodupk pm ->
    nodupk (snd (match_alts M a ps pm)) /\ incl_pd pm (snd (match_alts M a ps pm)) /\
    forall m, In m (fst (match_alts M a ps pm)) -> nodupk m /\ compat (snd (match_alts M a ps pm)) m.
  Proof.
    induction ps as [|p t IH]; intros H pm N; cbn [match_alts].
    - cbn. split; [exact N|]. split; [apply incl_refl|intros m []].
    - destruct (H p (or_introl eq_refl) pm N) as [A [B C]]. destruct (M a p pm) as [ms pm1]. cbn [fst snd] in *.
      destruct ms as [|m ms]; cbn [fst snd].
      + destruct (IH (fun q Hq => H q (or_intror Hq)) pm1 A) as [A' [B' C']]. split; [exact A'|]. split; [eapply incl_trans; eauto|exact C'].
      + split; [exact A|]. split; [exact B|]. intros m' [<-|[]]. apply C. left. reflexivity.
  Qed.

  Lemma str_step M a b : (forall c f, pat_fuel c f < pat_fuel a b -> str_at M c f) -> str_at (fun x y => mi_step M env x y) a b.
  Proof.
    intro HM. pose proof (str_normal M a b HM) as N. unfold str_at in N. cbv beta in N. intros pm Np.
    assert (P : forall args s, b = EExpr (ESym s :: args) -> forall p, In p args -> str_at M a p).
    { intros args s -> p Hp. apply HM. unfold pat_fuel. rewrite size_cons, size_sym. pose proof (in_size p args Hp). lia. }
    unfold mi_step. destruct b as [| | | | | |[|[s| | | | | |] args]]; try (apply N, Np).
    specialize (P args s eq_refl).
    assert (Drop : forall p pm (ok : bool), In p args -> nodupk pm -> forall pm1, snd (M a p pm) = pm1 ->
       nodupk pm1 /\ incl_pd pm pm1 /\ forall m, In m (fst (M a p pm)) -> nodupk m /\ compat pm1 m).
    { intros p qm ok Hp Hq pm1 <-. apply (P p Hp qm Hq). }
    destruct (String.eqb s nExcept).
    { destruct args as [|p [|q [|]]]; try (apply N, Np).
      - destruct (P p (or_introl eq_refl) pm Np) as [A [B C]]. destruct (M a p pm) as [ms pm1]. cbn [fst snd] in *.
        destruct ms; cbn [fst snd]; (split; [exact A|]); (split; [exact B|]); [|intros m []].
        intros m [<-|[]]. split; [exact A|apply le_compat, le_refl].
      - destruct (P p (or_introl eq_refl) pm Np) as [A [B C]]. destruct (M a p pm) as [ms pm1]. cbn [fst snd] in *.
        destruct ms; cbn [fst snd]; [|split; [exact A|]; split; [exact B|intros m []]].
        destruct (P q (or_intror (or_introl eq_refl)) pm1 A) as [A' [B' C']]. destruct (M a q pm1) as [ms2 pm2]. cbn [fst snd] in *.
        split; [exact A'|]. split; [eapply incl_trans; eauto|]. intros m Hm. apply C'. destruct ms2; [destruct Hm|]. destruct Hm as [->|[]]. left. reflexivity. }
    destruct (String.eqb s nAlt); [apply str_alts; [exact P|exact Np]|].
    destruct (String.eqb s nPatTest).
    { destruct args as [|p [|q [|]]]; try (apply N, Np).
      destruct (P p (or_introl eq_refl) pm Np) as [A [B C]]. destruct (M a p pm) as [ms pm1]. cbn [fst snd] in *.
      destruct ms as [|m0 ms]; cbn [fst snd]; [split; [exact A|]; split; [exact B|intros m []]|].
      assert (G : forall (t : bool), let r := ((if t then [m0] else []), pm1) in nodupk (snd r) /\ incl_pd pm (snd r) /\ forall m, In m (fst r) -> nodupk m /\ compat (snd r) m).
      { intros t. cbn. split; [exact A|]. split; [exact B|]. destruct t; intros m Hm; [|destruct Hm]. destruct Hm as [<-|[]]. apply C. left. reflexivity. }
      destruct (match q with ESym tn => _ | _ => _ end); apply G. }
    destruct (String.eqb s nCondition).
    { destruct args as [|p [|q [|]]]; try (apply N, Np).
      destruct (P p (or_introl eq_refl) pm Np) as [A [B C]]. destruct (M a p pm) as [ms pm1]. cbn [fst snd] in *.
      destruct (filter _ ms) as [|m0 r] eqn:F; cbn [fst snd].
      - destruct (N pm1 A) as [A' [B' C']]. split; [exact A'|]. split; [eapply incl_trans; eauto|exact C'].
      - split; [exact A|]. split; [exact B|]. intros m [<-|[]]. apply C.
        assert (Q : In m0 (m0 :: r)) by (left; reflexivity). rewrite <- F in Q. apply filter_In in Q. apply Q. }
    destruct (String.eqb s nOptional).
    { destruct args as [|p [|q]]; try (apply N, Np).
      destruct (P p (or_introl eq_refl) pm Np) as [A [B C]]. destruct (M a p pm) as [ms pm1]. cbn [fst snd] in *.
      destruct ms as [|m0 r]; cbn [fst snd].
      - destruct (N pm1 A) as [A' [B' C']]. split; [exact A'|]. split; [eapply incl_trans; eauto|exact C'].
      - split; [exact A|]. split; [exact B|]. intros m [<-|[]]. apply C. left. reflexivity. }
    destruct (String.eqb s nHoldPattern); [|apply N, Np].
    destruct args as [|p [|q]]; try (apply N, Np). apply P; [left; reflexivity|exact Np].
  Qed.

  Lemma str_all : forall n a b, pat_fuel a b < n -> str_at (match_iter env) a b.
  Proof.
    induction n as [|n IH]; intros a b L; [lia|]. intros pm N. rewrite match_iter_eq.
    apply (str_step (match_iter env) a b); [|exact N]. intros c f Lc. apply IH. lia.
  Qed.
  Lemma str_match a b : str_at (match_iter env) a b. Proof. apply (str_all (S (pat_fuel a b))). lia. Qed.
End str.

Section sound.
  Variable env : menv.
  Variable neg : ex -> ex -> Prop.
  Variable neg_ok : ex -> bool.
  Hypothesis Henv : env_ok env.
  Hypothesis Hneg : forall a q pm, neg_ok q = true -> nodupk pm -> fst (match_iter env a q pm) = [] -> neg a q.
  Notation I := (inst neg same env).
  Notation sup := (supported neg_ok).

  (* what is shown about every recursive call *)
  Definition log_at (M : matcher) (a b : ex) : Prop := forall pm, nodupk pm ->
    forall m, In m (fst (M a b pm)) -> forall sg, covers same sg m -> I sg a b.
  Definition good_at (M : matcher) (a b : ex) : Prop := forall pm, nodupk pm ->
    nodupk (snd (M a b pm)) /\ incl_pd pm (snd (M a b pm)) /\
    forall m, In m (fst (M a b pm)) -> nodupk m /\ compat (snd (M a b pm)) m /\ forall sg, covers same sg m -> I sg a b.
  Lemma good_intro M a b : str_at M a b -> log_at M a b -> good_at M a b.
  Proof. intros S L pm N. destruct (S pm N) as [A [B C]]. split; [exact A|]. split; [exact B|]. intros m Hm. destruct (C m Hm). split; [assumption|]. split; [assumption|]. exact (L pm N m Hm). Qed.

  Lemma capture_sound b a pm : is_blank_type_only b = true -> nodupk pm ->
    nodupk (snd (blank_capture b a (head_ex a) pm)) /\ incl_pd pm (snd (blank_capture b a (head_ex a) pm)) /\
    (fst (blank_capture b a (head_ex a) pm) = true -> forall sg, covers same sg (snd (blank_capture b a (head_ex a) pm)) -> I sg a b).
  Proof.
    intros Hb Hn. unfold is_blank_type_only in Hb. unfold blank_capture.
    assert (Id : nodupk pm /\ incl_pd pm pm) by (split; [exact Hn|intros x v H; exact H]).
    assert (Plain : match blank_like b with Some _ => true | None => false end = true ->
      nodupk (snd (match blank_like b with Some args => (blank_head_ok args (head_ex a), pm) | None => (false, pm) end)) /\
      incl_pd pm (snd (match blank_like b with Some args => (blank_head_ok args (head_ex a), pm) | None => (false, pm) end)) /\
      (fst (match blank_like b with Some args => (blank_head_ok args (head_ex a), pm) | None => (false, pm) end) = true ->
        forall sg, covers same sg (snd (match blank_like b with Some args => (blank_head_ok args (head_ex a), pm) | None => (false, pm) end)) -> I sg a b)).
    { intro Q. destruct (blank_like b) as [l|] eqn:E; [|discriminate]. cbn [fst snd]. split; [apply Id|]. split; [apply Id|].
      intros H sg _. eapply I_blank; [apply blank_like_spec, E|apply head_fits_spec, H]. }
    destruct (args_of b nPattern) as [[|s [|q r]]|] eqn:E; try (apply Plain, Hb).
    destruct (blank_like q) as [l|] eqn:Eq; [|discriminate].
    apply args_of_some in E as ->. apply blank_like_spec in Eq.
    destruct (blank_head_ok l (head_ex a)) eqn:Eh; cbn [fst snd]; [|split; [apply Id|]; split; [apply Id|]; discriminate].
    apply head_fits_spec in Eh.
    destruct s as [n|?|?|? ?|?|? ?|?]; cbn [fst snd]; try (split; [apply Id|]; split; [apply Id|]; intros _ sg _; eapply I_unnamed; eauto; reflexivity).
    destruct (pd_get pm n) as [v|] eqn:Eg; cbn [fst snd].
    - split; [apply Id|]. split; [apply Id|]. intros H sg C. destruct (C n v Eg) as [w [Hw R]].
      eapply I_named; eauto. eapply same_trans; [|exact R]. apply same_sym, same_sameq, H.
    - split; [apply nodup_set, Hn|]. split.
      + intros x v H. rewrite pd_get_set. destruct (String.eqb_spec n x); [congruence|exact H].
      + intros _ sg C. destruct (C n a) as [w [Hw R]]; [rewrite pd_get_set, String.eqb_refl; reflexivity|].
        eapply I_named; eauto.
  Qed.

  Lemma comps_sound M form : (forall c, good_at M c form) -> forall comps pm pm', nodupk pm -> In pm' (ami_comps M form comps pm) ->
    nodupk pm' /\ le_pd same pm pm' /\ forall sg, covers same sg pm' -> Forall (fun c => I sg c form) comps.
  Proof.
    intro HM. induction comps as [|c r IH]; intros pm pm' N Hin.
    - destruct Hin as [<-|[]]. split; [exact N|]. split; [apply le_refl|]. constructor.
    - cbn [ami_comps] in Hin. destruct (HM c pm N) as [N1 [I1 S1]]. destruct (M c form pm) as [ms pm1]. cbn [fst snd] in *.
      apply in_flat_map in Hin as [m [Hm Hin]]. destruct (S1 m Hm) as [Nm [Cm Sm]].
      destruct (IH (pd_update pm1 m) pm' (nodup_update m pm1 N1) Hin) as [N' [L' F']].
      split; [exact N'|]. split.
      + eapply le_trans; [apply incl_le, I1|]. eapply le_trans; [apply (compat_update pm1 m Nm Cm)|exact L'].
      + intros sg C. constructor; [|apply F', C]. apply Sm. eapply covers_le; [|exact C].
        eapply le_trans; [apply update_ge, Nm|exact L'].
  Qed.

  Lemma define_sound fl sh v s pm pm' : nodupk pm -> define_sequence env (pform_of env fl sh v) s sh pm = Some pm' ->
    nodupk pm' /\ le_pd same pm pm' /\ forall sg, covers same sg pm' ->
      match cv_name v with None => True | Some x => exists w, sg x = Some w /\ same (name_value env fl sh v s) w end.
  Proof.
    intros N. unfold define_sequence. rewrite seq_value_view. cbn [pform_of pf_pat].
    destruct (cv_name v) as [x|].
    2: { intro E; injection E as <-. split; [exact N|]. split; [apply le_refl|auto]. }
    set (nv := name_value env fl sh v s).
    assert (G : forall sg, covers same sg (pd_set pm x nv) -> exists w, sg x = Some w /\ same nv w).
    { intros sg C. apply C. rewrite pd_get_set, String.eqb_refl. reflexivity. }
    destruct (pd_get pm x) as [w|] eqn:E.
    - destruct (is_sameq w nv) eqn:S; [|discriminate]. intro Q; injection Q as <-. split; [apply nodup_set, N|]. split; [|exact G].
      intros y u Hy. rewrite pd_get_set. destruct (String.eqb_spec x y) as [<-|Ne].
      + exists nv. split; [reflexivity|]. rewrite E in Hy. injection Hy as <-. apply same_sameq, S.
      + exists u. split; [exact Hy|apply same_refl].
    - intro Q; injection Q as <-. split; [apply nodup_set, N|]. split; [|exact G].
      intros y u Hy. rewrite pd_get_set. destruct (String.eqb_spec x y) as [<-|Ne]; [congruence|].
      exists u. split; [exact Hy|apply same_refl].
  Qed.

  (* the element/name part of [takes] for every form *)
  Definition taken (fl : bool) (sh : string) (sg : bindings) (v : cview) (block : list ex) : Prop :=
    Forall (fun e => I sg e (element_pattern fl sh v)) block /\
    match cv_name v with None => True | Some x => exists w, sg x = Some w /\ same (name_value env fl sh v block) w end.

  Lemma forms_sound M fl sh : forall vs blocks pm pm', length blocks = length vs ->
    (forall v, In v vs -> forall c, good_at M c (element_pattern fl sh v)) -> nodupk pm ->
    In pm' (ami_forms M env sh (combine (map (pform_of env fl sh) vs) blocks) pm) ->
    nodupk pm' /\ le_pd same pm pm' /\ forall sg, covers same sg pm' -> Forall2 (taken fl sh sg) vs blocks.
  Proof.
    induction vs as [|v vs IH]; intros [|bl blocks] pm pm' L HM N Hin; try discriminate L.
    - destruct Hin as [<-|[]]. split; [exact N|]. split; [apply le_refl|]. constructor.
    - cbn [map combine ami_forms] in Hin. apply in_flat_map in Hin as [pm1 [H1 Hin]].
      cbn [pform_of pf_form] in H1.
      destruct (comps_sound M _ (HM v (or_introl eq_refl)) bl pm pm1 N H1) as [N1 [L1 F1]].
      fold (pform_of env fl sh v) in Hin.
      destruct (define_sequence env (pform_of env fl sh v) bl sh pm1) as [pm2|] eqn:D; [|destruct Hin].
      destruct (define_sound fl sh v bl pm1 pm2 N1 D) as [N2 [L2 F2]].
      destruct (IH blocks pm2 pm') as [N' [L' F']]; try assumption; [cbn in L; lia|intros w Hw; apply HM; right; exact Hw|].
      split; [exact N'|]. split; [eapply le_trans; [exact L1|]; eapply le_trans; [exact L2|exact L']|].
      intros sg C. constructor; [|apply F', C]. split.
      + apply F1. eapply covers_le; [|exact C]. eapply le_trans; [exact L2|exact L'].
      + apply F2. eapply covers_le; [exact L'|exact C].
  Qed.

  Lemma pick_concat comps ix : concat ix = seq 0 (length comps) -> concat (map (pick comps) ix) = comps.
  Proof.
    intro H. unfold pick. rewrite <- concat_map, H. clear.
    assert (G : forall (l pre : list ex), map (fun i => nth i (pre ++ l) (sys "Null")) (seq (length pre) (length l)) = l).
    { induction l as [|x t IH]; intro pre; cbn [length seq map]; [reflexivity|]. f_equal.
      - rewrite app_nth2, Nat.sub_diag by lia. reflexivity.
      - specialize (IH (pre ++ [x])). rewrite app_length in IH. cbn in IH. rewrite Nat.add_1_r in IH.
        rewrite <- app_assoc in IH. exact IH. }
    apply (G comps []).
  Qed.

  Lemma sizes_within fl sh vs n sizes : valid_sizes (map (pform_of env fl sh) vs) n sizes ->
    Forall2 (fun v k => within (bounds env fl sh v) k) vs sizes.
  Proof.
    intros [F _]. revert sizes F. induction vs as [|v vs IH]; intros sizes F; inversion F; subst; constructor.
    - assumption.
    - apply IH. assumption.
  Qed.

  Lemma f2_len {A B} (P : A -> B -> Prop) l l' : Forall2 P l l' -> length l = length l'.
  Proof. induction 1; cbn; congruence. Qed.
  Lemma valid_length forms n blocks : valid_sizes forms n (map (@length nat) blocks) -> length blocks = length forms.
  Proof. intros [F _]. apply f2_len in F. rewrite map_length in F. lia. Qed.

  Lemma takes_intro fl sh sg : forall ps blocks,
    Forall2 (fun v k => within (bounds env fl sh v) k) (map view ps) (map (@length ex) blocks) ->
    Forall2 (taken fl sh sg) (map view ps) blocks ->
    Forall2 (fun b p => takes (I sg) same env fl sh sg b p) blocks ps.
  Proof.
    induction ps as [|p ps IH]; intros blocks F1 F2; inversion F2; subst; constructor.
    - cbn [map] in F1. inversion F1; subst. destruct H1 as [A B]. split; [assumption|]. split; assumption.
    - cbn [map] in F1. inversion F1; subst. apply IH; assumption.
  Qed.

  Lemma seq_sound M comps ps fl sh ord pm pm' : ps <> [] ->
    (forall p, In p ps -> forall c, good_at M c (element_pattern fl sh (view p))) -> nodupk pm ->
    In pm' (seq_match M env comps (map (fun p => parse_form p fl sh (me_default env sh)) ps) ord sh pm) ->
    nodupk pm' /\ le_pd same pm pm' /\ forall sg, covers same sg pm' ->
      exists blocks, divided ord comps blocks /\ Forall2 (fun b p => takes (I sg) same env fl sh sg b p) blocks ps.
  Proof.
    intros Hne HM N Hin. unfold seq_match in Hin.
    replace (map (fun p => parse_form p fl sh (me_default env sh)) ps) with (map (pform_of env fl sh) (map view ps)) in Hin
      by (rewrite map_map; apply map_ext; intro; symmetry; apply parse_form_view).
    destruct (enough_matches _ _ _); [|destruct Hin]. apply in_flat_map in Hin as [assn [Ha Hin]].
    set (forms := map (pform_of env fl sh) (map view ps)) in *.
    assert (Hf : forms <> []) by (unfold forms; destruct ps; [congruence|discriminate]).
    assert (V : valid_sizes forms (length comps) (map (@length nat) assn) /\ divided ord comps (map (pick comps) assn)).
    { destruct ord.
      - apply orderless_in in Ha; [|exact Hf]. destruct Ha as [A [B [C D]]]. split; [exact A|]. exists assn. auto.
      - apply ordered_in in Ha; [|exact Hf]. destruct Ha as [A B]. split; [exact A|]. apply pick_concat, B. }
    destruct V as [V D].
    assert (L : length (map (pick comps) assn) = length (map view ps)).
    { rewrite map_length. pose proof (valid_length _ _ _ V). unfold forms in *. rewrite !map_length in *. exact H. }
    destruct (forms_sound M fl sh (map view ps) (map (pick comps) assn) pm pm' L) as [N' [L' F']]; try assumption.
    { intros v Hv. apply in_map_iff in Hv as [p [<- Hp]]. apply HM, Hp. }
    split; [exact N'|]. split; [exact L'|]. intros sg C. exists (map (pick comps) assn). split; [exact D|].
    apply takes_intro; [|apply F', C].
    apply sizes_within with (n := length comps). fold forms.
    replace (map (@length ex) (map (pick comps) assn)) with (map (@length nat) assn); [exact V|].
    rewrite map_map. apply map_ext. intro x. unfold pick. rewrite map_length. reflexivity.
  Qed.

  (* ---- supported patterns are closed under the recursion ---- *)
  Lemma sup_cons_args s args : blank_name s = false -> String.eqb s nExcept = false -> String.eqb s nCondition || String.eqb s nOptional = false ->
    String.eqb s nPatTest = false -> sup (EExpr (ESym s :: args)) = match args with [] => false | _ => forallb sup args end.
  Proof. intros H1 H2 H3 H4. cbn [supported]. rewrite H1, H2, H3, H4. reflexivity. Qed.

  Lemma sup_pattern args p : sup (EExpr (ESym nPattern :: args)) = true -> In p args -> sup p = true.
  Proof. rewrite sup_cons_args by reflexivity. destruct args; [discriminate|]. intros H Hp. rewrite forallb_forall in H. apply H, Hp. Qed.
  Lemma sup_opt q r : sup (EExpr (ESym nOptional :: q :: r)) = true -> sup q = true.
  Proof. cbn [supported]. change (blank_name nOptional) with false. change (String.eqb nOptional nExcept) with false.
    change (String.eqb nOptional nCondition || String.eqb nOptional nOptional) with true. auto. Qed.
  Lemma sup_cond q r : sup (EExpr (ESym nCondition :: q :: r)) = true -> sup q = true.
  Proof. cbn [supported]. change (blank_name nCondition) with false. change (String.eqb nCondition nExcept) with false.
    change (String.eqb nCondition nCondition || String.eqb nCondition nOptional) with true. auto. Qed.
  Lemma sup_test q t r : sup (EExpr (ESym nPatTest :: q :: t :: r)) = true -> sup q = true.
  Proof.
    cbn [supported]. change (blank_name nPatTest) with false. change (String.eqb nPatTest nExcept) with false.
    change (String.eqb nPatTest nCondition || String.eqb nPatTest nOptional) with false. change (String.eqb nPatTest nPatTest) with true. cbv iota.
    destruct r; [auto|]. cbn [forallb]. rewrite !andb_true_iff. tauto.
  Qed.
  Lemma sup_test2 q t : sup q = true -> sup (EExpr [sys "PatternTest"; q; t]) = true.
  Proof. intro H. unfold sys. fold nPatTest. cbn [supported]. change (blank_name nPatTest) with false. change (String.eqb nPatTest nExcept) with false.
    change (String.eqb nPatTest nCondition || String.eqb nPatTest nOptional) with false. change (String.eqb nPatTest nPatTest) with true. exact H. Qed.
  Lemma sup_blank l : sup (EExpr (sys "Blank" :: l)) = true. Proof. reflexivity. Qed.

  Lemma sup_core fl sh c : sup c = true -> sup (snd (core_spec fl sh c)) = true.
  Proof.
    intro H. unfold core_spec. destruct c as [| | | | | |[|[h| | | | | |] l]]; try exact H.
    destruct (String.eqb h nBNS); [reflexivity|]. destruct (String.eqb h nBS); [reflexivity|].
    destruct (String.eqb h nBlank).
    { destruct fl; [|exact H]. destruct l as [|[g| | | | | |] t]; try exact H. destruct (String.eqb g sh); [reflexivity|exact H]. }
    destruct (String.eqb_spec h nRepeated) as [->|].
    { assert (A : forall p, In p l -> sup p = true).
      { rewrite sup_cons_args in H by reflexivity. destruct l; [discriminate|]. rewrite forallb_forall in H. exact H. }
      destruct l as [|q [|sp r]]; [exact H|apply A; left; reflexivity|].
      destruct sp as [| | | | | |[|[lst| | | | | |] [|[| |k| | | |] [|]]]]; try exact H.
      destruct (String.eqb lst nList); [|exact H]. destruct (Z.eqb k (-1)); [apply A; left; reflexivity|].
      destruct (Z.ltb k 0); apply A; left; reflexivity. }
    destruct (String.eqb_spec h nRepeatedNull) as [->|]; [|exact H].
    rewrite sup_cons_args in H by reflexivity. destruct l as [|q [|]]; [exact H| |].
    - cbn [forallb] in H. apply andb_true_iff in H. apply H.
    - cbn [snd]. rewrite sup_cons_args by reflexivity. exact H.
  Qed.

  Lemma sup_element fl sh p : sup p = true -> sup (element_pattern fl sh (view p)) = true.
  Proof.
    intro H. unfold element_pattern. rewrite view_peel. cbv zeta. cbn [cv_opt cv_test cv_core].
    set (p1 := match peel_opt p with Some (q, _) => q | None => p end).
    assert (H1 : sup p1 = true).
    { subst p1. destruct (peel_opt p) as [[q r]|] eqn:E; [|exact H]. apply peel_opt_some in E as ->. exact (sup_opt _ _ H). }
    set (p2 := match peel_test p1 with Some (q, _) => q | None => p1 end).
    assert (H2 : sup p2 = true).
    { subst p2. destruct (peel_test p1) as [[q t]|] eqn:E; [|exact H1]. apply peel_test_some in E as [r E]. rewrite E in H1. exact (sup_test _ _ _ H1). }
    set (p3 := match peel_name p2 with Some (_, q) => q | None => p2 end).
    assert (H3 : sup p3 = true).
    { subst p3. destruct (peel_name p2) as [[x q]|] eqn:E; [|exact H2]. apply peel_name_some in E as [r E]. rewrite E in H2.
      apply (sup_pattern _ q H2). right; left; reflexivity. }
    set (c := match match peel_opt p with Some (_, r) => Some (hd_error r) | None => None end with Some _ => p3 | None => snd (core_spec fl sh p3) end).
    assert (Hc : sup c = true) by (subst c; destruct (peel_opt p) as [[q r]|]; [exact H3|apply sup_core, H3]).
    destruct (peel_test p1) as [[q t]|]; [apply sup_test2, Hc|exact Hc].
  Qed.

  (* ---- plain patterns ---- *)
  Lemma blank_type_special s args : is_blank_type_only (EExpr (ESym s :: args)) = false ->
    String.eqb s nAlt = false -> (String.eqb s nExcept = true -> length args <> 1 /\ length args <> 2) ->
    (String.eqb s nPatTest = true -> length args <> 2) -> (String.eqb s nHoldPattern = true -> length args <> 1) ->
    plain (EExpr (ESym s :: args)).
  Proof.
    intros Hb Ha He Ht Hh [->|[->|[->|[->|[[-> Q]|[[-> Q]|[[-> Q]|[-> Q]]]]]]]]; try discriminate.
    - destruct (He eq_refl). lia.
    - specialize (Ht eq_refl). lia.
    - specialize (Hh eq_refl). lia.
    - destruct Q as [x [q [l [r [-> Bq]]]]]. unfold is_blank_type_only in Hb. rewrite args_of_eq, (is_blank_like _ _ Bq) in Hb. discriminate.
  Qed.

  Lemma single_within h n : single_head h = true -> within (bounds env false "Sequence" (view h)) n -> n = 1.
  Proof.
    unfold single_head. rewrite andb_true_iff. intros [H _]. unfold bounds. destruct (cv_opt (view h)); [discriminate|].
    destruct (fst (core_spec false "Sequence" (cv_core (view h)))) as [lo hi]. destruct lo as [|[|lo]]; try discriminate.
    destruct hi as [[|[|hi]]|]; try discriminate. unfold within. cbn. lia.
  Qed.
  Lemma sym_view s : view (ESym s) = CView None None None (ESym s). Proof. reflexivity. Qed.

  (* matching the parts of two expressions *)
  Lemma parts_sound M la hb tb pm m : (forall c p, ex_size p < ex_size (EExpr (hb :: tb)) -> sup p = true -> good_at M c p) ->
    (forall s, hb = ESym s -> tb <> []) ->
    (is_sym hb = false -> single_head hb = true) -> sup hb = true -> (forall p, In p tb -> sup p = true) ->
    plain (EExpr (hb :: tb)) -> nodupk pm ->
    In m (match_parts M env false la (hb :: tb) pm) -> forall sg, covers same sg m -> I sg (EExpr la) (EExpr (hb :: tb)).
  Proof.
    intros HM Hne Hsh Hs Ht Hpl N Hin sg C.
    assert (El : forall fl sh p, In p (hb :: tb) -> forall c, good_at M c (element_pattern fl sh (view p))).
    { intros fl sh p Hp c. apply HM.
      - pose proof (element_size fl sh p). pose proof (in_size p (hb :: tb) Hp). lia.
      - apply sup_element. destruct Hp as [<-|Hp]; [exact Hs|apply Ht, Hp]. }
    assert (D : (forall ha ta, la = ha :: ta -> forall f, ha = ESym f -> hb <> ESym f) ->
      In m (seq_match M env la (map (fun p => parse_form p false "Sequence" (me_default env "Sequence")) (hb :: tb)) false "Sequence" pm) ->
      I sg (EExpr la) (EExpr (hb :: tb))).
    { intros Hd Hin'. destruct (seq_sound M la (hb :: tb) false "Sequence" false pm m) as [_ [_ F]]; try assumption; [discriminate|apply El|].
      destruct (F sg C) as [blocks [Dv F2]]. inversion F2 as [|b0 p0 bs ps T0 Ts Eb Ep]; subst. cbn [divided concat] in Dv.
      assert (L1 : length b0 = 1).
      { destruct hb as [s| | | | | |]; try (apply (single_within _ _ (Hsh eq_refl)), T0).
        destruct T0 as [W _]. rewrite sym_view in W. unfold within in W. cbn in W. lia. }
      destruct b0 as [|x [|]]; try discriminate L1. cbn [app] in Dv. subst la.
      eapply I_head; eauto. }
    unfold match_parts in Hin.
    destruct la as [|ha ta]; [apply D; [intros; discriminate|exact Hin]|].
    destruct ha as [s|?|?|? ?|?|? ?|?]; try (apply D; [intros ? ? E; injection E as <- <-; intros; discriminate|exact Hin]).
    destruct hb as [s'|?|?|? ?|?|? ?|?]; try (apply D; [intros ? ? _ ? _; discriminate|exact Hin]).
    destruct (String.eqb_spec s s') as [->|Ne]; [|apply D; [intros ? ? E; injection E as <- <-; intros f E; congruence|exact Hin]].
    rewrite !andb_true_r in Hin.
    destruct (seq_sound M ta tb (me_flat env s') s' (me_orderless env s') pm m) as [_ [_ F]]; try assumption.
    { apply (Hne s' eq_refl). }
    { intros p Hp. apply El. right. exact Hp. }
    destruct (F sg C) as [blocks [Dv F2]]. eapply I_args; eauto.
  Qed.

  Lemma verbatim_sup a b : sup b = true -> verbatim_op a b = None.
  Proof.
    intro H. unfold verbatim_op. destruct a as [| | | | | |[|h ta]]; try reflexivity.
    destruct b as [| | | | | |[|[| | | | | |[|[s| | | | | |] [|v [|]]]] args]]; try reflexivity.
    cbn [supported] in H. apply andb_true_iff in H as [H _]. apply andb_true_iff in H as [H _]. unfold single_head in H.
    apply andb_true_iff in H as [_ H]. apply negb_true_iff in H. rewrite H. reflexivity.
  Qed.

  (* what supported says about a plain compound pattern *)
  Definition compound_ok (hb : ex) (tb : list ex) : Prop :=
    (forall s, hb = ESym s -> tb <> []) /\ (is_sym hb = false -> single_head hb = true) /\ sup hb = true /\ (forall p, In p tb -> sup p = true).

  Lemma normal_sound M a b : (forall c p, pat_fuel c p < pat_fuel a b -> sup p = true -> good_at M c p) ->
    sup b = true -> (is_blank_type_only b = false -> plain b) ->
    (is_blank_type_only b = false -> forall hb tb, b = EExpr (hb :: tb) -> compound_ok hb tb) ->
    log_at (fun x y => match_normal M env x y) a b.
  Proof.
    intros HM Hs Hp Hc pm N m. unfold match_normal. rewrite (verbatim_sup a b Hs).
    destruct (is_blank_type_only b) eqn:Eb.
    { pose proof (capture_sound b a pm Eb N) as Q. destruct (blank_capture b a (head_ex a) pm) as [ok pm1]. cbn [fst snd] in Q.
      destruct ok; [|intros []]. intros [<-|[]]. apply Q. reflexivity. }
    specialize (Hp eq_refl). specialize (Hc eq_refl).
    assert (HM' : forall c p, ex_size p < ex_size b -> sup p = true -> good_at M c p).
    { intros c p L. apply HM. unfold pat_fuel. destruct (is_num_atom c), (is_num_atom a); lia. }
    assert (First : forall c, pat_fuel c b < pat_fuel a b -> In m (fst (let '(ms, pm1) := M c b pm in (match ms with [] => [] | m :: _ => [m] end, pm1))) ->
       forall sg, covers same sg m -> I sg c b).
    { intros c L. destruct (HM c b L Hs pm N) as [_ [_ C]]. destruct (M c b pm) as [ms pm1]. cbn [fst snd] in *.
      intro Hm. apply C. destruct ms; [destruct Hm|]. destruct Hm as [->|[]]. left. reflexivity. }
    assert (Bx : forall hb tb la, b = EExpr (hb :: tb) -> In m (match_parts M env false la (parts_of b) pm) ->
       forall sg, covers same sg m -> I sg (EExpr la) b).
    { intros hb tb la -> Hin. destruct (Hc hb tb eq_refl) as [C1 [C2 [C3 C4]]]. eapply parts_sound; eauto. }
    destruct b as [sb|sb|zb|nb db|fb|rb ib|lb].
    1-6: destruct a as [s|s|z|n d|f|r i|la]; cbn [assume_head fst];
         try (destruct (is_sameq _ _) eqn:S; [|intros []]; intros _ sg _; apply I_atom; [reflexivity|reflexivity|exact Hp|exact S]); intros [].
    destruct lb as [|hb tb]; [discriminate Hs|].
    assert (As : forall a', assume_head env a (EExpr (hb :: tb)) = Some a' -> In m (match_parts M env false (parts_of a') (hb :: tb) pm) ->
       forall sg, covers same sg m -> I sg a (EExpr (hb :: tb))).
    { intros a' E Hin sg C. unfold assume_head in E. destruct hb as [bs| | | | | |]; try discriminate.
      destruct (me_oneid env bs) eqn:E1; [|discriminate]. destruct (me_default env bs) as [df|] eqn:E2; [|discriminate].
      destruct (has_optional tb) eqn:E3; [|discriminate]. cbn in E.
      assert (Q : a' = EExpr [ESym bs; a] /\ has_head a bs = false).
      { destruct a as [s|s|z|n d|f|r i|[|[s| | | | | |] la]]; try (injection E as <-; split; reflexivity); try discriminate.
        destruct (String.eqb_spec s bs) as [->|Ne]; [discriminate|]. injection E as <-. split; [reflexivity|].
        unfold has_head, head_assertion. destruct (String.eqb_spec s bs); [congruence|reflexivity]. }
      destruct Q as [-> Hh]. cbn [parts_of] in Hin. apply I_assume; try assumption; [congruence|].
      eapply Bx; eauto. }
    destruct a as [s|s|z|n d|f|r i|la].
    4: { intros Hin sg C. apply I_rat; [first [exact Hp|exact Hpl]|reflexivity|]. apply First; [unfold pat_fuel; cbn [is_num_atom]; lia|exact Hin|exact C]. }
    5: { intros Hin sg C. apply I_cplx; [first [exact Hp|exact Hpl]|reflexivity|]. apply First; [unfold pat_fuel; cbn [is_num_atom]; lia|exact Hin|exact C]. }
    1-4: destruct (assume_head env _ (EExpr (hb :: tb))) as [a'|] eqn:E; [intros Hin; exact (As a' eq_refl Hin)|];
         cbn [fst]; destruct (is_sameq _ _) eqn:S; [|intros []]; intros _ sg _; apply I_atom; [reflexivity|reflexivity|exact Hp|exact S].
    destruct (assume_head env (EExpr la) (EExpr (hb :: tb))) as [a'|] eqn:E; [intros Hin; exact (As a' eq_refl Hin)|].
    cbn [fst]. intros Hin. eapply Bx; eauto.
  Qed.

  (* Condition and Optional patterns used as expressions *)
  Lemma open_sound M a s args : s = nCondition \/ s = nOptional ->
    (forall c p, pat_fuel c p < pat_fuel a (EExpr (ESym s :: args)) -> sup p = true -> good_at M c p) ->
    (forall c p, pat_fuel c p < pat_fuel a (EExpr (ESym s :: args)) -> str_at M c p) ->
    sup (EExpr (ESym s :: args)) = true ->
    log_at (fun x y => match_normal M env x y) a (EExpr (ESym s :: args)).
  Proof.
    intros Hs HM HS Hsup pm N m. unfold match_normal. rewrite (verbatim_sup a _ Hsup).
    assert (Eb : is_blank_type_only (EExpr (ESym s :: args)) = false) by (destruct Hs as [->| ->]; reflexivity).
    assert (Hpl : plain (EExpr (ESym s :: args))).
    { cbn. intro Q. destruct Hs as [->| ->]; repeat (destruct Q as [Q|Q]; [first [discriminate Q|destruct Q as [Q _]; discriminate Q]|]); destruct Q as [Q _]; discriminate Q. }
    rewrite Eb.
    assert (First : forall c, pat_fuel c (EExpr (ESym s :: args)) < pat_fuel a (EExpr (ESym s :: args)) ->
       In m (fst (let '(ms, pm1) := M c (EExpr (ESym s :: args)) pm in (match ms with [] => [] | m :: _ => [m] end, pm1))) ->
       forall sg, covers same sg m -> I sg c (EExpr (ESym s :: args))).
    { intros c L. destruct (HM c _ L Hsup pm N) as [_ [_ C]]. destruct (M c (EExpr (ESym s :: args)) pm) as [ms pm1]. cbn [fst snd] in *.
      intro Hm. apply C. destruct ms; [destruct Hm|]. destruct Hm as [->|[]]. left. reflexivity. }
    assert (An : assume_head env a (EExpr (ESym s :: args)) = None).
    { unfold assume_head. destruct Henv as [E1 E2]. destruct Hs as [->| ->]; [rewrite E1|rewrite E2]; reflexivity. }
    destruct a as [sa|sa|z|n d|f|r i|la].
    4: { intros Hin sg C. apply I_rat; [first [exact Hp|exact Hpl]|reflexivity|]. apply First; [unfold pat_fuel; cbn [is_num_atom]; lia|exact Hin|exact C]. }
    5: { intros Hin sg C. apply I_cplx; [first [exact Hp|exact Hpl]|reflexivity|]. apply First; [unfold pat_fuel; cbn [is_num_atom]; lia|exact Hin|exact C]. }
    1-4: rewrite An; cbn [fst]; destruct (is_sameq _ _) eqn:S; [|intros []]; intros _ sg _; apply I_atom; [reflexivity|reflexivity|exact Hpl|exact S].
    rewrite An. cbn [fst]. intros Hin sg C.
    assert (HS' : forall c p, ex_size p < ex_size (EExpr (ESym s :: args)) -> str_at M c p).
    { intros c p L. apply HS. unfold pat_fuel. destruct (is_num_atom c); cbn [is_num_atom]; lia. }
    assert (D : In m (seq_match M env la (map (fun p => parse_form p false "Sequence" (me_default env "Sequence")) (ESym s :: args)) false "Sequence" pm) ->
       I sg (EExpr la) (EExpr (ESym s :: args))).
    { intro Hin'. unfold seq_match in Hin'. cbn [map] in Hin'.
      set (forms := map (fun p => parse_form p false "Sequence" (me_default env "Sequence")) args) in *.
      destruct (enough_matches _ _ _); [|destruct Hin']. apply in_flat_map in Hin' as [assn [Ha Hin']].
      apply ordered_in in Ha; [|discriminate]. destruct Ha as [[Va Vb] Hc].
      destruct assn as [|b0 assn]; [inversion Va|]. cbn [map] in Va. inversion Va as [|? ? ? ? V0 Vr]; subst.
      assert (L0 : length b0 = 1) by (rewrite parse_form_view, sym_view in V0; cbn in V0; lia).
      destruct b0 as [|i0 [|]]; try discriminate L0. cbn [concat app] in Hc.
      destruct la as [|h ta]; [discriminate Hc|]. cbn [length seq] in Hc. injection Hc as -> Hc.
      cbn [map combine ami_forms] in Hin'. apply in_flat_map in Hin' as [pm1 [H1 Hin']].
      rewrite parse_form_view, sym_view in H1. cbn [pform_of pf_form element_pattern cv_opt cv_core cv_test core_spec snd pick map nth] in H1.
      apply (I_open _ _ _ _ s h); [exact Hs|].
      assert (G : good_at M h (ESym s)).
      { apply HM; [|reflexivity]. unfold pat_fuel. rewrite size_cons. pose proof (ex_size_pos (EExpr args)). destruct (is_num_atom h); cbn [is_num_atom]; rewrite size_sym; lia. }
      assert (Gs : forall c, str_at M c (ESym s)).
      { intro c. apply HS'. rewrite size_cons. pose proof (ex_size_pos (EExpr args)). rewrite size_sym. lia. }
      cbn [ami_comps] in H1. destruct (G pm N) as [N1 [I1 S1]]. destruct (M h (ESym s) pm) as [ms pm0]. cbn [fst snd] in *.
      apply in_flat_map in H1 as [m0 [Hm0 [<-|[]]]]. destruct (S1 m0 Hm0) as [Nm [Cm Sm]]. apply Sm.
      eapply covers_le; [|exact C]. eapply le_trans; [apply (update_ge pm0 m0 Nm)|].
      destruct (define_sequence env _ _ _ _) as [pm2|] eqn:Df; [|destruct Hin'].
      apply define_str in Df; [|apply nodup_update, N1]. eapply le_trans; [apply Df|].
      eapply forms_str; [|apply Df|exact Hin'].
      intros [f bl] Hx c. apply in_combine_l in Hx. cbn [fst]. unfold forms in Hx. apply in_map_iff in Hx as [p [<- Hp]].
      rewrite parse_form_view. cbn [pform_of pf_form]. apply HS'. pose proof (element_size false "Sequence" p).
      rewrite size_cons. pose proof (in_size p args Hp). lia. }
    unfold match_parts in Hin. cbn [parts_of] in Hin.
    destruct la as [|[sa| | | | | |] ta]; try exact (D Hin).
    destruct (String.eqb_spec sa s) as [->|Ne]; [|exact (D Hin)].
    apply (I_open _ _ _ _ s (ESym s)); [exact Hs|]. apply I_atom; [reflexivity|reflexivity|exact Logic.I|apply sameq_refl].
  Qed.

  Lemma sound_alts M a ps : (forall p, In p ps -> good_at M a p) -> forall pm, nodupk pm -> forall m, In m (fst (match_alts M a ps pm)) ->
    exists p, In p ps /\ forall sg, covers same sg m -> I sg a p.
  Proof.
    induction ps as [|p t IH]; intros H pm N m; cbn [match_alts]; [intros []|].
    destruct (H p (or_introl eq_refl) pm N) as [A [B C]]. destruct (M a p pm) as [ms pm1]. cbn [fst snd] in *.
    destruct ms as [|m0 ms].
    - intro Hm. destruct (IH (fun q Hq => H q (or_intror Hq)) pm1 A m Hm) as [q [Hq S]]. exists q. split; [right; exact Hq|exact S].
    - intros [<-|[]]. exists p. split; [left; reflexivity|]. apply C. left. reflexivity.
  Qed.

  Lemma passes_spec t e : (if match t with ESym tn => String.eqb tn (sysname "NumberQ") | _ => false end then numberQ e else me_true env (EExpr [t; e])) = true -> passes env t e.
  Proof.
    unfold passes. intro H. destruct (ex_eqb t (sys "NumberQ")) eqn:E.
    - apply ex_eqb_eq in E as ->. exact H.
    - destruct t as [tn| | | | | |]; try exact H. destruct (String.eqb_spec tn (sysname "NumberQ")) as [->|]; [|exact H].
      unfold sys in E. assert (X : ex_eqb (ESym (sysname "NumberQ")) (ESym (sysname "NumberQ")) = true) by (apply ex_eqb_eq; reflexivity). congruence.
  Qed.

  Lemma step_sound a b : (forall c p, pat_fuel c p < pat_fuel a b -> sup p = true -> good_at (match_iter env) c p) -> sup b = true ->
    log_at (fun x y => mi_step (match_iter env) env x y) a b.
  Proof.
    set (M := match_iter env). intros HM Hsup pm Np m.
    assert (HS : forall c p, str_at M c p) by (intros; apply str_match).
    assert (P : forall args s, b = EExpr (ESym s :: args) -> forall p, In p args -> sup p = true -> good_at M a p).
    { intros args s -> p Hp. apply HM. unfold pat_fuel. rewrite size_cons, size_sym. pose proof (in_size p args Hp). lia. }
    assert (NN : forall s args, b = EExpr (ESym s :: args) -> s <> nCondition -> s <> nOptional -> String.eqb s nAlt = false ->
       (String.eqb s nExcept = true -> length args <> 1 /\ length args <> 2) ->
       (String.eqb s nPatTest = true -> length args <> 2) -> (String.eqb s nHoldPattern = true -> length args <> 1) ->
       log_at (fun x y => match_normal M env x y) a b).
    { intros s args E Hc1 Hc2 Ha He Ht Hh. apply normal_sound; try assumption.
      - intro Q. rewrite E in Q |- *. apply blank_type_special; assumption.
      - intros Q hb tb E'. rewrite E in E', Q, Hsup. injection E' as <- <-.
        assert (Bn : blank_name s = false).
        { destruct (blank_name s) eqn:Bn; [|reflexivity]. unfold blank_name in Bn. rewrite !orb_true_iff, !String.eqb_eq in Bn.
          destruct Bn as [[->| ->]| ->]; discriminate Q. }
        assert (F : args <> [] /\ forallb sup args = true).
        { cbn [supported] in Hsup. rewrite Bn in Hsup.
          destruct (String.eqb_spec s nCondition); [contradiction|]. destruct (String.eqb_spec s nOptional); [contradiction|].
          destruct (String.eqb s nExcept).
          { destruct (He eq_refl). destruct args as [|? [|? [|]]]; cbn in *; try congruence; try lia; try discriminate. split; [discriminate|exact Hsup]. }
          cbn [orb] in Hsup. destruct (String.eqb s nPatTest).
          { specialize (Ht eq_refl). destruct args as [|? [|? [|]]]; cbn in *; try congruence; try lia; try discriminate; (split; [discriminate|exact Hsup]). }
          destruct args; [discriminate|]. split; [discriminate|exact Hsup]. }
        destruct F as [F1 F2]. rewrite forallb_forall in F2. split; [intros; assumption|]. split; [discriminate|]. split; [reflexivity|exact F2]. }
    unfold mi_step. destruct b as [sb|sb|zb|nb db|fb|rb ib|lb].
    1-6: apply (normal_sound M); try assumption; [intros _; exact Logic.I|discriminate].
    destruct lb as [|hb args]; [discriminate Hsup|].
    destruct hb as [s|sb|zb|nb db|fb|rb ib|lb].
    2-7: apply (normal_sound M); try assumption; [intros _; exact Logic.I|]; intros _ hb tb E; injection E as <- <-;
         cbn [supported] in Hsup; apply andb_true_iff in Hsup as [Hsup H3]; apply andb_true_iff in Hsup as [H1 H2];
         (split; [discriminate|]; split; [intros _; exact H1|]; split; [exact H2|]; rewrite forallb_forall in H3; exact H3).
    specialize (P args s eq_refl). specialize (NN s args eq_refl).
    destruct (String.eqb_spec s nExcept) as [->|Ne].
    { destruct args as [|p [|q [|]]].
      - discriminate Hsup.
      - assert (Hn : neg_ok p = true) by exact Hsup. specialize (Hneg a p pm Hn Np). fold M in Hneg. destruct (M a p pm) as [ms pm1]. cbn [fst] in *.
        destruct ms; [|intros []]. intros _ sg _. apply I_except, Hneg. reflexivity.
      - assert (Hn : neg_ok p && sup q = true) by exact Hsup. apply andb_true_iff in Hn as [Hn Hq].
        specialize (Hneg a p pm Hn Np). fold M in Hneg. pose proof (HS a p pm Np) as [A _]. destruct (M a p pm) as [ms pm1]. cbn [fst snd] in *.
        destruct ms; [|intros []]. destruct (P q (or_intror (or_introl eq_refl)) Hq pm1 A) as [_ [_ C]].
        destruct (M a q pm1) as [ms2 pm2]. cbn [fst snd] in *. intros Hm sg Cv. apply I_except2; [apply Hneg; reflexivity|].
        refine (proj2 (proj2 (C m _)) sg Cv). destruct ms2; [destruct Hm|]. destruct Hm as [->|[]]. left; reflexivity.
      - apply NN; first [exact Np|reflexivity|discriminate|let X := fresh in intro X; first [discriminate X|cbn; lia]]. }
    destruct (String.eqb_spec s nAlt) as [->|Na].
    { intros Hm sg C. destruct (sound_alts M a args) with (pm := pm) (m := m) as [p [Hp S]]; try assumption.
      - intros p Hp. apply P; [exact Hp|]. rewrite sup_cons_args in Hsup by reflexivity. destruct args; [destruct Hp|]. rewrite forallb_forall in Hsup. apply Hsup, Hp.
      - eapply (I_alt _ _ _ _ _ args p Hp). apply S, C. }
    destruct (String.eqb_spec s nPatTest) as [->|Nt].
    { destruct args as [|p [|t [|]]]; try (apply NN; first [exact Np|reflexivity|discriminate|let X := fresh in intro X; first [discriminate X|cbn; lia]]).
      assert (Hp : sup p = true) by exact (sup_test _ _ _ Hsup).
      destruct (P p (or_introl eq_refl) Hp pm Np) as [A [B C]]. destruct (M a p pm) as [ms pm1]. cbn [fst snd] in *.
      destruct ms as [|m0 ms]; [intros []|].
      assert (G : forall q : bool, (q = true -> passes env t a) -> In m (fst ((if q then [m0] else []), pm1)) -> forall sg, covers same sg m -> I sg a (EExpr [ESym nPatTest; p; t])).
      { intros q Hq Hm sg Cv. destruct q; cbn [fst] in Hm; [|destruct Hm]. destruct Hm as [<-|[]].
        apply I_test; [|apply Hq; reflexivity]. apply (C m0 (or_introl eq_refl)), Cv. }
      pose proof (passes_spec t a) as Ps. destruct (match t with ESym tn => _ | _ => _ end); apply G, Ps. }
    destruct (String.eqb_spec s nCondition) as [->|Nc].
    { assert (Op : log_at (fun x y => match_normal M env x y) a (EExpr (ESym nCondition :: args))).
      { apply open_sound; auto. }
      destruct args as [|p [|c [|]]]; try (apply Op; exact Np).
      assert (Hp : sup p = true) by exact (sup_cond _ _ Hsup).
      destruct (P p (or_introl eq_refl) Hp pm Np) as [A [B C]]. destruct (M a p pm) as [ms pm1]. cbn [fst snd] in *.
      destruct (filter _ ms) as [|m0 r] eqn:F; [apply Op, A|].
      cbn [fst]. intros [<-|[]] sg Cv.
      assert (Q : In m0 (m0 :: r)) by (left; reflexivity). rewrite <- F in Q. apply filter_In in Q as [Q1 Q2].
      destruct (C m0 Q1) as [_ [_ Ci]].
      apply I_cond with (pm := m0); [exact Cv|apply Ci, covers_self|apply Ci, Cv|exact Q2]. }
    destruct (String.eqb_spec s nOptional) as [->|No].
    { assert (Op : log_at (fun x y => match_normal M env x y) a (EExpr (ESym nOptional :: args))).
      { apply open_sound; auto. }
      destruct args as [|p [|c]]; try (apply Op; exact Np).
      assert (Hp : sup p = true) by exact (sup_opt _ _ Hsup).
      destruct (P p (or_introl eq_refl) Hp pm Np) as [A [B C]]. destruct (M a p pm) as [ms pm1]. cbn [fst snd] in *.
      destruct ms as [|m0 r]; [apply Op, A|].
      cbn [fst]. intros [<-|[]] sg Cv. apply I_opt. apply (C m0 (or_introl eq_refl)), Cv. }
    destruct (String.eqb_spec s nHoldPattern) as [->|Nh].
    { destruct args as [|p [|c]]; try (apply NN; first [exact Np|reflexivity|discriminate|let X := fresh in intro X; first [discriminate X|cbn; lia]]).
      assert (Hp : sup p = true).
      { rewrite sup_cons_args in Hsup by reflexivity. cbn [forallb] in Hsup. apply andb_true_iff in Hsup. apply Hsup. }
      intros Hm sg Cv. apply I_hold. destruct (P p (or_introl eq_refl) Hp pm Np) as [_ [_ C]]. apply (C m Hm), Cv. }
    apply NN; try assumption.
    all: first [reflexivity|let X := fresh in intro X; discriminate X].
  Qed.

  Lemma sound_all : forall n a b, pat_fuel a b < n -> sup b = true -> good_at (match_iter env) a b.
  Proof.
    induction n as [|n IH]; intros a b L Hs; [lia|]. apply good_intro; [apply str_match|].
    intros pm N m. rewrite match_iter_eq. apply (step_sound a b); try assumption. intros c p Lc. apply IH. lia.
  Qed.
  Lemma match_sound a b pm m : sup b = true -> nodupk pm -> In m (fst (match_iter env a b pm)) ->
    forall sg, covers same sg m -> I sg a b.
  Proof. intros Hs N Hm. destruct (sound_all (S (pat_fuel a b)) a b (le_n _) Hs pm N) as [_ [_ C]]. apply (C m Hm). Qed.
End sound.
