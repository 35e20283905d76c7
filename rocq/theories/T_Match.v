(* Property theorems: pattern matching (C23 - C26).
   The declarative semantics [inst] of patterns is in S_Match.v. *)
From Verif Require Import M_Syntax M_Hash M_Alloc M_Match S_Alloc S_Match P_Hash P_Alloc P_MatchFuel P_MatchSound P_MatchComplete P_MatchComplete2 P_MatchNames.
From Coq Require Import Permutation Relations.
Open Scope nat_scope.

(* ---- C23 ---- *)
(* Partial: every f[...] of the pattern has an argument, head patterns stand for
   exactly one expression and are not Verbatim[h], and the pattern excluded by
   Except contains no names (n bounds the nesting of Except).  The bindings
   given to the derivation are the reported ones; values of one name may differ
   up to the equivalence generated by SameQ (see C25). *)
Theorem C23_match_sound_partial : forall env n a p m, env_ok env -> supported (neg_ok_n n) p = true ->
  is_match_q env a p [] = Some m -> inst (neg_n env n) same env (pd_bindings m) a p.
Proof.
  intros env n a p m Henv Hs H. unfold is_match_q in H. destruct (fst (match_iter env a p [])) as [|m0 ms] eqn:E; [discriminate|]. injection H as ->.
  apply (match_sound env (neg_n env n) (neg_ok_n n) Henv (fun a q pm H N => proj1 (proj2 (strata env Henv n) a q pm H N)) a p [] m Hs nodup_nil); [rewrite E; left; reflexivity|apply covers_self].
Qed.
Print Assumptions C23_match_sound_partial.

(* every match reported by backtracking, not only the first one, and with
   bindings already made *)
Theorem C23_every_match_sound_partial : forall env n a p pm m, env_ok env -> supported (neg_ok_n n) p = true -> NoDup (map fst pm) ->
  In m (fst (match_iter env a p pm)) -> inst (neg_n env n) same env (pd_bindings m) a p.
Proof.
  intros env n a p pm m Henv Hs N H.
  apply (match_sound env (neg_n env n) (neg_ok_n n) Henv (fun a q pm H N => proj1 (proj2 (strata env Henv n) a q pm H N)) a p pm m Hs N H), covers_self.
Qed.
Print Assumptions C23_every_match_sound_partial.

(* only names of the pattern are bound *)
Theorem C23_only_pattern_names_bound : forall env a p m x v, is_match_q env a p [] = Some m -> pd_get m x = Some v -> In x (pattern_names p).
Proof.
  intros env a p m x v H Hx. unfold is_match_q in H. destruct (fst (match_iter env a p [])) as [|m0 ms] eqn:E; [discriminate|]. injection H as ->.
  destruct (key_match env a p [] m x) as [Q|Q]; [rewrite E; left; reflexivity| |destruct Q|exact Q].
  destruct (in_dec String.string_dec x (map fst m)) as [I|I]; [exact I|]. apply pd_get_none in I. congruence.
Qed.
Print Assumptions C23_only_pattern_names_bound.

(* an environment for the examples: Plus and Times with their attributes *)
Definition is_pt (s : string) : bool := String.eqb s (sysname "Plus") || String.eqb s (sysname "Times").
Definition env0 : menv :=
  MEnv is_pt is_pt is_pt
       (fun s => if String.eqb s (sysname "Plus") then Some (EInt 0) else if String.eqb s (sysname "Times") then Some (EInt 1) else None)
       (fun e => match e with
                 | EExpr [ESym s; EInt z] => String.eqb s (sysname "EvenQ") && Z.even z
                 | EExpr [ESym s; EInt x; EInt y] => String.eqb s (sysname "Greater") && Z.ltb y x
                 | _ => false
                 end).
Definition gl (s : string) : ex := ESym (append "Global`" s).
Definition blk : ex := EExpr [sys "Blank"].
Definition bs : ex := EExpr [sys "BlankSequence"].
Definition bns : ex := EExpr [sys "BlankNullSequence"].
Definition nm (x : string) (p : ex) : ex := EExpr [sys "Pattern"; gl x; p].
Definition ff (l : list ex) : ex := EExpr (gl "f" :: l).
Definition lst (l : list ex) : ex := EExpr (sys "List" :: l).
Lemma env0_ok : env_ok env0. Proof. split; reflexivity. Qed.

Local Open Scope string_scope.
Local Open Scope Z_scope.
Local Open Scope list_scope.
(* {x__, Except[_Symbol], y___, 1 + z_.} against {1, a, 2, b, 1 + c} *)
Definition ex_pat : ex :=
  lst [nm "x" bs; EExpr [sys "Except"; EExpr [sys "Blank"; sys "Symbol"]]; nm "y" bns;
       EExpr [sys "Plus"; EInt 1; EExpr [sys "Optional"; nm "z" blk]]].
Definition ex_sub : ex := lst [EInt 1; gl "a"; EInt 2; gl "b"; EExpr [sys "Plus"; EInt 1; gl "c"]].
Example C23_ex : supported (neg_ok_n 1) ex_pat = true /\
  is_match_q env0 ex_sub ex_pat [] =
    Some [("Global`x", EExpr [sys "Sequence"; EInt 1; gl "a"]); ("Global`y", EExpr [sys "Sequence"; gl "b"]); ("Global`z", gl "c")].
Proof. vm_compute. split; reflexivity. Qed.
(* the condition is tried on every match *)
Definition cond_pat : ex :=
  EExpr [sys "Condition"; EExpr [sys "Plus"; nm "x" blk; nm "y" blk]; EExpr [sys "Greater"; gl "x"; gl "y"]].
Example C23_ex_condition : supported (neg_ok_n 1) cond_pat = true /\
  is_match_q env0 (EExpr [sys "Plus"; EInt 1; EInt 2]) cond_pat [] = Some [("Global`x", EInt 2); ("Global`y", EInt 1)].
Proof. vm_compute. split; reflexivity. Qed.

(* outside the hypotheses soundness fails: f[1] "matches" f[], of which it is
   no instance under any bindings *)
Lemma no_blocks (inst1 R : ex -> ex -> Prop) env fl f sg bl : Forall2 (fun b p => takes inst1 R env fl f sg b p) bl [] -> bl = [].
Proof. intro H. inversion H. reflexivity. Qed.
Theorem C23_empty_pattern_refuted : is_match_q env0 (ff [EInt 1]) (ff []) [] = Some [] /\
  forall neg R sg, ~ inst neg R env0 sg (ff [EInt 1]) (ff []).
Proof.
  split; [vm_compute; reflexivity|]. intros neg R sg Hi.
  inversion Hi as [e p l Hb Hh|e x q r l v Hb Hh Hv HR|e x q r l Hb Hh Hx|e qs p Hp Hip|e p Hn|e p q Hn Hq|e p t Hip Ht|e p c pm0 Hc H1 H2 H3|e p Hip|e p Hip
      |s h l l' Hsy Hh|n d p Hp He Hip|r i p Hp He Hip|e g qs Hoi Hd Hx Hh Hp Hip|e p He Hn Hp Hsq|g l qs blocks Hp Hd F|h l hp qs blocks Hp Hne' T Hc F].
  - destruct Hb as [s [Hs E]]. injection E as <- _. destruct Hs as [Q|[Q|Q]]; discriminate Q.
  - destruct Hsy as [Q|Q]; discriminate Q.
  - discriminate Hx.
  - discriminate He.
  - apply no_blocks in F. subst blocks. change (@nil ex = [EInt 1]) in Hd. discriminate Hd.
  - apply (Hne' _ eq_refl). reflexivity.
Qed.
Print Assumptions C23_empty_pattern_refuted.
(* a sequence pattern as head swallows arguments: __[1] matches f[a, 1] *)
Theorem C23_head_sequence_refuted : is_match_q env0 (ff [gl "a"; EInt 1]) (EExpr [bs; EInt 1]) [] = Some [].
Proof. vm_compute. reflexivity. Qed.
Print Assumptions C23_head_sequence_refuted.

(* ---- C24 ---- *)
(* Partial: for the patterns described by [frag] (S_Match.v).  Every solution is
   found: some reported match agrees with the given bindings. *)
Theorem C24_match_complete_partial : forall env n a p sg, env_ok env -> frag (neg_ok_n n) MElem p = true -> pairs_ok a p = true ->
  inst (neg_n env n) eq env sg a p ->
  exists m, In m (fst (match_iter env a p [])) /\ forall x v, pd_get m x = Some v -> sg x = Some v.
Proof.
  intros env n a p sg Henv Hf Hp Hi. destruct (strata env Henv n) as [S1 S2].
  destruct (match_complete env (neg_n env n) (neg_ok_n n) eq S1 (fun a q pm H N => proj2 (S2 a q pm H N)) a p Hf sg [] nodup_nil Hp Hi) as [m [Hm C]].
  - right. split; [reflexivity|apply covers_nil].
  - exists m. split; [exact Hm|]. intros x v Hx. destruct (C (covers_nil _ _)) as [Cm _]. destruct (Cm x v Hx) as [w [Hw ->]]. exact Hw.
Qed.
Print Assumptions C24_match_complete_partial.
Theorem C24_matchq_complete_partial : forall env n a p sg, env_ok env -> frag (neg_ok_n n) MElem p = true -> pairs_ok a p = true ->
  inst (neg_n env n) eq env sg a p -> matchq_eval env a p = true.
Proof.
  intros env n a p sg Henv Hf Hp Hi. destruct (C24_match_complete_partial env n a p sg Henv Hf Hp Hi) as [m [Hm _]].
  unfold matchq_eval, is_match_q. destruct (fst (match_iter env a p [])); [destruct Hm|reflexivity].
Qed.
Print Assumptions C24_matchq_complete_partial.
(* for patterns without names MatchQ decides the declarative relation *)
Theorem C24_matchq_decides_partial : forall env n a p, env_ok env -> neg_ok_n (S n) p = true ->
  (matchq_eval env a p = true <-> exists sg, inst (neg_n env n) same env sg a p).
Proof.
  intros env n a p Henv H. destruct (strata env Henv (S n)) as [_ S2]. specialize (S2 a p [] H nodup_nil). cbn [neg_n] in S2.
  unfold matchq_eval, is_match_q. destruct (fst (match_iter env a p [])) as [|m ms] eqn:E.
  - split; [discriminate|]. intro Q. exfalso. apply (proj1 S2 eq_refl), Q.
  - split; [|reflexivity]. intros _. cbn [neg_ok_n] in H. apply andb_true_iff in H as [H C].
    exists (pd_bindings m). apply (C23_every_match_sound_partial env n a p [] m Henv C nodup_nil). rewrite E. left; reflexivity.
Qed.
Print Assumptions C24_matchq_decides_partial.

(* f[x__, y__, x__] against f[a, b, c, a, b] *)
Definition back_pat : ex := ff [nm "x" bs; nm "y" bs; nm "x" bs].
Definition back_sub : ex := ff [gl "a"; gl "b"; gl "c"; gl "a"; gl "b"].
Example C24_ex : frag (neg_ok_n 0) MElem back_pat = true /\ pairs_ok back_sub back_pat = true /\
  is_match_q env0 back_sub back_pat [] =
    Some [("Global`x", EExpr [sys "Sequence"; gl "a"; gl "b"]); ("Global`y", EExpr [sys "Sequence"; gl "c"])].
Proof. vm_compute. split; [|split]; reflexivity. Qed.
Example C24_ex_inst : inst (neg_n env0 0) eq env0
   (fun x => if String.eqb x "Global`x" then Some (EExpr [sys "Sequence"; gl "a"; gl "b"]) else if String.eqb x "Global`y" then Some (EExpr [sys "Sequence"; gl "c"]) else None)
   back_sub back_pat.
Proof.
  apply (I_args _ _ _ _ _ _ _ [[gl "a"; gl "b"]; [gl "c"]; [gl "a"; gl "b"]]).
  - intro H. repeat (destruct H as [H|H]; [first [discriminate H|destruct H as [H _]; discriminate H]|]). destruct H as [H _]; discriminate H.
  - reflexivity.
  - assert (T : forall x b, b <> [] -> (fun z => if String.eqb z "Global`x" then Some (EExpr [sys "Sequence"; gl "a"; gl "b"]) else if String.eqb z "Global`y" then Some (EExpr [sys "Sequence"; gl "c"]) else None) (append "Global`" x) = Some (EExpr (sys "Sequence" :: b)) ->
      takes (inst (neg_n env0 0) eq env0 (fun z => if String.eqb z "Global`x" then Some (EExpr [sys "Sequence"; gl "a"; gl "b"]) else if String.eqb z "Global`y" then Some (EExpr [sys "Sequence"; gl "c"]) else None)) eq env0 (me_flat env0 "Global`f") "Global`f"
        (fun z => if String.eqb z "Global`x" then Some (EExpr [sys "Sequence"; gl "a"; gl "b"]) else if String.eqb z "Global`y" then Some (EExpr [sys "Sequence"; gl "c"]) else None) b (nm x bs)).
    { intros x b Hb Hx. split; [split; [destruct b; [congruence|cbn; lia]|exact Logic.I]|]. split.
      - apply Forall_forall. intros e _. apply (I_blank _ _ _ _ e _ []); [|exact Logic.I]. exists nBlank. split; [left; reflexivity|reflexivity].
      - cbn [nm view cv_name]. exists (EExpr (sys "Sequence" :: b)). split; [exact Hx|]. destruct b as [|e [|]]; [congruence|reflexivity|reflexivity]. }
    constructor; [apply T; [discriminate|reflexivity]|]. constructor; [apply T; [discriminate|reflexivity]|]. constructor; [apply T; [discriminate|reflexivity]|]. constructor.
Qed.

(* Outside the fragment solutions are missed. *)
(* a name on a compound pattern works in argument position only *)
Theorem C24_named_compound_refuted : matchq_eval env0 (ff [EInt 1]) (nm "x" (ff [blk])) = false /\ matchq_eval env0 (ff [EInt 1]) (ff [blk]) = true.
Proof. vm_compute. split; reflexivity. Qed.
Print Assumptions C24_named_compound_refuted.
(* {x_ | y_, x_} misses {1, 2} (solution y=1, x=2): only the first matching
   alternative is tried *)
Theorem C24_alternatives_refuted : matchq_eval env0 (lst [EInt 1; EInt 2]) (lst [EExpr [sys "Alternatives"; nm "x" blk; nm "y" blk]; nm "x" blk]) = false /\
  inst (neg_n env0 0) eq env0 (fun z => if String.eqb z "Global`y" then Some (EInt 1) else if String.eqb z "Global`x" then Some (EInt 2) else None)
    (lst [EInt 1; EInt 2]) (lst [EExpr [sys "Alternatives"; nm "x" blk; nm "y" blk]; nm "x" blk]).
Proof.
  split; [vm_compute; reflexivity|].
  apply (I_args _ _ _ _ _ _ _ [[EInt 1]; [EInt 2]]).
  - intro H. repeat (destruct H as [H|H]; [first [discriminate H|destruct H as [H _]; discriminate H]|]). destruct H as [H _]; discriminate H.
  - reflexivity.
  - constructor; [|constructor; [|constructor]].
    + split; [vm_compute; split; constructor|]. split; [|exact Logic.I]. constructor; [|constructor].
      apply (I_alt _ _ _ _ _ _ (nm "y" blk)); [right; left; reflexivity|].
      apply (I_named _ _ _ _ (EInt 1) "Global`y" blk [] [] (EInt 1)); [exists nBlank; split; [left; reflexivity|reflexivity]|exact Logic.I|reflexivity|reflexivity].
    + split; [vm_compute; split; constructor|]. split.
      * constructor; [|constructor]. apply (I_blank _ _ _ _ _ _ []); [exists nBlank; split; [left; reflexivity|reflexivity]|exact Logic.I].
      * exists (EInt 2). split; reflexivity.
Qed.
Print Assumptions C24_alternatives_refuted.
(* a failed alternative leaves its bindings behind: {(x_?EvenQ) | y_, x_} *)
Theorem C24_failed_alternative_refuted :
  matchq_eval env0 (lst [EInt 1; EInt 2]) (lst [EExpr [sys "Alternatives"; EExpr [sys "PatternTest"; nm "x" blk; sys "EvenQ"]; nm "y" blk]; nm "x" blk]) = false /\
  matchq_eval env0 (lst [EInt 1; EInt 2]) (lst [nm "y" blk; nm "x" blk]) = true.
Proof. vm_compute. split; reflexivity. Qed.
Print Assumptions C24_failed_alternative_refuted.
(* {x:f[_], x_} never matches: the first occurrence binds x to Sequence[f[1]] *)
Theorem C24_name_convention_refuted : matchq_eval env0 (lst [ff [EInt 1]; ff [EInt 1]]) (lst [nm "x" (ff [blk]); nm "x" blk]) = false.
Proof. vm_compute. reflexivity. Qed.
Print Assumptions C24_name_convention_refuted.

(* ---- C25 ---- *)
(* Each name has one value in a match; names bound before keep their value up
   to the equivalence generated by SameQ, for all patterns. *)
Theorem C25_bindings_consistent : forall env a p pm m, NoDup (map fst pm) -> In m (fst (match_iter env a p pm)) ->
  NoDup (map fst m) /\ forall x v w, pd_get pm x = Some v -> pd_get m x = Some w -> same v w.
Proof.
  intros env a p pm m N H. destruct (str_match env a p pm N) as [_ [I C]]. destruct (C m H) as [Nm Cm]. split; [exact Nm|].
  intros x v w Hv Hw. apply (Cm x v w (I x v Hv) Hw).
Qed.
Print Assumptions C25_bindings_consistent.
(* f[.., x_, .., x_, ..]: the expressions at the positions of x are the same up
   to that equivalence.  Partial: for a head without Orderless and Flat, and up
   to the equivalence generated by SameQ instead of SameQ itself. *)
Definition named (x : string) : ex := EExpr [sys "Pattern"; ESym x; EExpr [sys "Blank"]].
Lemma named_takes inst1 R env f sg b x : takes inst1 R env false f sg b (named x) -> exists e v, b = [e] /\ sg x = Some v /\ R e v.
Proof.
  intros [W [_ [v [Hv HR]]]]. change (within (1%nat, Some 1%nat) (length b)) in W. destruct W as [W1 W2]. cbn [fst snd] in *.
  destruct b as [|e [|]]; cbn [length] in *; try lia. exists e, v. split; [reflexivity|]. split; [exact Hv|]. exact HR.
Qed.
(* f is not one of the pattern constructs themselves *)
Definition reserved : list string := [nBlank; nBS; nBNS; nPattern; nPatTest; nAlt; nExcept; nHoldPattern; nCondition; nOptional].
Theorem C25_repeated_names_partial : forall env f args xs m, env_ok env -> me_orderless env f = false -> me_flat env f = false ->
  ~ In f reserved -> xs <> [] ->
  is_match_q env (EExpr (ESym f :: args)) (EExpr (ESym f :: map named xs)) [] = Some m ->
  length args = length xs /\
  forall i j x a b, nth_error xs i = Some x -> nth_error xs j = Some x -> nth_error args i = Some a -> nth_error args j = Some b -> same a b.
Proof.
  intros env f args xs m Henv Ho Hfl Hres Hne Hm.
  assert (Fr : forall nok p, In p (map named xs) -> frag nok MTop p = true /\ supported nok p = true).
  { intros nok p Hp. apply in_map_iff in Hp as [x [<- _]]. split; reflexivity. }
  assert (Hne2 : map named xs <> []) by (destruct xs; [congruence|discriminate]).
  assert (Hb : blank_name f = false).
  { unfold blank_name. rewrite !orb_false_iff, !String.eqb_neq. split; [split|]; intros ->; apply Hres; cbn; tauto. }
  assert (NE : forall t, In t reserved -> String.eqb f t = false) by (intros t Ht; apply String.eqb_neq; intros ->; contradiction).
  assert (Hord : ordinary (neg_ok_n 0) (EExpr (ESym f :: map named xs))).
  { exists (ESym f), (map named xs). split; [reflexivity|]. split.
    { intro H. apply Hres. cbn [reserved In]. destruct H as [H|[H|[H|[H|[[H _]|[[H _]|[[H _]|[H _]]]]]]]]; rewrite H; tauto. }
    split; [apply blank_type_sym; [exact Hb|intros ->; apply Hres; cbn; tauto]|].
    split; [intros p [<-|Hp]; [reflexivity|apply Fr, Hp]|]. split; [intros _ _; exact Hne2|]. split; [discriminate|].
    intros s E. injection E as <-. split; intros ->; apply Hres; cbn; tauto. }
  assert (Hs : supported (neg_ok_n 0) (EExpr (ESym f :: map named xs)) = true).
  { cbn [supported]. rewrite Hb, !NE by (cbn; tauto). cbn [orb]. destruct (map named xs) as [|p t]; [congruence|].
    apply forallb_forall. intros q Hq. apply Fr, Hq. }
  pose proof (C23_match_sound_partial env 0 _ _ m Henv Hs Hm) as Hi.
  apply (ordinary_inst _ _ _ (neg_ok_n 0)) in Hi; [|exact Hord].
  inversion Hi as [n d h0 t0 Ic|r i h0 t0 Ic|e h0 t0 He Hn Hsq|g l t0 blocks Hd F|h l h0 t0 blocks Hne' T Hc F]; subst.
  - discriminate He.
  - rewrite Ho in Hd. rewrite Hfl in F. cbn [divided] in Hd. subst args.
    set (sg := pd_bindings m) in *.
    assert (G : Forall2 (fun e x => exists v, sg x = Some v /\ same e v) (concat blocks) xs).
    { clear - F. remember (map named xs) as ps eqn:E. revert xs E. induction F as [|b p bs ps T _ IH]; intros xs E; destruct xs as [|x xs]; try discriminate E; [constructor|].
      injection E as -> E. apply named_takes in T as [e [v [-> [Hv HR]]]]. cbn [concat app]. constructor; [eauto|apply IH, E]. }
    split; [apply (f2_len _ _ _ G)|]. intros i j x a b Hi1 Hj1 Ha1 Hb1.
    destruct (f2_nth _ _ _ G i a Ha1) as [x1 [Hx1 [v1 [Hv1 R1]]]]. destruct (f2_nth _ _ _ G j b Hb1) as [x2 [Hx2 [v2 [Hv2 R2]]]].
    assert (x1 = x) by congruence. assert (x2 = x) by congruence. subst x1 x2. assert (v1 = v2) by congruence. subst v2.
    eapply same_trans; [exact R1|apply same_sym, R2].
  - exfalso. apply (Hne' f eq_refl). reflexivity.
Qed.
Print Assumptions C25_repeated_names_partial.
Example C25_ex : ~ In "Global`f" reserved /\
  is_match_q env0 (ff [EInt 1; EInt 2; EInt 1]) (ff (map named ["x"; "y"; "x"])) [] = Some [("x", EInt 1); ("y", EInt 2)] /\
  is_match_q env0 (ff [EInt 1; EInt 2; EInt 3]) (ff (map named ["x"; "y"; "x"])) [] = None.
Proof. split; [|vm_compute; split; reflexivity]. intro H. repeat (destruct H as [H|H]; [discriminate H|]). destruct H. Qed.

(* SameQ itself is not transitive on reals, and x drifts: f[x_, x_, x_] matches
   three reals of which the first and the last are not SameQ. *)
Definition drift (k : N) : ex := EFlt (FFin false (2 ^ 52 + k) (-52) 0).
Theorem C25_drift_refuted : matchq_eval env0 (ff [drift 0; drift 1; drift 2]) (ff (map named ["x"; "x"; "x"])) = true /\
  is_sameq (drift 0) (drift 2) = false.
Proof. vm_compute. split; reflexivity. Qed.
Print Assumptions C25_drift_refuted.

(* ---- C26 ---- *)
(* ReplacePD is simultaneous substitution of the bound names *)
Theorem C26_replace_is_substitution : forall pm e e', replace_pd_go pm e = e' <-> subst pm e e'.
Proof.
  intros pm e e'. rewrite replace_pd_go_eq. split; [intros <-; apply replace_pd_subst|]. intro H. apply (subst_unique pm e); [apply replace_pd_subst|exact H].
Qed.
Print Assumptions C26_replace_is_substitution.
Theorem C26_unbound_untouched : forall pm e, (forall x, In x (map fst pm) -> ~ occurs x e) -> replace_pd_go pm e = e.
Proof. intros pm e H. apply C26_replace_is_substitution, subst_fresh, H. Qed.
Print Assumptions C26_unbound_untouched.
Theorem C26_empty_identity : forall e, replace_pd_go [] e = e.
Proof. intro e. apply C26_unbound_untouched. intros x []. Qed.
Print Assumptions C26_empty_identity.
Example C26_ex : replace_pd_go [("x", ESym "y"); ("y", EExpr [ESym "x"; EInt 1])] (EExpr [ESym "x"; ESym "y"; EStr "x"; ESym "z"])
  = EExpr [ESym "y"; EExpr [ESym "x"; EInt 1]; EStr "x"; ESym "z"].
Proof. reflexivity. Qed.
