(* Property theorems: rules for parts of a Flat expression (C120). *)
From Verif Require Import M_Syntax M_Float M_Hash M_Order M_Sort M_Num M_Arith M_Compare M_Match M_Defs M_Eval S_Alloc S_Match S_Eval S_Replace
  P_Hash P_MatchFuel P_MatchNames P_MatchSound P_MatchComplete P_MatchComplete2 P_Replace T_Match T_Replace.
From Coq Require Import Permutation Relations.
Open Scope nat_scope.

(* ---- specification ---- *)
(* the elements left over before and after the part that matched: kept in a
   Sequence, which the evaluator splices in *)
Definition leftover (env : menv) (f : string) (block : list ex) (x : ex) : Prop :=
  same (match block with
        | [e] => if me_oneid env f then e else EExpr [sys "Sequence"; e]
        | _ => EExpr (sys "Sequence" :: block)
        end) x.
(* f[args] with the rule f[ps] -> rhs applied to some neighbouring arguments (to
   any choice of arguments when f is Orderless) *)
Definition part_rewritten (neg : ex -> ex -> Prop) (env : menv) (f : string) (args ps : list ex) (rhs e' : ex) : Prop :=
  exists m mid rhs', inst neg same env (pd_bindings m) (EExpr (ESym f :: mid)) (EExpr (ESym f :: ps)) /\ subst m rhs rhs' /\
    if me_orderless env f then
      exists rest y, Permutation args (mid ++ rest) /\ leftover env f rest y /\ e' = EExpr [ESym f; rhs'; y]
    else
      exists left right x y, args = left ++ mid ++ right /\ leftover env f left x /\ leftover env f right y /\ e' = EExpr [ESym f; x; rhs'; y].

(* ---- lemmas ---- *)
Definition rest_pattern (n : string) : ex := EExpr [sys "Pattern"; ESym n; EExpr [sys "BlankNullSequence"]].
Definition nstart : string := "System`Expreduce`start".
Definition nend : string := "System`Expreduce`end".
Lemma rest_takes (inst1 R : ex -> ex -> Prop) env fl f sg b n : takes inst1 R env fl f sg b (rest_pattern n) ->
  exists v, sg n = Some v /\ R (name_value env fl f (view (rest_pattern n)) b) v.
Proof. intros [_ [_ H]]. exact H. Qed.
Lemma rest_value env fl f n b : name_value env fl f (view (rest_pattern n)) b =
  match b with [e] => if me_oneid env f then e else EExpr [sys "Sequence"; e] | _ => EExpr (sys "Sequence" :: b) end.
Proof. destruct b as [|e [|e2 t]]; [reflexivity| |reflexivity]. unfold name_value. cbn. rewrite orb_false_r. reflexivity. Qed.
Lemma rest_takes_intro (neg R : ex -> ex -> Prop) env fl f sg b n v : sg n = Some v -> R (name_value env fl f (view (rest_pattern n)) b) v ->
  takes (inst neg R env sg) R env fl f sg b (rest_pattern n).
Proof.
  intros H K. split; [split; [apply Nat.le_0_l|exact Logic.I]|]. split; [|exists v; split; assumption].
  apply Forall_forall. intros e _. apply I_blank with []; [|exact Logic.I]. exists nBlank. split; [left; reflexivity|reflexivity].
Qed.
(* consecutive blocks are a division, also for an Orderless function *)
Fixpoint ranges (k : nat) (blocks : list (list ex)) : list (list nat) :=
  match blocks with [] => [] | b :: t => seq k (length b) :: ranges (k + length b) t end.
Lemma ranges_concat k blocks : concat (ranges k blocks) = seq k (length (concat blocks)).
Proof. revert k. induction blocks as [|b t IH]; intro k; [reflexivity|]. cbn [ranges concat]. rewrite IH, app_length, seq_app. reflexivity. Qed.
Lemma seq_increasing k n : strictly_increasing (seq k n).
Proof.
  revert k. induction n as [|n IH]; intro k; cbn [seq]; [exact Logic.I|]. specialize (IH (S k)).
  destruct n; [exact Logic.I|]. cbn [seq strictly_increasing] in *. split; [lia|exact IH].
Qed.
Lemma ranges_map k pre blocks : length pre = k ->
  map (map (fun i => nth i (pre ++ concat blocks) (sys "Null"))) (ranges k blocks) = blocks.
Proof.
  revert k pre. induction blocks as [|b t IH]; intros k pre L; [reflexivity|]. cbn [ranges map concat]. f_equal.
  - clear IH. revert k pre L. induction b as [|e b IHb]; intros k pre L; [reflexivity|]. cbn [length seq map]. f_equal.
    + rewrite app_nth2 by lia. replace (k - length pre) with 0 by lia. reflexivity.
    + specialize (IHb (S k) (pre ++ [e])). rewrite <- app_assoc in IHb. cbn [app] in IHb. apply IHb. rewrite app_length. cbn [length]. lia.
  - rewrite app_assoc. apply IH. rewrite app_length. lia.
Qed.
Lemma divided_consecutive o blocks : divided o (concat blocks) blocks.
Proof.
  destruct o; [|reflexivity]. exists (ranges 0 blocks). split; [rewrite ranges_concat; reflexivity|]. split.
  - assert (G : forall k, Forall strictly_increasing (ranges k blocks)).
    { induction blocks as [|b t IH]; intro k; cbn [ranges]; constructor; [apply seq_increasing|apply IH]. }
    apply G.
  - symmetry. apply (ranges_map 0 [] blocks). reflexivity.
Qed.
Lemma divided_perm o args blocks : divided o args blocks -> Permutation args (concat blocks).
Proof.
  destruct o; cbn [divided]; [|intros ->; reflexivity]. intros (ix & P & _ & ->). rewrite <- concat_map.
  rewrite <- (Permutation_map (fun i => nth i args (sys "Null")) (Permutation_sym P)). clear.
  assert (G : forall pre, map (fun i => nth i (pre ++ args) (sys "Null")) (seq (length pre) (length args)) = args).
  { induction args as [|a t IH]; intro pre; [reflexivity|]. cbn [length seq map]. f_equal.
    - rewrite app_nth2 by lia. rewrite Nat.sub_diag. reflexivity.
    - specialize (IH (pre ++ [a])). rewrite app_length in IH. cbn [length] in IH. rewrite Nat.add_1_r in IH.
      rewrite <- app_assoc in IH. exact IH. }
  specialize (G []). cbn [app length] in G. rewrite G. reflexivity.
Qed.

Section Flat.
Variable env : menv.
Variable f : string.
Hypothesis Henv : env_ok env.
Hypothesis Hf : ~ In f reserved.
Lemma not_blank_f : blank_name f = false.
Proof. unfold blank_name. rewrite !orb_false_iff, !String.eqb_neq. split; [split|]; intros ->; apply Hf; cbn; tauto. Qed.
Lemma not_reserved t : In t reserved -> String.eqb f t = false.
Proof. intro Ht. apply String.eqb_neq. intros ->. contradiction. Qed.
Lemma f_plain ps : plain (EExpr (ESym f :: ps)).
Proof.
  intro H. apply Hf. cbn [reserved In]. destruct H as [H|[H|[H|[H|[[H _]|[[H _]|[[H _]|[H _]]]]]]]]; rewrite H; tauto.
Qed.
Lemma f_supported nok ps : ps <> [] -> forallb (supported nok) ps = true -> supported nok (EExpr (ESym f :: ps)) = true.
Proof.
  intros N H. cbn [supported]. rewrite not_blank_f, !not_reserved by (cbn; tauto). cbn [orb]. destruct ps; [congruence|exact H].
Qed.
Lemma has_head_false (l : list ex) : has_head (EExpr (ESym f :: l)) f = false -> False.
Proof. intro H. rewrite (proj2 (has_head_iff (EExpr (ESym f :: l)) f)) in H by (exists l; reflexivity). discriminate H. Qed.
Lemma f_inst (neg R : ex -> ex -> Prop) sg args ps : ps <> [] -> inst neg R env sg (EExpr (ESym f :: args)) (EExpr (ESym f :: ps)) ->
  exists blocks, divided (me_orderless env f) args blocks /\ Forall2 (fun b p => takes (inst neg R env sg) R env (me_flat env f) f sg b p) blocks ps.
Proof.
  intros Np Hi.
  inversion Hi as [e p l Hb Hh|e x q r l v Hb Hh Hv HR|e x q r l Hb Hh Hx|e qs p Hp Hip|e p Hn|e p q Hn Hq|e p t Hip Ht|e p c pm0 Hc H1 H2 H3|e p Hip|e p Hip
      |s h l l' Hsy Hh|n d p Hp He Hip|r i p Hp He Hip|e g qs Hoi Hd Hx Hh Hp Hip|e p He Hn Hp Hsq|g l qs blocks Hp Hd F|h l hp qs blocks Hp Hne' T Hc F]; subst;
    try (exfalso; apply Hf; cbn; tauto); try (apply has_head_false in Hh; destruct Hh).
  - exfalso. destruct Hb as [s [Hs E]]. injection E as -> _. apply Hf. destruct Hs as [-> |[-> | ->]]; cbn; tauto.
  - exfalso. destruct Hsy as [-> | ->]; apply Hf; cbn; tauto.
  - discriminate He.
  - exists blocks. split; assumption.
  - exfalso. apply (Hne' f eq_refl). reflexivity.
Qed.
Definition loose (ps : list ex) : list ex := (if me_orderless env f then [] else [rest_pattern nstart]) ++ ps ++ [rest_pattern nend].
Lemma loose_ne ps : loose ps <> [].
Proof. unfold loose. destruct (me_orderless env f), ps; discriminate. Qed.
Lemma loose_forallb (h : ex -> bool) ps : (forall n, h (rest_pattern n) = true) -> forallb h ps = true -> forallb h (loose ps) = true.
Proof. intros K H. unfold loose. rewrite !forallb_app, H. cbn [forallb]. rewrite K. destruct (me_orderless env f); cbn [forallb]; rewrite ?K; reflexivity. Qed.
Lemma replace_flat args ps rhs : me_flat env f = true -> is_match_q env (EExpr (ESym f :: args)) (EExpr (ESym f :: ps)) [] = None -> f <> ""%string ->
  replace_all env (EExpr (ESym f :: ps)) rhs "" (EExpr (ESym f :: args)) =
  match is_match_q env (EExpr (ESym f :: args)) (EExpr (ESym f :: loose ps)) [] with
  | Some pd => replace_pd_go pd (EExpr (ESym f :: (if me_orderless env f then [] else [ESym nstart]) ++ [rhs; ESym nend]))
  | None => EExpr (ESym f :: args)
  end.
Proof.
  intros Fl M Ne. cbn [replace_all]. replace (has_head (EExpr (ESym f :: args)) "") with false.
  - rewrite M, String.eqb_refl, Fl. reflexivity.
  - symmetry. apply has_head_not. intros [l K]. injection K as K _. exact (Ne K).
Qed.
Lemma names_loose ps x : In x (match loose ps with ESym x :: _ => if is_pattern_head (ESym f) then [x] else [] | _ => [] end ++ flat_map pattern_names (ESym f :: loose ps)) ->
  x = nstart \/ x = nend \/ In x (flat_map pattern_names ps).
Proof.
  replace (match loose ps with ESym x :: _ => if is_pattern_head (ESym f) then [x] else [] | _ => [] end) with (@nil string).
  - cbn [app flat_map pattern_names]. unfold loose. rewrite !flat_map_app, !in_app_iff. change (flat_map pattern_names [rest_pattern nend]) with [nend].
    destruct (me_orderless env f); [change (flat_map pattern_names []) with (@nil string)|change (flat_map pattern_names [rest_pattern nstart]) with [nstart]];
      intro H; repeat rewrite in_app_iff in H; cbn [In] in H; intuition (subst; tauto).
  - destruct (loose ps) as [|[t| | | | | |] r]; try reflexivity. replace (is_pattern_head (ESym f)) with false; [reflexivity|].
    symmetry. unfold is_pattern_head. apply orb_false_iff. split; [|reflexivity]. unfold sys. cbn [ex_eqb]. apply not_reserved. cbn. tauto.
Qed.
End Flat.

Lemma flat_rewritten env n f args ps rhs m : env_ok env -> me_flat env f = true -> ~ In f reserved ->
  ps <> [] -> forallb (supported (neg_ok_n n)) ps = true -> ~ In f (nstart :: nend :: flat_map pattern_names ps) ->
  is_match_q env (EExpr (ESym f :: args)) (EExpr (ESym f :: loose env f ps)) [] = Some m ->
  part_rewritten (neg_n env n) env f args ps rhs (replace_pd_go m (EExpr (ESym f :: (if me_orderless env f then [] else [ESym nstart]) ++ [rhs; ESym nend]))).
Proof.
  intros Henv Fl Hf Np Su Fn E.
  assert (Hi : inst (neg_n env n) same env (pd_bindings m) (EExpr (ESym f :: args)) (EExpr (ESym f :: loose env f ps))).
  { apply C23_match_sound_partial; [exact Henv| |exact E]. apply f_supported; [exact Hf|apply loose_ne|].
    apply loose_forallb; [reflexivity|exact Su]. }
  apply f_inst in Hi; [|exact Hf|apply loose_ne]. destruct Hi as (blocks & D & T). unfold part_rewritten, loose in *.
  assert (I0 : forall bs, Forall2 (fun b p => takes (inst (neg_n env n) same env (pd_bindings m)) same env (me_flat env f) f (pd_bindings m) b p) bs ps ->
    inst (neg_n env n) same env (pd_bindings m) (EExpr (ESym f :: concat bs)) (EExpr (ESym f :: ps))).
  { intros bs F. apply (I_args _ _ _ _ _ _ _ bs); [apply f_plain, Hf|apply divided_consecutive|exact F]. }
  assert (Fb : pd_get m f = None).
  { destruct (pd_get m f) as [v|] eqn:B; [|reflexivity]. exfalso. apply Fn. apply (C23_only_pattern_names_bound env _ _ m f v E) in B.
    cbn [pattern_names] in B. apply names_loose in B; [|exact Hf]. cbn [In]. destruct B as [B|[B|B]]; auto. }
  assert (B1 : forall x v, pd_get m x = Some v -> subst m (ESym x) v) by (intros; constructor; assumption).
  destruct (me_orderless env f) eqn:O.
  - cbn [app] in *. apply Forall2_app_inv_r in T. destruct T as (bs & be & F & Fe & ->).
    inversion Fe as [|b p l l' Te Fe' E1 E2]; subst. inversion Fe'; subst. destruct (rest_takes _ _ _ _ _ _ _ _ Te) as (y & Gy & Ry). rewrite rest_value in Ry.
    exists m, (concat bs), (replace_pd_go m rhs). split; [apply I0, F|]. split; [apply C26_replace_is_substitution; reflexivity|].
    exists b, y. split; [|split].
    + apply divided_perm in D. rewrite concat_app in D. cbn [concat] in D. rewrite app_nil_r in D. exact D.
    + exact Ry.
    + apply C26_replace_is_substitution. constructor. constructor; [apply S_free, Fb|]. constructor; [apply C26_replace_is_substitution; reflexivity|].
      constructor; [apply B1, Gy|constructor].
  - cbn [app] in *. inversion T as [|bx px bl pl Tx T' E1 E2]; subst. apply Forall2_app_inv_r in T'. destruct T' as (bs & be & F & Fe & ->).
    inversion Fe as [|b p l l' Te Fe' E1 E2]; subst. inversion Fe'; subst. destruct (rest_takes _ _ _ _ _ _ _ _ Te) as (y & Gy & Ry). rewrite rest_value in Ry.
    destruct (rest_takes _ _ _ _ _ _ _ _ Tx) as (x & Gx & Rx). rewrite rest_value in Rx.
    exists m, (concat bs), (replace_pd_go m rhs). split; [apply I0, F|]. split; [apply C26_replace_is_substitution; reflexivity|].
    exists bx, b, x, y. split; [|split; [|split]].
    + cbn [divided concat] in D. rewrite concat_app in D. cbn [concat] in D. rewrite app_nil_r in D. symmetry. exact D.
    + exact Rx.
    + exact Ry.
    + apply C26_replace_is_substitution. constructor. constructor; [apply S_free, Fb|]. constructor; [apply B1, Gx|].
      constructor; [apply C26_replace_is_substitution; reflexivity|]. constructor; [apply B1, Gy|constructor].
Qed.

(* ---- theorems ---- *)
(* Soundness: applying the rule f[ps] -> rhs to f[args], where f[args] itself does
   not match, leaves it alone or rewrites a part of the arguments that is an
   instance of the pattern, keeping all others in their places.  Partial: for
   the patterns covered by C23. *)
Theorem C120_flat_sound_partial : forall env n f args ps rhs, env_ok env -> me_flat env f = true -> ~ In f reserved -> f <> ""%string ->
  ps <> [] -> forallb (supported (neg_ok_n n)) ps = true -> ~ In f (nstart :: nend :: flat_map pattern_names ps) ->
  is_match_q env (EExpr (ESym f :: args)) (EExpr (ESym f :: ps)) [] = None ->
  let e' := replace_all env (EExpr (ESym f :: ps)) rhs "" (EExpr (ESym f :: args)) in
  e' = EExpr (ESym f :: args) \/ part_rewritten (neg_n env n) env f args ps rhs e'.
Proof.
  intros env n f args ps rhs Henv Fl Hf Ne Np Su Fn M. cbn zeta. rewrite (replace_flat env f args ps rhs Fl M Ne).
  destruct (is_match_q env (EExpr (ESym f :: args)) (EExpr (ESym f :: loose env f ps)) []) as [m|] eqn:E; [right|left; reflexivity].
  apply flat_rewritten; assumption.
Qed.
Print Assumptions C120_flat_sound_partial.

(* Completeness: if some part of the arguments is an instance of the pattern, a
   part is rewritten.  Partial: for the patterns covered by C24. *)
Theorem C120_flat_complete_partial : forall env n f ps rhs left mid right sg x y, env_ok env -> me_flat env f = true ->
  ~ In f reserved -> f <> ""%string -> f <> nRepeated -> f <> nRepeatedNull ->
  ps <> [] -> forallb (supported (neg_ok_n n)) ps = true -> forallb (frag (neg_ok_n n) MTop) ps = true -> ~ In f (nstart :: nend :: flat_map pattern_names ps) ->
  let args := left ++ mid ++ right in
  is_match_q env (EExpr (ESym f :: args)) (EExpr (ESym f :: ps)) [] = None -> no_pairs (EExpr (ESym f :: args)) = true ->
  me_orderless env f = false ->
  inst (neg_n env n) eq env sg (EExpr (ESym f :: mid)) (EExpr (ESym f :: ps)) ->
  sg nstart = Some x -> x = name_value env true f (view (rest_pattern nstart)) left ->
  sg nend = Some y -> y = name_value env true f (view (rest_pattern nend)) right ->
  part_rewritten (neg_n env n) env f args ps rhs (replace_all env (EExpr (ESym f :: ps)) rhs "" (EExpr (ESym f :: args))).
Proof.
  intros env n f ps rhs left mid right sg x y Henv Fl Hf Ne Nr1 Nr2 Np Su Fr Fn args M Pa O Hi Gx Ex Gy Ey.
  rewrite (replace_flat env f args ps rhs Fl M Ne).
  apply f_inst in Hi; [|exact Hf|exact Np]. destruct Hi as (blocks & D & T). rewrite O in D. cbn [divided] in D. rewrite Fl in T.
  assert (Hl : inst (neg_n env n) eq env sg (EExpr (ESym f :: args)) (EExpr (ESym f :: loose env f ps))).
  { apply (I_args _ _ _ _ _ _ _ (left :: blocks ++ [right])); [apply f_plain, Hf| |].
    - rewrite O. cbn [divided concat]. rewrite concat_app. cbn [concat]. rewrite app_nil_r, D. reflexivity.
    - rewrite Fl. unfold loose. rewrite O. cbn [app]. constructor; [apply rest_takes_intro with x; [exact Gx|symmetry; exact Ex]|].
      apply Forall2_app; [exact T|]. constructor; [apply rest_takes_intro with y; [exact Gy|symmetry; exact Ey]|constructor]. }
  destruct (C24_match_complete_partial env n (EExpr (ESym f :: args)) (EExpr (ESym f :: loose env f ps)) sg Henv) as (m & I & _).
  - cbn [frag]. rewrite (not_blank_f f Hf), (not_reserved f Hf nPattern), (not_reserved f Hf nPatTest), (not_reserved f Hf nAlt), (not_reserved f Hf nExcept), (not_reserved f Hf nHoldPattern), (not_reserved f Hf nCondition), (not_reserved f Hf nOptional) by (cbn; tauto).
    rewrite (proj2 (String.eqb_neq f nRepeated) Nr1), (proj2 (String.eqb_neq f nRepeatedNull) Nr2). cbn [orb].
    destruct (loose env f ps) as [|q t] eqn:L; [destruct (loose_ne env f ps L)|]. rewrite <- L. apply loose_forallb; [reflexivity|exact Fr].
  - unfold pairs_ok. rewrite Pa, orb_true_r. reflexivity.
  - exact Hl.
  - destruct (is_match_q env (EExpr (ESym f :: args)) (EExpr (ESym f :: loose env f ps)) []) as [m'|] eqn:E.
    + apply flat_rewritten; assumption.
    + exfalso. unfold is_match_q in E. destruct (fst (match_iter env (EExpr (ESym f :: args)) (EExpr (ESym f :: loose env f ps)) [])); [destruct I|discriminate E].
Qed.
Print Assumptions C120_flat_complete_partial.

(* ---- examples ---- *)
Definition env_fl : menv := MEnv (fun _ => false) (fun s => String.eqb s "Global`f") (fun _ => false) (fun _ => None) (fun _ => false).
Lemma env_fl_ok : env_ok env_fl. Proof. split; reflexivity. Qed.
Definition x_ : ex := nm "x" blk.
(* f[1, 2, 3, 4] /. f[2, x_Integer] -> g[x], f Flat *)
Definition xi_ : ex := nm "x" (EExpr [sys "Blank"; sys "Integer"]).
Definition gx : ex := EExpr [gl "g"; gl "x"].
Lemma f_not_reserved : ~ In "Global`f"%string reserved.
Proof. intro H. repeat (destruct H as [H|H]; [discriminate H|]). destruct H. Qed.
Example C120_ex : replace_all env_fl (ff [EInt 2; xi_]) gx "" (ff [EInt 1; EInt 2; EInt 3; EInt 4]) =
  ff [EExpr [sys "Sequence"; EInt 1]; EExpr [gl "g"; EExpr [ESym "Global`f"; EInt 3]]; EExpr [sys "Sequence"; EInt 4]] /\
  part_rewritten (neg_n env_fl 0) env_fl "Global`f" [EInt 1; EInt 2; EInt 3; EInt 4] [EInt 2; xi_] gx
    (replace_all env_fl (ff [EInt 2; xi_]) gx "" (ff [EInt 1; EInt 2; EInt 3; EInt 4])).
Proof.
  split; [vm_compute; reflexivity|].
  destruct (C120_flat_sound_partial env_fl 0 "Global`f" [EInt 1; EInt 2; EInt 3; EInt 4] [EInt 2; xi_] gx) as [E|P]; [apply env_fl_ok|reflexivity|apply f_not_reserved|discriminate|discriminate|reflexivity| |vm_compute; reflexivity| |exact P].
  - intro H. cbn in H. repeat (destruct H as [H|H]; [discriminate H|]). destruct H.
  - vm_compute in E. discriminate E.
Qed.
(* f[1, 2, 3] with the rule for f[2]: the hypotheses of completeness *)
Example C120_ex_complete : exists sg,
  inst (neg_n env_fl 0) eq env_fl sg (ff [EInt 2]) (ff [EInt 2]) /\
  sg nstart = Some (name_value env_fl true "Global`f" (view (rest_pattern nstart)) [EInt 1]) /\
  sg nend = Some (name_value env_fl true "Global`f" (view (rest_pattern nend)) [EInt 3]) /\
  is_match_q env_fl (ff [EInt 1; EInt 2; EInt 3]) (ff [EInt 2]) [] = None.
Proof.
  exists (fun s => if String.eqb s nstart then Some (EExpr [sys "Sequence"; EInt 1]) else Some (EExpr [sys "Sequence"; EInt 3])).
  split; [|split; [reflexivity|split; [reflexivity|vm_compute; reflexivity]]].
  apply (I_args _ _ _ _ _ _ _ [[EInt 2]]).
  - apply f_plain, f_not_reserved.
  - reflexivity.
  - constructor; [|constructor]. split; [split; cbn; lia|]. split; [|exact Logic.I]. constructor; [|constructor].
    apply I_atom; [reflexivity|reflexivity|exact Logic.I|vm_compute; reflexivity].
Qed.
(* a + b + c /. a + c -> d, Plus being Orderless too *)
Example C120_ex_plus :
  replace_all env0 (EExpr [sys "Plus"; gl "a"; gl "c"]) (gl "d") "" (EExpr [sys "Plus"; gl "a"; gl "b"; gl "c"]) = EExpr [sys "Plus"; gl "d"; gl "b"].
Proof. vm_compute. reflexivity. Qed.
(* Inside an expression with the Flat head of the rule nothing else is looked
   at: f[h[f[1, 2]], 5] /. f[1, 2] -> 7 changes nothing, although
   h[f[1, 2]] /. f[1, 2] -> 7 is h[7].  Only one part is rewritten. *)
Theorem C120_not_inside_refuted :
  replace_all env_fl (ff [EInt 1; EInt 2]) (EInt 7) "" (ff [EExpr [gl "h"; ff [EInt 1; EInt 2]]; EInt 5]) = ff [EExpr [gl "h"; ff [EInt 1; EInt 2]]; EInt 5] /\
  replace_all env_fl (ff [EInt 1; EInt 2]) (EInt 7) "" (EExpr [gl "h"; ff [EInt 1; EInt 2]]) = EExpr [gl "h"; EInt 7].
Proof. vm_compute. split; reflexivity. Qed.
Print Assumptions C120_not_inside_refuted.
Theorem C120_once_refuted :
  replace_all env_fl (ff [EInt 1; EInt 2]) (EInt 7) "" (ff [EInt 1; EInt 2; EInt 1; EInt 2]) =
  ff [EExpr [sys "Sequence"]; EInt 7; EExpr [sys "Sequence"; EInt 1; EInt 2]].
Proof. vm_compute. reflexivity. Qed.
Print Assumptions C120_once_refuted.
