(* Property theorems: output streams (C94), Names (C95). *)
From Coq Require Import String List ZArith Ascii Bool Sorted Lia.
From Verif Require Import M_Syntax M_Float M_Defs M_Streams S_Streams S_Defs P_Defs3.
Import ListNotations.
Open Scope nat_scope.
Local Open Scope string_scope.

(* ---- C94 ---- *)
(* the text written to a stream so far *)
Definition written (m : streams) (s : stream) : string :=
  match find (fun '(k, _) => key_eqb k (stream_index s, stream_name s)) m with Some (_, w) => w | None => "" end.
(* the streams of an interpreter: the two of a new one, with some text written *)
Definition opened (m : streams) : Prop := map fst m = map fst new_streams.
Lemma opened_two m : opened m -> exists a b, m = [((1%Z, "stdout"), a); ((2%Z, "stderr"), b)].
Proof. destruct m as [|[k1 a] [|[k2 b] [|]]]; try discriminate. intro H. injection H as -> ->. eauto. Qed.

(* WriteString to a stream appends the text to it, to no other, and gives Null *)
Theorem C94_write : forall m e s t, opened m -> denotes e s ->
  exists m', write_string_fn m [e; EStr t] = (Some (ESym "System`Null"), m') /\ opened m' /\
    written m' s = written m s ++ t /\ forall s', s' <> s -> written m' s' = written m s'.
Proof.
  intros m e s t O D. destruct (opened_two m O) as [a [b ->]].
  destruct D as [[|]| |]; (eexists; split; [reflexivity|]; split; [reflexivity|]; split; [reflexivity|]; intros [|] N; [|]; try reflexivity; contradiction).
Qed.
Print Assumptions C94_write.
(* so, after any number of calls, each stream has got the concatenation of the
   texts sent to it, in the order of the calls *)
Definition call (m : streams) (c : ex * string) : streams := snd (write_string_fn m [fst c; EStr (snd c)]).
Inductive sent (s : stream) : list (ex * string) -> string -> Prop :=
| SE_nil : sent s [] ""
| SE_this e t l r : denotes e s -> sent s l r -> sent s ((e, t) :: l) (t ++ r)
| SE_other e t l r s' : denotes e s' -> s' <> s -> sent s l r -> sent s ((e, t) :: l) r.
Lemma append_assoc (a b c : string) : (a ++ b) ++ c = a ++ (b ++ c).
Proof. induction a as [|x a IH]; [reflexivity|]. cbn. f_equal. exact IH. Qed.
Lemma append_nil (a : string) : a ++ "" = a.
Proof. induction a as [|x a IH]; [reflexivity|]. cbn. f_equal. exact IH. Qed.
Theorem C94_order : forall calls m s r, opened m -> sent s calls r -> written (fold_left call calls m) s = written m s ++ r.
Proof.
  intros calls m s r O H. revert m O. induction H as [|e t l r D _ IH|e t l r s' D N _ IH]; intros m O; cbn [fold_left].
  - rewrite append_nil. reflexivity.
  - destruct (C94_write m e s t O D) as [m' [E [O' [W _]]]]. unfold call at 2. cbn [fst snd]. rewrite E. cbn [snd]. rewrite IH by exact O'. rewrite W. apply append_assoc.
  - destruct (C94_write m e s' t O D) as [m' [E [O' [_ W]]]]. unfold call at 2. cbn [fst snd]. rewrite E. cbn [snd]. rewrite IH by exact O'. rewrite W; [reflexivity|congruence].
Qed.
Print Assumptions C94_order.
(* other calls leave the streams alone *)
Theorem C94_ignored_partial : forall m args, opened m ->
  (forall e t s, args = [e; EStr t] -> ~ denotes e s) ->
  (forall n i t, args = [EExpr [ESym "System`OutputStream"; EStr n; EInt i]; EStr t] -> (- 2 ^ 63 <= i < 2 ^ 63)%Z) ->
  snd (write_string_fn m args) = m.
Proof.
  intros m args O H B. destruct (opened_two m O) as [a [b ->]].
  assert (G : forall n i t, (fst (fill_missing_index (i, n)) = 1%Z -> n <> "stdout") -> (fst (fill_missing_index (i, n)) = 2%Z -> n <> "stderr") ->
    fst (write_string [((1%Z, "stdout"), a); ((2%Z, "stderr"), b)] n i t) = [((1%Z, "stdout"), a); ((2%Z, "stderr"), b)]).
  { intros n i t K1 K2. unfold write_string.
    assert (F : snd (fill_missing_index (i, n)) = n). { unfold fill_missing_index. cbn [fst snd]. destruct (Z.eqb i (-1)); [|reflexivity]. destruct (String.eqb n "stdout"); [reflexivity|]. destruct (String.eqb n "stdin"); reflexivity. }
    destruct (fill_missing_index (i, n)) as [j n']. cbn [fst snd] in *. subst n'. cbn [write_key]. unfold key_eqb. cbn [fst snd].
    replace (Z.eqb j 1 && String.eqb n "stdout") with false.
    2:{ destruct (Z.eqb_spec j 1); [|reflexivity]. destruct (String.eqb_spec n "stdout"); [|reflexivity]. exfalso. apply K1; assumption. }
    replace (Z.eqb j 2 && String.eqb n "stderr") with false.
    2:{ destruct (Z.eqb_spec j 2); [|reflexivity]. destruct (String.eqb_spec n "stderr"); [|reflexivity]. exfalso. apply K2; assumption. }
    reflexivity. }
  assert (FI : forall n i j, fst (fill_missing_index (i, n)) = j -> i = j \/ (i = (-1)%Z /\ n = "stdout" /\ j = 1%Z) \/ (i = (-1)%Z /\ n = "stdin" /\ j = 2%Z)).
  { intros n i j. unfold fill_missing_index. cbn [fst snd]. destruct (Z.eqb_spec i (-1)); [|left; assumption].
    destruct (String.eqb_spec n "stdout"); [cbn [fst]; auto|]. destruct (String.eqb_spec n "stdin"); [cbn [fst]; auto|]. left; assumption. }
  destruct args as [|e [|[|t| | | | |] [|]]]; try reflexivity. cbn [write_string_fn].
  destruct e as [|n| | | | |l]; try reflexivity.
  - cbn [parse_output_stream snd]. apply G; intros K ->.
    + apply (H (EStr "stdout") t Stdout eq_refl). constructor.
    + discriminate K.
  - unfold parse_output_stream. destruct (args_of (EExpr l) "System`OutputStream") as [[|[|n| | | | |] [|[| |i| | | |] [|]]]|] eqn:E; try reflexivity.
    assert (El : l = [ESym "System`OutputStream"; EStr n; EInt i]).
    { unfold args_of, head_assertion in E. destruct l as [|[s| | | | | |] l]; try discriminate. destruct (String.eqb_spec s "System`OutputStream"); [|discriminate]. injection E as ->. subst. reflexivity. }
    subst l. cbn [snd].
    replace (wrap64 i) with i. 2:{ symmetry. unfold wrap64. rewrite Z.mod_small; [lia|]. pose proof (B n i t eq_refl). lia. }
    apply G; intros K ->; apply FI in K; destruct K as [->|[[-> [K _]]|[-> [K L]]]]; try discriminate.
    + apply (H _ t Stdout eq_refl). constructor 1 with (s := Stdout).
    + apply (H _ t Stdout eq_refl). constructor.
    + apply (H _ t Stderr eq_refl). constructor 1 with (s := Stderr).
Qed.
Print Assumptions C94_ignored_partial.
(* but they are not reported: text sent to a stream that does not exist is lost
   and the result is Null; "stderr" by its name is such a stream, although
   "stdout" is not *)
Theorem C94_stderr_refuted : forall m t, opened m -> write_string_fn m [EStr "stderr"; EStr t] = (Some (ESym "System`Null"), m).
Proof. intros m t O. destruct (opened_two m O) as [a [b ->]]. reflexivity. Qed.
Print Assumptions C94_stderr_refuted.
Theorem C94_wrap_refuted : ~ forall m i t, opened m -> i <> 1%Z -> i <> (-1)%Z ->
  written (snd (write_string_fn m [EExpr [ESym "System`OutputStream"; EStr "stdout"; EInt i]; EStr t])) Stdout = written m Stdout.
Proof.
  intro H. specialize (H new_streams (2 ^ 64 + 1)%Z "x" eq_refl ltac:(discriminate) ltac:(discriminate)). vm_compute in H. discriminate H.
Qed.
Print Assumptions C94_wrap_refuted.
(* Streams[] lists the two streams *)
Theorem C94_streams : forall m, opened m -> streams_expr m = mkList (map (fun s => EExpr [ESym "System`OutputStream"; EStr (stream_name s); EInt (stream_index s)]) [Stdout; Stderr]).
Proof. intros m O. destruct (opened_two m O) as [a [b ->]]. reflexivity. Qed.
Print Assumptions C94_streams.
Example C94_ex : opened new_streams /\ sent Stdout [(EStr "stdout", "a"); (EExpr [ESym "System`OutputStream"; EStr "stderr"; EInt 2], "b"); (EStr "stdout", "c")] "ac" /\
  written (fold_left call [(EStr "stdout", "a"); (EExpr [ESym "System`OutputStream"; EStr "stderr"; EInt 2], "b"); (EStr "stdout", "c")] new_streams) Stdout = "ac".
Proof.
  split; [reflexivity|]. split; [|reflexivity]. apply (SE_this Stdout _ "a" _ "c"); [constructor|]. apply (SE_other Stdout _ "b" _ "c" Stderr); [constructor 1 with (s := Stderr)|discriminate|].
  apply (SE_this Stdout _ "c" _ ""); constructor.
Qed.

(* ---- C95 ---- *)
Lemma tokens_plain f : Forall plain (list_ascii_of_string f) -> exists ts, tokens f = Some ts /\
  Forall2 (fun c t => (c = "*"%char /\ t = TStar) \/ (c <> "*"%char /\ t = TLit c)) (list_ascii_of_string f) ts.
Proof.
  induction f as [|c f IH]; intro P; [exists []; split; [reflexivity|constructor]|]. cbn [list_ascii_of_string] in P. inversion P as [|? ? Pc Pf]; subst.
  destruct (IH Pf) as [ts [E F]]. cbn [tokens]. rewrite E. unfold token. destruct (Ascii.eqb_spec c "*") as [->|Ns].
  - exists (TStar :: ts). split; [reflexivity|]. constructor; [left; auto|exact F].
  - assert (Q : forall d, In d (list_ascii_of_string ".^$+?[](){}|\") -> Ascii.eqb c d = false).
    { intros d Hd. destruct (Ascii.eqb_spec c d); [subst; exfalso; apply Pc, Hd|reflexivity]. }
    rewrite (Q "."%char) by (cbn; tauto). rewrite (Q "^"%char) by (cbn; tauto). rewrite (Q "$"%char) by (cbn; tauto).
    replace (special c) with false.
    + exists (TLit c :: ts). split; [reflexivity|]. constructor; [right; auto|exact F].
    + symmetry. unfold special. destruct (existsb _ _) eqn:X; [|reflexivity]. apply existsb_exists in X. destruct X as [d [I K]]. rewrite Q in K; [discriminate|].
      change (list_ascii_of_string ".^$+?[](){}|\") with ("."%char :: "^"%char :: "$"%char :: list_ascii_of_string "+?[](){}|\"). right; right; right. exact I.
Qed.
Lemma star_unfold r start s : re_match (TStar :: r) start s = re_match r start s || match s with String c t => negb (Ascii.eqb c newline) && re_match (TStar :: r) false t | _ => false end.
Proof. destruct s; reflexivity. Qed.
Lemma glob_match f ts : Forall2 (fun c t => (c = "*"%char /\ t = TStar) \/ (c <> "*"%char /\ t = TLit c)) (list_ascii_of_string f) ts ->
  forall s start, re_match (ts ++ [TEnd]) start s = true <-> glob f s.
Proof.
  revert ts. induction f as [|c f IH]; intros ts F; cbn [list_ascii_of_string] in F; inversion F as [|? t ? ts' K F']; subst.
  - intros s start. cbn [app re_match]. destruct s as [|c s]; split; try constructor; try discriminate. inversion 1.
  - specialize (IH ts' F'). destruct K as [[-> ->]|[N ->]].
    + change ((TStar :: ts') ++ [TEnd])%list with (TStar :: (ts' ++ [TEnd])%list). induction s as [|a s IHs]; intro start; rewrite star_unfold.
      * rewrite orb_false_r, IH. split; [apply GL_none|]. intro G. inversion G; subst; first [assumption|congruence].
      * rewrite orb_true_iff, andb_true_iff, negb_true_iff, IH, IHs. split.
        -- intros [G|[Q G]]; [apply GL_none, G|]. apply GL_more; [|exact G]. apply Ascii.eqb_neq in Q. exact Q.
        -- intro G. inversion G; subst; first [congruence|left; assumption|right; split; [apply Ascii.eqb_neq; assumption|assumption]].
    + intros s start. cbn [app re_match]. destruct s as [|a s]; [split; [discriminate|]; intro G; inversion G; subst; congruence|].
      rewrite andb_true_iff, Ascii.eqb_eq, IH. split; [intros [-> G]; apply GL_char; assumption|].
      intro G. inversion G; subst; try congruence. auto.
Qed.

(* Names[filter] is the sorted list of exactly the defined names that the filter
   describes; Names[] lists all *)
Theorem C95_names : forall keys f, NoDup keys -> Forall plain (list_ascii_of_string f) ->
  exists l, names_fn keys [EStr f] = Some l /\ StronglySorted str_lt l /\ forall n, In n l <-> In n keys /\ glob f n.
Proof.
  intros keys f N P. destruct (tokens_plain f P) as [ts [E F]]. cbn [names_fn]. rewrite E. eexists. split; [reflexivity|]. split.
  - apply sort_strings_sorted, NoDup_filter, N.
  - intro n. rewrite sort_strings_in, filter_In. cbn [re_match]. rewrite andb_true_l, (glob_match f ts F). reflexivity.
Qed.
Print Assumptions C95_names.
Theorem C95_all : forall keys, NoDup keys -> exists l, names_fn keys [] = Some l /\ StronglySorted str_lt l /\ forall n, In n l <-> In n keys.
Proof. intros keys N. eexists. split; [reflexivity|]. split; [apply sort_strings_sorted, N|intro; apply sort_strings_in]. Qed.
Print Assumptions C95_all.
(* A filter without special characters other than "$" need not list the symbol of
   that name: no name starting with "$" is found by its own name *)
Theorem C95_dollar_refuted : forall keys t c, names_fn keys [EStr (String "$" (String c t))] = Some [] \/ names_fn keys [EStr (String "$" (String c t))] = None \/ c = "$"%char \/ c = "*"%char \/ c = "^"%char.
Proof.
  intros keys t c. destruct (Ascii.eqb_spec c "$"); [auto|]. destruct (Ascii.eqb_spec c "*"); [auto|]. destruct (Ascii.eqb_spec c "^"); [auto|].
  cbn [names_fn tokens]. replace (token "$") with (Some TEnd) by reflexivity.
  destruct (token c) as [k|] eqn:K; [|auto]. destruct (tokens t) as [ts|]; [|auto]. left. f_equal.
  replace (filter _ keys) with (@nil string); [reflexivity|]. symmetry.
  assert (Z : forall s, re_match (TBegin :: (TEnd :: k :: ts) ++ [TEnd]) true s = false).
  { intro s. cbn [app re_match]. rewrite andb_true_l. destruct s; [|reflexivity].
    unfold token in K. destruct (Ascii.eqb_spec c "*"); [contradiction|]. destruct (Ascii.eqb c "."); [injection K as <-; reflexivity|].
    destruct (Ascii.eqb_spec c "^"); [contradiction|]. destruct (Ascii.eqb_spec c "$"); [contradiction|]. destruct (special c); [discriminate|]. injection K as <-. reflexivity. }
  induction keys as [|x keys IH]; [reflexivity|]. cbn [filter]. rewrite Z. exact IH.
Qed.
Print Assumptions C95_dollar_refuted.
Example C95_ex : names_fn ["System`Plus"; "Global`x"; "Global`abc"; "$Line"] [EStr "Global`*"] = Some ["Global`abc"; "Global`x"] /\
  glob "Global`*" "Global`abc" /\ names_fn ["System`Plus"; "$Line"] [EStr "$Line"] = Some [].
Proof.
  split; [reflexivity|]. split; [|reflexivity]. repeat (apply GL_char; [discriminate|]). apply GL_more; [discriminate|]. apply GL_more; [discriminate|]. apply GL_more; [discriminate|]. apply GL_none. constructor.
Qed.
