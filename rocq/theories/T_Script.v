(* C101: running a text as a program, and the numbers printed by the
   interactive loop. *)
From Verif Require Import S_Syntax M_String S_String T_String S_Defs M_Syntax M_Float M_Hash M_Match M_Defs M_Script P_Defs T_Defs.
Open Scope nat_scope.

(* The parser makes progress: a statement it returns has used up some text. *)
Definition consumes {St} (parse : St -> string -> parsed St) : Prop :=
  forall s doc e s1 rest, parse s doc = PExpr e s1 rest -> String.length rest < String.length doc.

(* [executes s doc vs s' rest]: reading and evaluating one statement after the
   other, each read in the state left by the one before it, gives the values vs,
   the state s' and the unread text rest. *)
Inductive executes {St} (parse : St -> string -> parsed St) (ev : St -> ex -> option (ex * St)) :
  St -> string -> list ex -> St -> string -> Prop :=
| Ex_none s doc : executes parse ev s doc [] s doc
| Ex_one s doc e s1 rest v s2 vs s' doc' : parse s doc = PExpr e s1 rest -> ev s1 e = Some (v, s2) ->
    executes parse ev s2 rest vs s' doc' -> executes parse ev s doc (v :: vs) s' doc'.

(* What is left is the end of the text, or a syntax error that is reported. *)
Definition stops {St} (parse : St -> string -> parsed St) (s : St) (rest : string) : Prop :=
  parse s rest = PEof \/ exists r, parse s rest = PErr r /\ 100 <= String.length r.
Definition crashes {St} (parse : St -> string -> parsed St) (s : St) (rest : string) : Prop :=
  exists r, parse s rest = PErr r /\ String.length r < 100.

Section Proofs.
Context {St : Type} (parse : St -> string -> parsed St) (ev : St -> ex -> option (ex * St)).

Lemma last_cons {A} (v : A) vs d : last (v :: vs) d = last vs v.
Proof.
  revert v d. induction vs as [|w vs IH]; intros v d; [reflexivity|].
  change (last (v :: w :: vs) d) with (last (w :: vs) d). now rewrite (IH w d), (IH w v).
Qed.

Lemma eval_loop_sound k : forall s doc d o, eval_loop St parse ev k s doc d = o ->
  match o with
  | Finished v s' => exists vs rest, executes parse ev s doc vs s' rest /\ v = last vs d /\ stops parse s' rest
  | Crashed s' => exists vs rest, executes parse ev s doc vs s' rest /\ crashes parse s' rest
  | NoEnd => True
  end.
Proof.
  induction k as [|k IH]; intros s doc d o <-; [exact Logic.I|]. cbn [eval_loop].
  destruct (parse s doc) as [e s1 rest| |rest] eqn:P.
  - destruct (ev s1 e) as [[v s2]|] eqn:V; [|exact Logic.I].
    specialize (IH s2 rest v _ eq_refl).
    destruct (eval_loop St parse ev k s2 rest v) as [w s'|s'|]; [| |exact Logic.I].
    + destruct IH as (vs & r & X & -> & T). exists (v :: vs), r. split; [eapply Ex_one; eassumption|].
      split; [symmetry; apply last_cons | exact T].
    + destruct IH as (vs & r & X & T). exists (v :: vs), r. split; [eapply Ex_one; eassumption|exact T].
  - exists [], doc. split; [constructor|]. split; [reflexivity|]. now left.
  - destruct (String.length rest <? 100) eqn:B.
    + exists [], doc. split; [constructor|]. exists rest. split; [exact P|]. now apply Nat.ltb_lt.
    + exists [], doc. split; [constructor|]. split; [reflexivity|]. right. exists rest. split; [exact P|].
      now apply Nat.ltb_ge.
Qed.

Lemma eval_loop_complete : consumes parse -> forall s doc vs s' rest, executes parse ev s doc vs s' rest ->
  forall k d, String.length doc < k ->
  (stops parse s' rest -> eval_loop St parse ev k s doc d = Finished (last vs d) s') /\
  (crashes parse s' rest -> eval_loop St parse ev k s doc d = Crashed s').
Proof.
  intros C s doc vs s' rest H. induction H as [s doc|s doc e s1 rest v s2 vs s' doc' P V X IH]; intros k d K.
  - destruct k as [|k]; [lia|]. cbn [eval_loop last]. split.
    + intros [E|(r & E & B)]; rewrite E; [reflexivity|]. apply Nat.ltb_ge in B. now rewrite B.
    + intros (r & E & B). rewrite E. apply Nat.ltb_lt in B. now rewrite B.
  - destruct k as [|k]; [lia|]. cbn [eval_loop]. rewrite P, V. pose proof (C _ _ _ _ _ P) as L.
    destruct (IH k v) as [A B]; [lia|]. rewrite last_cons. split; assumption.
Qed.
End Proofs.

Lemma executes_det {St} parse ev (s : St) doc vs s' rest : executes parse ev s doc vs s' rest ->
  forall vs2 s2 rest2, executes parse ev s doc vs2 s2 rest2 ->
  (exists more, vs2 = vs ++ more /\ executes parse ev s' rest more s2 rest2) \/
  (exists more, vs = vs2 ++ more /\ executes parse ev s2 rest2 more s' rest).
Proof.
  induction 1 as [s doc|s doc e s1 rest v s2 vs s' doc' P V X IH]; intros vs2 t2 r2 H2.
  - left. exists vs2. split; [reflexivity|exact H2].
  - destruct H2 as [s doc|s doc e' s1' rest' v' s2' vs' t' d'' P' V' X'].
    + right. exists (v :: vs). split; [reflexivity|]. eapply Ex_one; eassumption.
    + rewrite P in P'. injection P' as <- <- <-. rewrite V in V'. injection V' as <- <-.
      destruct (IH _ _ _ X') as [(m & -> & Y)|(m & -> & Y)]; [left|right]; exists m; split; try reflexivity; exact Y.
Qed.

(* The value of a script is the value of its last statement (Null if it has
   none), the statements run in order, each is read in the state its
   predecessors left, and reading stops at the end of the text or at the first
   syntax error, whose predecessors keep their effect. *)
Theorem C101_script : forall St (parse : St -> string -> parsed St) ev, consumes parse -> forall s doc v s',
  eval_interp_many St parse ev s doc = Finished v s' <->
  exists vs rest, executes parse ev s (replace_syms doc) vs s' rest /\ v = last vs sNull /\ stops parse s' rest.
Proof.
  intros St parse ev C s doc v s'. unfold eval_interp_many. cbv zeta. split.
  - intros H. exact (eval_loop_sound parse ev _ _ _ _ _ H).
  - intros (vs & rest & X & -> & T).
    exact (proj1 (eval_loop_complete parse ev C _ _ _ _ _ X _ sNull (Nat.lt_succ_diag_r _)) T).
Qed.
Print Assumptions C101_script.

(* A script always comes to an end if its statements do. *)
Theorem C101_script_ends : forall St (parse : St -> string -> parsed St) ev, consumes parse ->
  (forall s e, ev s e <> None) -> forall s doc, eval_interp_many St parse ev s doc <> NoEnd.
Proof.
  intros St parse ev C T s doc. unfold eval_interp_many. cbv zeta. generalize sNull.
  generalize (Nat.lt_succ_diag_r (String.length (replace_syms doc))).
  generalize (S (String.length (replace_syms doc))). generalize (replace_syms doc). clear doc. intros doc k.
  revert s doc. induction k as [|k IH]; intros s doc K d; [lia|]. cbn [eval_loop].
  destruct (parse s doc) as [e s1 rest| |rest] eqn:P; [|discriminate|destruct (_ <? _); discriminate].
  pose proof (C _ _ _ _ _ P). destruct (ev s1 e) as [[v s2]|] eqn:V; [|now apply T in V].
  apply IH. lia.
Qed.
Print Assumptions C101_script_ends.

(* ReadList gives all the values, in order. *)
Theorem C101_read_list : forall St (parse : St -> string -> parsed St) ev, consumes parse -> forall s doc v s',
  read_list St parse ev s doc = Finished v s' <->
  exists vs rest, executes parse ev s doc vs s' rest /\ v = mkList vs /\ stops parse s' rest.
Proof.
  intros St parse ev C s doc v s'. unfold read_list.
  assert (A : forall k s doc acc, String.length doc < k -> forall v s', read_loop St parse ev k s doc acc = Finished v s' <->
    exists vs rest, executes parse ev s doc vs s' rest /\ v = mkList (acc ++ vs) /\ stops parse s' rest).
  { clear s doc v s'. induction k as [|k IH]; intros s doc acc K v s'; [lia|]. cbn [read_loop].
    destruct (parse s doc) as [e s1 rest| |rest] eqn:P.
    - pose proof (C _ _ _ _ _ P) as L. destruct (ev s1 e) as [[w s2]|] eqn:V.
      + rewrite (IH s2 rest (acc ++ [w])) by lia. split.
        * intros (vs & r & X & -> & T). exists (w :: vs), r. split; [eapply Ex_one; eassumption|].
          split; [now rewrite <- app_assoc | exact T].
        * intros (vs & r & X & -> & T). destruct X as [s doc|s doc e' s1' rest' w' s2' vs s' r P' V' X].
          { destruct T as [E|(q & E & _)]; congruence. }
          rewrite P in P'. injection P' as <- <- <-. rewrite V in V'. injection V' as <- <-.
          exists vs, r. split; [exact X|]. split; [now rewrite <- app_assoc | exact T].
      + split; [discriminate|]. intros (vs & r & X & -> & T).
        destruct X as [s doc|s doc e' s1' rest' w' s2' vs s' r P' V' X].
        { destruct T as [E|(q & E & _)]; congruence. }
        rewrite P in P'. injection P' as <- <- <-. congruence.
    - split.
      + intros H. injection H as <- <-. exists [], doc. split; [constructor|]. rewrite app_nil_r. split; [reflexivity|now left].
      + intros (vs & r & X & -> & T). destruct X as [s doc|s doc e' s1' rest' w' s2' vs s' r P' V' X]; [|congruence].
        now rewrite app_nil_r.
    - destruct (String.length rest <? 100) eqn:B; split.
      + discriminate.
      + intros (vs & r & X & -> & T). destruct X as [s doc|s doc e' s1' rest' w' s2' vs s' r P' V' X]; [|congruence].
        destruct T as [E|(q & E & Q)]; [congruence|]. rewrite P in E. injection E as <-. apply Nat.ltb_lt in B. lia.
      + intros H. injection H as <- <-. exists [], doc. split; [constructor|]. rewrite app_nil_r. split; [reflexivity|].
        right. exists rest. split; [exact P|]. now apply Nat.ltb_ge.
      + intros (vs & r & X & -> & T). destruct X as [s doc|s doc e' s1' rest' w' s2' vs s' r P' V' X]; [|congruence].
        now rewrite app_nil_r. }
  apply (A _ s doc []). lia.
Qed.
Print Assumptions C101_read_list.

(* A syntax error does not just stop the script: when fewer than 100 bytes of
   the text remain unread, reporting the error crashes the program, in any
   script and after any number of statements. *)
Theorem C101_syntax_error_crash_refuted : forall St (parse : St -> string -> parsed St) ev, consumes parse ->
  forall s doc vs s' rest, executes parse ev s (replace_syms doc) vs s' rest -> crashes parse s' rest ->
  eval_interp_many St parse ev s doc = Crashed s'.
Proof.
  intros St parse ev C s doc vs s' rest X T. unfold eval_interp_many. cbv zeta.
  exact (proj2 (eval_loop_complete parse ev C _ _ _ _ _ X _ sNull (Nat.lt_succ_diag_r _)) T).
Qed.
Print Assumptions C101_syntax_error_crash_refuted.

(* A text without a backslash is handed to the parser unchanged. *)
Theorem C101_text_unchanged : forall doc, ~ In "\"%char (bytes doc) -> replace_syms doc = doc.
Proof.
  intros doc N.
  assert (A : forall old new, (exists o', bytes old = "\"%char :: o') -> go_replace (bytes doc) (bytes old) new = bytes doc).
  { intros old new (o' & O).
    assert (H : forall i, ~ occurs_at (bytes old) (bytes doc) i).
    { intros i (pre & post & E & _). rewrite O in E. apply N. rewrite E. apply in_or_app. right. now left. }
    pose proof (C63_replace_absent doc old (of_bytes new) H) as R.
    change (string_replace (replace_args doc old (of_bytes new))) with
      (Some (EStr (of_bytes (go_replace (bytes doc) (bytes old) (bytes (of_bytes new)))))) in R. injection R as R.
    unfold bytes, of_bytes in *. rewrite list_ascii_of_string_of_list_ascii in R.
    rewrite <- R at 2. now rewrite list_ascii_of_string_of_list_ascii. }
  unfold replace_syms. cbv zeta. rewrite !A by (eexists; reflexivity). apply string_of_list_ascii_of_string.
Qed.
Print Assumptions C101_text_unchanged.

(* The four names of characters that are understood become the character, in
   UTF-8, wherever they stand; the rest of the text stays. *)
Lemma go_replace_once pre c old post new : ~ In c pre -> ~ In c post -> ~ In c old ->
  go_replace (pre ++ (c :: old) ++ post) (c :: old) new = pre ++ new ++ post.
Proof.
  intros P1 P2 P3.
  destruct (C63_replace (of_bytes (pre ++ (c :: old) ++ post)) (of_bytes (c :: old)) (of_bytes new)) as (r & E & _ & U).
  { discriminate. }
  change (string_replace (replace_args (of_bytes (pre ++ (c :: old) ++ post)) (of_bytes (c :: old)) (of_bytes new))) with
    (Some (EStr (of_bytes (go_replace (bytes (of_bytes (pre ++ (c :: old) ++ post))) (bytes (of_bytes (c :: old))) (bytes (of_bytes new)))))) in E.
  rewrite !bytes_of_bytes in *. injection E as E. subst r. rewrite bytes_of_bytes in U.
  assert (N : forall i, occurs_at (c :: old) (pre ++ (c :: old) ++ post) i -> i = List.length pre).
  { intros i (a & b & Q & L). subst i. cbn [app] in Q.
    assert (G : forall u v x y : list ascii, ~ In c u -> ~ In c x -> u ++ c :: v = x ++ c :: y -> u = x).
    { clear. induction u as [|h u IH]; intros v [|k x] y Hu Hx Q; cbn [app] in Q.
      - reflexivity.
      - injection Q as Q _. exfalso. apply Hx. now left.
      - injection Q as Q _. exfalso. apply Hu. now left.
      - injection Q as <- Q. f_equal. apply (IH v x y); [intro; apply Hu; now right|intro; apply Hx; now right|exact Q]. }
    assert (Na : ~ In c a).
    { apply (count_occ_not_In ascii_dec).
      assert (C : count_occ ascii_dec (pre ++ c :: old ++ post) c = 1).
      { rewrite count_occ_app. cbn [count_occ]. destruct (ascii_dec c c) as [_|]; [|congruence].
        rewrite count_occ_app. rewrite (proj1 (count_occ_not_In ascii_dec pre c) P1), (proj1 (count_occ_not_In ascii_dec old c) P3),
          (proj1 (count_occ_not_In ascii_dec post c) P2). reflexivity. }
      rewrite Q, count_occ_app in C. cbn [count_occ] in C. destruct (ascii_dec c c) as [_|]; [|congruence]. lia. }
    symmetry. f_equal. exact (G _ _ _ _ P1 Na Q). }
  symmetry. apply U. apply repl_first.
  - intros i O. rewrite (N i O). constructor.
  - apply repl_none. intros i (a & b & Q & _). apply P2. rewrite Q. apply in_or_app. right. now left.
Qed.
Lemma go_replace_other s c old new : (forall pre post, s <> pre ++ (c :: old) ++ post) ->
  go_replace s (c :: old) new = s.
Proof.
  intros H.
  pose proof (C63_replace_absent (of_bytes s) (of_bytes (c :: old)) (of_bytes new)) as E.
  rewrite !bytes_of_bytes in E.
  change (string_replace (replace_args (of_bytes s) (of_bytes (c :: old)) (of_bytes new))) with
    (Some (EStr (of_bytes (go_replace (bytes (of_bytes s)) (bytes (of_bytes (c :: old))) (bytes (of_bytes new)))))) in E.
  rewrite !bytes_of_bytes in E.
  assert (O : forall i, ~ occurs_at (c :: old) s i) by (intros i (a & b & Q & _); exact (H a b Q)).
  specialize (E O). injection E as E. apply (f_equal bytes) in E. now rewrite !bytes_of_bytes in E.
Qed.
Lemma one_backslash (pre m post : list ascii) a b :
  ~ In "\"%char pre -> ~ In "\"%char post -> ~ In "\"%char m ->
  pre ++ ("\"%char :: m) ++ post = a ++ "\"%char :: b -> m ++ post = b.
Proof.
  intros P1 P2 P3. cbn [app]. revert a. induction pre as [|h pre IH]; intros [|k a] Q; cbn [app] in Q.
  - now injection Q.
  - injection Q as <- Q. exfalso. assert (I0 : In "\"%char (m ++ post)) by (rewrite Q; apply in_or_app; right; now left).
    apply in_app_or in I0. tauto.
  - injection Q as -> _. exfalso. apply P1. now left.
  - injection Q as _ Q. apply (IH (fun I0 => P1 (or_intror I0)) a Q).
Qed.
Definition character_names : list (string * list ascii) :=
  [("\[Alpha]", utf2 206 177); ("\[Theta]", utf2 206 184); ("\[Omega]", utf2 207 137); ("\[CapitalOmega]", utf2 206 169)]%string.
Theorem C101_named_characters : forall name code pre post, In (name, code) character_names ->
  ~ In "\"%char (bytes pre) -> ~ In "\"%char (bytes post) ->
  bytes (replace_syms (append pre (append name post))) = bytes pre ++ code ++ bytes post.
Proof.
  intros name code pre post K P1 P2.
  assert (B : bytes (append pre (append name post)) = bytes pre ++ bytes name ++ bytes post).
  { assert (G : forall x y, bytes (append x y) = bytes x ++ bytes y).
    { clear. intros x y. unfold bytes. induction x as [|k x IH]; cbn; [reflexivity|now rewrite IH]. }
    now rewrite !G. }
  unfold replace_syms. cbv zeta. rewrite bytes_of_bytes, B.
  set (p := bytes pre) in *. set (q := bytes post) in *. clearbody p q. clear B.
  assert (Q : forall n w, ~ In "\"%char (bytes n) -> ~ In "\"%char w ->
            go_replace (p ++ bytes (append "\" n) ++ q) (bytes (append "\" n)) w = p ++ w ++ q).
  { intros n w N _. change (bytes (append "\" n)) with ("\"%char :: bytes n). now apply go_replace_once. }
  assert (O : forall n n' w, ~ In "\"%char (bytes n) -> (forall x, bytes n ++ q <> bytes n' ++ x) ->
            go_replace (p ++ bytes (append "\" n) ++ q) (bytes (append "\" n')) w = p ++ bytes (append "\" n) ++ q).
  { intros n n' w N D. change (bytes (append "\" n)) with ("\"%char :: bytes n). change (bytes (append "\" n')) with ("\"%char :: bytes n').
    apply go_replace_other. intros a b E. cbn [app] in E.
    exact (D b (one_backslash p (bytes n) q a (bytes n' ++ b) P1 P2 N E)). }
  assert (D : forall n' w u v, u <> "\"%char /\ v <> "\"%char -> go_replace (p ++ [u; v] ++ q) (bytes (append "\" n')) w = p ++ [u; v] ++ q).
  { intros n' w u v [U V]. change (bytes (append "\" n')) with ("\"%char :: bytes n').
    apply go_replace_other. intros a b E.
    assert (I0 : In "\"%char (p ++ [u; v] ++ q)) by (rewrite E; apply in_or_app; right; now left).
    apply in_app_or in I0. destruct I0 as [I0|[I0|[I0|I0]]]; [auto|congruence|congruence|auto]. }
  cbn [In character_names] in K. destruct K as [K|[K|[K|[K|[]]]]]; injection K as <- <-.
  all: fold (utf2 206 177) (utf2 206 184) (utf2 207 137) (utf2 206 169).
  Ltac stp H := let E := fresh in pose proof H as E; cbn [append] in E; rewrite E by
    first [split; vm_compute; discriminate | cbn; intuition discriminate | intros ?x; cbn; discriminate]; clear E.
  - stp (O "[Alpha]" "[Omega]" (utf2 207 137))%string. stp (O "[Alpha]" "[CapitalOmega]" (utf2 206 169))%string.
    stp (Q "[Alpha]" (utf2 206 177))%string. unfold utf2. stp (D "[Theta]" (utf2 206 184))%string. reflexivity.
  - stp (O "[Theta]" "[Omega]" (utf2 207 137))%string. stp (O "[Theta]" "[CapitalOmega]" (utf2 206 169))%string.
    stp (O "[Theta]" "[Alpha]" (utf2 206 177))%string. stp (Q "[Theta]" (utf2 206 184))%string. reflexivity.
  - stp (Q "[Omega]" (utf2 207 137))%string. unfold utf2. stp (D "[CapitalOmega]" (utf2 206 169))%string.
    stp (D "[Alpha]" (utf2 206 177))%string. stp (D "[Theta]" (utf2 206 184))%string. reflexivity.
  - stp (O "[CapitalOmega]" "[Omega]" (utf2 207 137))%string. stp (Q "[CapitalOmega]" (utf2 206 169))%string.
    unfold utf2. stp (D "[Alpha]" (utf2 206 177))%string. stp (D "[Theta]" (utf2 206 184))%string. reflexivity.
Qed.
Print Assumptions C101_named_characters.
Example C101_named_characters_ex :
  ~ In "\"%char (bytes "f[") /\ ~ In "\"%char (bytes "]") /\
  replace_syms "f[\[Theta]]" = of_bytes (bytes "f[" ++ utf2 206 184 ++ bytes "]") /\
  replace_syms "\[Beta]" = "\[Beta]"%string.
Proof. repeat split; try (cbn; intuition discriminate); vm_compute; reflexivity. Qed.

(* ---- a small language to run scripts of: a digit is a statement, a newline
   separates, anything else is a syntax error; evaluation adds up the numbers *)
Fixpoint toy_parse (s : Z) (doc : string) : parsed Z :=
  match doc with
  | EmptyString => PEof
  | String c t =>
      if Ascii.eqb c "010"%char then toy_parse s t
      else if M_String.between 48 57 c then PExpr (EInt (Z.of_N (byte c - 48))) s t
      else PErr t
  end.
Definition toy_ev (s : Z) (e : ex) : option (ex * Z) :=
  match e with EInt z => Some (EInt (s + z), s + z)%Z | _ => Some (e, s) end.
Example C101_consumes_ex : consumes toy_parse.
Proof.
  intros s doc. induction doc as [|c t IH]; intros e s1 rest H; cbn [toy_parse] in H; [discriminate H|].
  destruct (Ascii.eqb c "010"%char).
  - specialize (IH _ _ _ H). cbn [String.length]. lia.
  - destruct (M_String.between 48 57 c); [|discriminate H]. injection H as _ _ <-. cbn [String.length]. lia.
Qed.
Definition nl : string := String "010" "".
Example C101_script_ex : eval_interp_many Z toy_parse toy_ev 10%Z (append "4" (append nl "2")) = Finished (EInt 16) 16%Z /\
  read_list Z toy_parse toy_ev 10%Z (append "4" (append nl "2")) = Finished (mkList [EInt 14; EInt 16]) 16%Z.
Proof. split; vm_compute; reflexivity. Qed.
Definition long : string := string_of_list_ascii (repeat "x"%char 100).
Example C101_script_error_ex : eval_interp_many Z toy_parse toy_ev 10%Z (append "42?" long) = Finished (EInt 16) 16%Z.
Proof. vm_compute. reflexivity. Qed.
Example C101_syntax_error_crash_ex : eval_interp_many Z toy_parse toy_ev 10%Z "42?" = Crashed 16%Z.
Proof. vm_compute. reflexivity. Qed.
Example C101_text_ex : ~ In "\"%char (bytes "f[x_] := x") /\
  replace_syms "a\[Alpha]" = of_bytes ["a"%char; ascii_of_nat 206; ascii_of_nat 177].
Proof. split; [cbn; intuition discriminate | vm_compute; reflexivity]. Qed.

(* ---- the interactive loop *)

(* Reading and evaluating a line leaves the entries of In, Out and $Line alone. *)
Definition keeps_history {A} (f : state -> A -> ex * state) : Prop :=
  forall s a r s', f s a = (r, s') -> same_history s s'.
Definition nonempty (l : string) : bool := negb (String.eqb l "").
Definition is_null (r : ex) : bool := match r with ESym n => String.eqb n (sysname "Null") | _ => false end.

Lemma same_history_trans a b c : same_history a b -> same_history b c -> same_history a c.
Proof. intros (A1 & A2 & A3 & A4) (B1 & B2 & B3 & B4). repeat split; congruence. Qed.

Lemma repl_session fl interp ev : keeps_history interp -> keeps_history ev ->
  forall lines s0 h s prompt outs s', session fl s0 h s -> prompt = (1 + Z.of_nat (length h))%Z ->
  repl fl interp ev s prompt lines = Some (outs, s') ->
  exists h', session fl s0 (h ++ h') s' /\ length h' = length (filter nonempty lines) /\
    outs = flat_map (fun '(k, (_, r)) => if is_null r then [] else [((prompt + Z.of_nat k)%Z, r)])
             (combine (seq 0 (length h')) h').
Proof.
  intros KI KE. induction lines as [|l lines IH]; intros s0 h s prompt outs s' S P H.
  - injection H as <- <-. exists []. rewrite app_nil_r. repeat split. exact S.
  - cbn [repl] in H. cbn [filter]. unfold nonempty at 1. destruct (String.eqb l ""); cbn [negb].
    + now apply IH with (s := s).
    + destruct (interp s l) as [e s1] eqn:EI. destruct (ev s1 e) as [r s2] eqn:EE.
      destruct (process_top_level fl s2 e r) as [s3|] eqn:EP; [|discriminate H].
      destruct (repl fl interp ev s3 (prompt + 1) lines) as [[outs2 s4]|] eqn:ER; [|discriminate H].
      injection H as <- <-.
      assert (S3 : session fl s0 (h ++ [(e, r)]) s3).
      { apply Se_snoc with (st1 := s) (st2 := s2); [exact S| |exact EP].
        eapply same_history_trans; [apply (KI _ _ _ _ EI) | apply (KE _ _ _ _ EE)]. }
      destruct (IH s0 (h ++ [(e, r)]) s3 (prompt + 1)%Z outs2 s4 S3) as (h' & S4 & L & O).
      { rewrite app_length. cbn [length]. lia. }
      { exact ER. }
      exists ((e, r) :: h'). split; [now rewrite <- app_assoc in S4|]. split; [cbn [length]; now rewrite L|].
      cbn [length seq combine flat_map].
      assert (X : (match r with
                       | ESym n => if String.eqb n (sysname "Null") then [] else [(prompt, r)]
                       | _ => [(prompt, r)]
                       end) = (if is_null r then [] else [((prompt + Z.of_nat 0)%Z, r)])).
      { rewrite Z.add_0_r. destruct r; reflexivity. }
      rewrite X. f_equal. rewrite O.
      clear. rewrite <- seq_shift. generalize (seq 0 (length h')). revert h'.
      induction h' as [|[a b] h' IH]; intros [|k l]; try reflexivity. cbn [map combine flat_map].
      rewrite IH. replace (prompt + 1 + Z.of_nat k)%Z with (prompt + Z.of_nat (S k))%Z by lia. reflexivity.
Qed.

(* In a session that does not touch In, Out and $Line itself, the result printed
   with the label Out[k] is the one Out[k] gives afterwards; every input line
   counts, and every result that is not Null is printed.  (Hypothesis as in C52:
   no collision of the 64-bit hash among the keys of different lines.) *)
Theorem C101_prompt_partial : forall fl interp ev s lines outs s',
  keeps_history interp -> keeps_history ev -> session_start s ->
  repl fl interp ev s 1 lines = Some (outs, s') ->
  (forall n i j, In n ["In"; "Out"]%string -> (1 <= i <= Z.of_nat (length lines))%Z -> (1 <= j <= Z.of_nat (length lines))%Z ->
     hash (held (EExpr [sys n; EInt i])) = hash (held (EExpr [sys n; EInt j])) -> i = j) ->
  get_sym_def s' (sysname "$Line") = Some (EInt (1 + Z.of_nat (length (filter nonempty lines)))) /\
  forall k r, In (k, r) outs <->
    (1 <= k <= Z.of_nat (length (filter nonempty lines)))%Z /\ is_null r = false /\
    get_expr_def (literal (EExpr [sys "Out"; EInt k])) s' (sysname "Out") = Some r.
Proof.
  intros fl interp ev s lines outs s' KI KE ST H NC.
  destruct (repl_session fl interp ev KI KE lines s [] s 1%Z outs s' (Se_nil fl s) eq_refl H) as (h & S & L & O).
  cbn [app] in S.
  assert (LL : length (filter nonempty lines) <= length lines).
  { clear. induction lines as [|l t IH]; [reflexivity|]. cbn [filter length]. destruct (nonempty l); cbn [length]; lia. }
  destruct (C52_history_partial fl s h s' ST S) as (A & B).
  { intros n i j N Hi Hj. apply NC; [exact N|lia|lia]. }
  rewrite L in A. split; [exact A|]. intros k r. rewrite O. rewrite in_flat_map. rewrite <- L. split.
  - intros ([i [e q]] & I & J). pose proof (in_combine_l _ _ _ _ I) as SI. apply in_seq in SI.
    assert (NE : nth_error h i = Some (e, q)).
    { clear -I. assert (G : forall b l, In (i, (e, q)) (combine (seq b (length l)) l) -> nth_error l (i - b) = Some (e, q)).
      { intros b l. revert b. induction l as [|x l IH]; intros b J; [contradiction J|]. cbn [length seq combine] in J.
        destruct J as [E|J].
        - injection E as -> ->. now rewrite Nat.sub_diag.
        - pose proof (in_combine_l _ _ _ _ J) as K. apply in_seq in K. specialize (IH _ J).
          replace (i - b) with (S (i - S b)) by lia. exact IH. }
      specialize (G 0 h I). now rewrite Nat.sub_0_r in G. }
    destruct (is_null q) eqn:Q; [contradiction J|]. destruct J as [E|[]]. apply pair_equal_spec in E. destruct E as [<- <-].
    split; [lia|]. split; [exact Q|]. destruct (B i e q NE) as (_ & Bo). exact Bo.
  - intros (K & Q & G). set (i := Z.to_nat (k - 1)). assert (IL : i < length h) by (unfold i; lia).
    destruct (nth_error h i) as [[e q]|] eqn:NE; [|apply nth_error_None in NE; lia].
    destruct (B i e q NE) as (_ & Bo). cbv zeta in Bo.
    replace (1 + Z.of_nat i)%Z with k in Bo by (unfold i; lia).
    assert (q = r) by congruence. subst q.
    exists (i, (e, r)). split.
    + clear -NE. assert (G : forall b l j, nth_error l j = Some (e, r) -> In (b + j, (e, r)) (combine (seq b (length l)) l)).
      { intros b l. revert b. induction l as [|x l IH]; intros b [|j] N; try discriminate N; cbn [length seq combine].
        - injection N as ->. left. now rewrite Nat.add_0_r.
        - right. specialize (IH (S b) j N). now replace (b + S j) with (S b + j) by lia. }
      exact (G 0 h i NE).
    + rewrite Q. left. f_equal. unfold i. lia.
Qed.
Print Assumptions C101_prompt_partial.

(* A session that assigns $Line gets labels that do not belong to the stored
   results: after the inputs "$Line = 10" and "5" the second result is printed
   as Out[2], but Out[2] is not defined and the result is stored as Out[11]. *)
Definition two_lines (s : state) (l : string) : ex * state :=
  if String.eqb l "5" then (EInt 5, s) else (EExpr [sys "Set"; ESym (sysname "$Line"); EInt 10], s).
Definition set_only (fl : ex -> Z) (s : state) (e : ex) : ex * state :=
  match e with
  | EExpr [_; l; r] => match define fl s l r with Some s' => (r, s') | None => (e, s) end
  | _ => (e, s)
  end.
Theorem C101_label_refuted : exists s', session_start hst /\
  repl fl0 two_lines (set_only fl0) hst 1 ["$Line = 10"; "5"]%string = Some ([(1%Z, EInt 10); (2%Z, EInt 5)], s') /\
  get_expr_def (literal (EExpr [sys "Out"; EInt 2])) s' (sysname "Out") = None /\
  get_expr_def (literal (EExpr [sys "Out"; EInt 11])) s' (sysname "Out") = Some (EInt 5).
Proof.
  eexists. split; [exact (proj1 C52_nonvacuous)|]. split; [vm_compute; reflexivity|].
  split; vm_compute; reflexivity.
Qed.
Print Assumptions C101_label_refuted.

Definition fives (s : state) (l : string) : ex * state := (if String.eqb l "5" then EInt 5 else sNull, s).
Definition same (s : state) (e : ex) : ex * state := (e, s).
Example C101_prompt_ex : keeps_history fives /\ keeps_history same /\ exists s',
  repl fl0 fives same hst 1 ["5"; ""; "Null"; "5"]%string = Some ([(1%Z, EInt 5); (3%Z, EInt 5)], s') /\
  get_expr_def (literal (EExpr [sys "Out"; EInt 3])) s' (sysname "Out") = Some (EInt 5).
Proof.
  split; [intros s a r s' E; apply pair_equal_spec in E; destruct E as [_ <-]; repeat split|].
  split; [intros s a r s' E; apply pair_equal_spec in E; destruct E as [_ <-]; repeat split|].
  eexists. split; [vm_compute; reflexivity|]. vm_compute. reflexivity.
Qed.
