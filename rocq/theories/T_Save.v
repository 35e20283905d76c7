(* C100: what Save writes, Get brings back. *)
From Verif Require Import S_Syntax S_Defs M_Syntax M_Float M_Hash M_Match M_Defs M_Save P_Defs.
Open Scope nat_scope.

(* A symbol known to the session: it has an entry (rules, attributes, a default
   value, or just a mention). *)
Definition known (st : state) (n : string) : Prop := lookup st n <> None.

(* The user-visible parts of two entries agree. *)
Definition same_user_data (d e : def) : Prop :=
  d_dvs d = d_dvs e /\ d_attrs d = d_attrs e /\ d_default d = d_default e.

(* A well-formed call: Save["file", {"s1", ..., "sn"}] with n > 0 known symbols. *)
Definition save_call (st : state) (f : string) (ns : list string) (args : list ex) : Prop :=
  args = [EStr f; mkList (map EStr ns)] /\ ns <> [] /\ Forall (known st) ns.

Lemma save_list_map st ns : Forall (known st) ns ->
  exists l, save_list st (map EStr ns) = Some l /\ map fst l = ns /\
    Forall (fun '(n, d) => exists e, lookup st n = Some e /\ d = encode_def e) l.
Proof.
  induction 1 as [|n ns K _ (l & E & M & A)]; [exists []; repeat split; constructor|].
  unfold known in K. destruct (lookup st n) as [d|] eqn:L; [|contradiction].
  exists ((n, encode_def d) :: l). cbn [map save_list]. rewrite L, E. cbn [map fst]. rewrite M.
  repeat split. constructor; [exists d; auto | exact A].
Qed.
Lemma save_list_inv st l r : save_list st l = Some r -> exists ns, l = map EStr ns /\ Forall (known st) ns.
Proof.
  revert r. induction l as [|e l IH]; intros r H; [exists []; split; [reflexivity|constructor]|].
  destruct e as [s|s|z|n d|f|a b|p]; cbn [save_list] in H; try discriminate H.
  destruct (lookup st s) as [d|] eqn:L; [|discriminate H].
  destruct (save_list st l) as [r0|] eqn:E; [|discriminate H].
  destruct (IH _ eq_refl) as (ns & -> & A). exists (s :: ns). split; [reflexivity|].
  constructor; [unfold known; rewrite L; discriminate | exact A].
Qed.

Lemma save_ok o fs st f ns args : save_call st f ns args -> exists l,
  save o fs st args = (Some sNull, if creatable o f then write fs (resolve o f) (CSaved l) else fs) /\
  map fst l = ns /\ Forall (fun '(n, d) => exists e, lookup st n = Some e /\ d = encode_def e) l.
Proof.
  intros (-> & NE & K). destruct (save_list_map st ns K) as (l & E & M & A). exists l. split; [|auto].
  unfold save. change (head_assertion (mkList (map EStr ns)) nList) with (Some (sList :: map EStr ns)).
  cbn iota. rewrite E. destruct l; [|reflexivity]. cbn in M. congruence.
Qed.

(* Save answers Null exactly for the well-formed calls, and every other call is
   returned unevaluated without touching any file. *)
Theorem C100_save_answers : forall o fs st args r fs', save o fs st args = (r, fs') ->
  (r = Some sNull /\ exists f ns, save_call st f ns args) \/
  (r = None /\ fs' = fs /\ forall f ns, ~ save_call st f ns args).
Proof.
  intros o fs st args r fs' H.
  assert (D : (exists f ns, save_call st f ns args) \/ save o fs st args = (None, fs)).
  { destruct args as [|e1 args]; [right; reflexivity|].
    destruct e1 as [s|f|z|n d|fl|a b|p]; try (right; reflexivity).
    destruct args as [|l args]; [right; reflexivity|].
    destruct args as [|x args]; [|right; reflexivity].
    destruct (head_assertion l nList) as [ps|] eqn:HA.
    2:{ right. unfold save. now rewrite HA. }
    destruct l as [s|s|z|n d|fl|a b|p]; cbn [head_assertion] in HA; try discriminate HA.
    destruct p as [|h p]; [discriminate HA|]. destruct h as [s|s|z|n d|fl|a b|q]; try discriminate HA.
    destruct (String.eqb s nList) eqn:S; [|discriminate HA]. apply String.eqb_eq in S. subst s.
    injection HA as <-.
    destruct (save_list st p) as [r0|] eqn:E.
    2:{ right. unfold save. change (head_assertion (EExpr (ESym nList :: p)) nList) with (Some (ESym nList :: p)).
        cbn iota. now rewrite E. }
    destruct (save_list_inv _ _ _ E) as (ns & -> & K).
    destruct ns as [|n ns].
    - right. reflexivity.
    - left. exists f, (n :: ns). split; [reflexivity|split; [discriminate|exact K]]. }
  destruct D as [(f & ns & C)|E].
  - left. destruct (save_ok o fs st f ns args C) as (l & E & _). rewrite E in H. injection H as <- _.
    split; [reflexivity|]. now exists f, ns.
  - right. rewrite E in H. injection H as <- <-. repeat split. intros f ns C.
    destruct (save_ok o fs st f ns args C) as (l & E' & _). rewrite E' in E. discriminate E.
Qed.
Print Assumptions C100_save_answers.

(* Save changes at most the named file, and never the definitions. *)
Theorem C100_save_writes_one_file : forall o fs st f l r fs' g, save o fs st [EStr f; l] = (r, fs') ->
  g <> resolve o f -> fs' g = fs g.
Proof.
  intros o fs st f l r fs' g H G. unfold save in H.
  assert (W : forall c, write fs (resolve o f) c g = fs g).
  { intros c. unfold write. now rewrite (proj2 (String.eqb_neq g (resolve o f)) G). }
  destruct (head_assertion l nList) as [[|h ns]|]; [now injection H as <- <-| |now injection H as <- <-].
  destruct (save_list st ns) as [[|d ds]|]; [now injection H as <- <-| |now injection H as <- <-].
  injection H as <- <-. destruct (creatable o f); [apply W|reflexivity].
Qed.
Print Assumptions C100_save_writes_one_file.

(* Get["f"] finds file [p] when a list $Path is set, the name is not that of a
   built-in resource, and every directory of $Path that has such a file has this
   one (in particular when $Path is {"."} and f is a relative name). *)
Definition finds (o : os) (fs : files) (st : state) (f p : string) : Prop :=
  resolve o f = p /\
  (exists path, get_sym_def st (sysname "$Path") = Some (mkList path) /\
     forall d, In (EStr d) path -> resolve o (append d (append "/" f)) = p \/
                                  fs (resolve o (append d (append "/" f))) = None) /\
  String.prefix "__res__/" f = false /\ String.prefix "__rubi_snapshot__/" f = false.

Lemma read_first_finds o fs p c : fs p = Some c -> forall ps q, resolve o q = p ->
  (forall x, In x ps -> resolve o x = p \/ fs (resolve o x) = None) ->
  exists x, read_first o fs (ps ++ [q]) = Some (c, x).
Proof.
  intros P. induction ps as [|x ps IH]; intros q Q A.
  - cbn [app read_first]. unfold read_file. rewrite Q, P. now exists q.
  - cbn [app read_first]. unfold read_file at 1. destruct (A x (or_introl eq_refl)) as [E|E].
    + rewrite E, P. now exists x.
    + rewrite E. apply IH; [exact Q|]. intros y Y. apply A. now right.
Qed.
Lemma try_read_finds o fs st f p c : finds o fs st f p -> fs p = Some c ->
  exists x, try_read_file o fs st (EStr f) = Some (c, x).
Proof.
  intros (R & (path & G & A) & N1 & N2) P. unfold try_read_file. rewrite G.
  change (head_assertion (mkList path) nList) with (Some (sList :: path)). cbn iota. rewrite N1, N2.
  apply read_first_finds with (p := p); [exact P|exact R|].
  intros x X. apply in_flat_map in X. destruct X as (e & E & X).
  destruct e; try contradiction X. destruct X as [<- | []]. now apply A.
Qed.

Lemma fold_set_other l : forall st m, ~ In m (map fst l) ->
  lookup (fold_left (fun st '(n, d) => set_def st n d) l st) m = lookup st m.
Proof.
  induction l as [|[n d] l IH]; intros st m N; [reflexivity|]. cbn [fold_left].
  rewrite IH by (intro C; apply N; now right). apply lookup_set_other. intros ->. apply N. now left.
Qed.
Lemma fold_set_in l (P : string -> def -> Prop) : Forall (fun '(n, d) => P n d) l -> forall st m, In m (map fst l) ->
  exists d, lookup (fold_left (fun st '(n, d) => set_def st n d) l st) m = Some d /\ P m d.
Proof.
  induction 1 as [|[n d] l Q A IH]; intros st m I; [contradiction I|]. cbn [fold_left].
  destruct (in_dec string_dec m (map fst l)) as [J|J].
  - now apply IH.
  - destruct I as [E|I]; [|contradiction]. cbn [fst] in E. subst m. exists d. split; [|exact Q].
    rewrite fold_set_other by exact J. apply lookup_set_same.
Qed.

(* The round trip: save the symbols ns of one session, load the file in any
   other session (or the same one, later): every saved symbol then has exactly
   the rules, attributes and default value it had when it was saved, whatever it
   had in the loading session; every other symbol is untouched. *)
Theorem C100_round_trip : forall o fs st f ns args r fs' st2,
  save_call st f ns args -> creatable o f = true -> save o fs st args = (r, fs') ->
  finds o fs' st2 f (resolve o f) ->
  exists st3, get o fs' st2 [EStr f] = GLoaded st3 /\
    (forall n, In n ns -> exists d d', lookup st n = Some d /\ lookup st3 n = Some d' /\ same_user_data d d') /\
    (forall n, ~ In n ns -> lookup st3 n = lookup st2 n).
Proof.
  intros o fs st f ns args r fs' st2 C W S F.
  destruct (save_ok o fs st f ns args C) as (l & E & M & A). rewrite W in E. rewrite E in S.
  injection S as <- <-.
  destruct (try_read_finds o _ st2 f (resolve o f) (CSaved l) F) as (x & T).
  { unfold write. now rewrite String.eqb_refl. }
  unfold get. rewrite T. eexists. split; [reflexivity|]. split.
  - intros n N. rewrite <- M in N.
    destruct (fold_set_in l (fun n d => exists e, lookup st n = Some e /\ d = encode_def e) A st2 n N)
      as (d' & L & e & Le & ->).
    exists e, (encode_def e). repeat split; assumption.
  - intros n N. rewrite <- M in N. now apply fold_set_other.
Qed.
Print Assumptions C100_round_trip.

(* Symbols that evaluate by rules behave after the round trip as before: the same
   variable value, the same rule for every call. *)
Theorem C100_values_restored : forall o fs st f ns args r fs' st2,
  save_call st f ns args -> creatable o f = true -> save o fs st args = (r, fs') ->
  finds o fs' st2 f (resolve o f) ->
  exists st3, get o fs' st2 [EStr f] = GLoaded st3 /\
    forall n, In n ns ->
      eval_symbol_step st3 n = eval_symbol_step st n /\
      attributes_eval st3 n = attributes_eval st n /\
      down_values_eval st3 n = down_values_eval st n /\
      (forall apply, get_expr_def apply st3 n = get_expr_def apply st n).
Proof.
  intros o fs st f ns args r fs' st2 C W S F.
  destruct (C100_round_trip o fs st f ns args r fs' st2 C W S F) as (st3 & G & A & _).
  exists st3. split; [exact G|]. intros n N. destruct (A n N) as (d & d' & L & L' & E1 & E2 & E3).
  unfold eval_symbol_step, get_sym_def, attributes_eval, down_values_eval, get_expr_def.
  rewrite L, L', E1, E2. repeat split.
Qed.
Print Assumptions C100_values_restored.

(* Loading fails cleanly when no file is found: $Failed, nothing changes; a text
   file is run as a program and never taken for saved definitions. *)
Theorem C100_missing_file : forall o fs st f,
  fs (resolve o f) = None ->
  (forall path d, get_sym_def st (sysname "$Path") = Some (mkList path) -> In (EStr d) path ->
     fs (resolve o (append d (append "/" f))) = None) ->
  String.prefix "__res__/" f = false -> String.prefix "__rubi_snapshot__/" f = false ->
  get o fs st [EStr f] = GFailed.
Proof.
  intros o fs st f N A P1 P2. unfold get.
  assert (T : try_read_file o fs st (EStr f) = None); [|now rewrite T].
  unfold try_read_file. destruct (get_sym_def st (sysname "$Path")) as [p|] eqn:G; [|reflexivity].
  destruct (head_assertion p nList) as [[|h path]|] eqn:HA; try reflexivity.
  rewrite P1, P2.
  assert (path_ok : p = mkList path).
  { destruct p as [s|s|z|n d|fl|a b|q]; cbn [head_assertion] in HA; try discriminate HA.
    destruct q as [|h' q]; [discriminate HA|]. destruct h' as [s|s|z|n d|fl|a b|q']; try discriminate HA.
    destruct (String.eqb s nList) eqn:Q; [|discriminate HA]. apply String.eqb_eq in Q. subst s.
    injection HA as _ <-. reflexivity. }
  subst p. specialize (A path). unfold paths_to_try.
  assert (B : forall d, In (EStr d) path -> fs (resolve o (append d (append "/" f))) = None)
    by (intros d; apply A; reflexivity).
  clear -B N. induction path as [|e path IH].
  - cbn [flat_map app read_first]. unfold read_file. now rewrite N.
  - assert (IH' := IH (fun d I => B d (or_intror I))). cbn [flat_map].
    destruct e as [u|u|z|n d|fl|a b|q]; try exact IH'. cbn [app read_first]. unfold read_file at 1. rewrite (B u (or_introl eq_refl)).
    exact IH'.
Qed.
Print Assumptions C100_missing_file.

(* ---- What does not hold. *)

(* A symbol implemented by the program (Plus, Length, ...) loses its
   implementation when its saved definition is loaded: Save has no error, Get has
   no error, and afterwards the session has no code for the symbol. *)
Theorem C100_builtin_lost_refuted : forall o fs st f n d fs' r st2,
  lookup st n = Some d -> d_builtin d = true ->
  creatable o f = true -> save o fs st [EStr f; mkList [EStr n]] = (r, fs') ->
  finds o fs' st2 f (resolve o f) ->
  r = Some sNull /\
  exists st3 d', get o fs' st2 [EStr f] = GLoaded st3 /\ lookup st3 n = Some d' /\ d_builtin d' = false.
Proof.
  intros o fs st f n d fs' r st2 L B W S F.
  assert (C : save_call st f [n] [EStr f; mkList [EStr n]]).
  { split; [reflexivity|split; [discriminate|]]. constructor; [|constructor]. unfold known. now rewrite L. }
  destruct (save_ok o fs st f [n] _ C) as (l & E & M & A). rewrite W in E. rewrite E in S.
  injection S as <- <-. split; [reflexivity|].
  destruct (try_read_finds o _ st2 f (resolve o f) (CSaved l) F) as (x & T).
  { unfold write. now rewrite String.eqb_refl. }
  assert (I : In n (map fst l)) by (rewrite M; now left).
  destruct (fold_set_in l (fun n d => exists e, lookup st n = Some e /\ d = encode_def e) A st2 n I)
    as (d' & L' & e & Le & ->).
  eexists _, _. unfold get. rewrite T. split; [reflexivity|]. split; [exact L'|reflexivity].
Qed.
Print Assumptions C100_builtin_lost_refuted.

(* Save answers Null although nothing was written when the file cannot be
   created. *)
Theorem C100_silent_failure_refuted : forall o fs st f ns args, save_call st f ns args ->
  creatable o f = false -> save o fs st args = (Some sNull, fs).
Proof.
  intros o fs st f ns args C W. destruct (save_ok o fs st f ns args C) as (l & E & _). now rewrite W in E.
Qed.
Print Assumptions C100_silent_failure_refuted.

(* Concrete sessions. *)
Definition os_ex : os :=
  Os (fun p => if String.prefix "./" p then substring 2 (String.length p - 2) p else p)
     (fun p => negb (String.prefix "/root/" p)) (fun _ => None) (fun _ => None).
Definition path_def (ds : list string) : string * def :=
  (sysname "$Path", Def [DVal (held (ESym (sysname "$Path"))) (mkList (map EStr ds)) 0] no_attrs None false).
Definition f_lhs : ex := EExpr [ESym "Global`f"; EExpr [sys "Blank"]].
Definition st_ex : state := State
  [path_def ["."];
   ("Global`f", Def [DVal (held f_lhs) (EInt 7) 0] (strings_to_attributes ["Orderless"]) None false);
   ("Global`x", Def [DVal (held (ESym "Global`x")) (EInt 3) 0] no_attrs None false);
   ("System`Plus", Def [] no_attrs None true)]%string false.
Definition st_ex2 : state := State
  [path_def ["."]; ("Global`x", Def [DVal (held (ESym "Global`x")) (EInt 99) 0] no_attrs None false);
   ("Global`y", Def [DVal (held (ESym "Global`y")) (EInt 5) 0] no_attrs None false);
   ("System`Plus", Def [] no_attrs None true)]%string false.
Definition no_files : files := fun _ => None.

Example C100_save_call_ex : save_call st_ex "defs.mx" ["Global`f"; "Global`x"]%string
  [EStr "defs.mx"; mkList [EStr "Global`f"; EStr "Global`x"]].
Proof. split; [reflexivity|split; [discriminate|]]. repeat constructor; unfold known; cbn; discriminate. Qed.
Example C100_finds_ex fs : finds os_ex fs st_ex2 "defs.mx" (resolve os_ex "defs.mx").
Proof.
  split; [reflexivity|]. split; [|split; reflexivity].
  exists [EStr "."]. split; [reflexivity|]. intros d [E|[]]. injection E as <-. left. reflexivity.
Qed.
Example C100_round_trip_ex : exists fs st3,
  save os_ex no_files st_ex [EStr "defs.mx"; mkList [EStr "Global`f"; EStr "Global`x"]] = (Some sNull, fs) /\
  get os_ex fs st_ex2 [EStr "defs.mx"] = GLoaded st3 /\
  eval_symbol_step st3 "Global`x" = EInt 3 /\ eval_symbol_step st3 "Global`y" = EInt 5 /\
  attributes_eval st3 "Global`f" = mkList [sys "Orderless"] /\
  down_values_eval st3 "Global`f" = mkList [EExpr [sys "RuleDelayed"; held f_lhs; EInt 7]].
Proof. eexists _, _. split; [reflexivity|]. split; [reflexivity|]. repeat split; vm_compute; reflexivity. Qed.
Example C100_unknown_symbol_ex :
  save os_ex no_files st_ex [EStr "defs.mx"; mkList [EStr "Global`f"; EStr "Global`nosuch"]] = (None, no_files).
Proof. reflexivity. Qed.
Example C100_missing_file_ex : get os_ex no_files st_ex2 [EStr "defs.mx"] = GFailed.
Proof.
  apply C100_missing_file; reflexivity.
Qed.
Example C100_builtin_lost_ex : exists fs st3,
  save os_ex no_files st_ex [EStr "plus.mx"; mkList [EStr "System`Plus"]] = (Some sNull, fs) /\
  get os_ex fs st_ex2 [EStr "plus.mx"] = GLoaded st3 /\
  option_map d_builtin (lookup st_ex2 "System`Plus") = Some true /\
  option_map d_builtin (lookup st3 "System`Plus") = Some false.
Proof. eexists _, _. split; [reflexivity|]. split; [reflexivity|]. split; reflexivity. Qed.

(* With a directory list, Get may read a different file than the one Save has
   just written under the same name, because the directories of $Path come
   before the name itself. *)
Definition st_lib : state := State (path_def ["lib"]%string :: tl (st_defs st_ex)) false.
Theorem C100_shadowed_refuted : exists o fs st f n st3 fs',
  save o fs st [EStr f; mkList [EStr n]] = (Some sNull, fs') /\ fs' (resolve o f) <> fs (resolve o f) /\
  get o fs' st [EStr f] = GLoaded st3 /\
  eval_symbol_step st n = EInt 3 /\ eval_symbol_step st3 n = EInt 1.
Proof.
  exists os_ex.
  exists (fun p => if String.eqb p "lib/defs.mx" then
     Some (CSaved [("Global`x"%string, Def [DVal (held (ESym "Global`x")) (EInt 1) 0] no_attrs None false)]) else None).
  exists st_lib, "defs.mx"%string, "Global`x"%string. eexists _, _.
  split; [reflexivity|]. split; [vm_compute; discriminate|]. split; [reflexivity|]. split; vm_compute; reflexivity.
Qed.
Print Assumptions C100_shadowed_refuted.

(* The files built into the program: a name that starts with __res__/ reads the
   program's resource of that name and one that starts with __rubi_snapshot__/
   the Rubi snapshot, in preference to any file on disk; only when the program
   has no such resource are the directories tried. *)
Lemma substring_whole x : substring 0 (String.length x) x = x.
Proof. induction x as [|c x IH]; [reflexivity|]. cbn [String.length substring]. now rewrite IH. Qed.
Lemma skip_8 x : substring 8 (String.length (append "__res__/" x) - 8) (append "__res__/" x) = x.
Proof. cbn [append String.length Nat.sub substring]. rewrite Nat.sub_0_r. apply substring_whole. Qed.
Lemma skip_18 x : substring 18 (String.length (append "__rubi_snapshot__/" x) - 18) (append "__rubi_snapshot__/" x) = x.
Proof. cbn [append String.length Nat.sub substring]. rewrite Nat.sub_0_r. apply substring_whole. Qed.
Lemma prefix_app p : forall x, String.prefix p (append p x) = true.
Proof.
  induction p as [|c p IH]; intro x; [now destruct x|]. cbn [append String.prefix].
  destruct (ascii_dec c c) as [_|N]; [apply IH|congruence].
Qed.
Theorem C100_built_in_files : forall o fs st path x s,
  get_sym_def st (sysname "$Path") = Some (mkList path) ->
  (asset o (append "resources/" x) = Some (CText s) ->
   get o fs st [EStr (append "__res__/" x)] = GText s (append "__res__/" x)) /\
  (rubi o x = Some (CText s) ->
   get o fs st [EStr (append "__rubi_snapshot__/" x)] = GText s (append "__rubi_snapshot__/" x)) /\
  (asset o (append "resources/" x) = None -> fs (resolve o (append "__res__/" x)) = None ->
   (forall d, In (EStr d) path -> fs (resolve o (append d (append "/" (append "__res__/" x)))) = None) ->
   get o fs st [EStr (append "__res__/" x)] = GFailed).
Proof.
  intros o fs st path x s G.
  assert (H : head_assertion (mkList path) nList = Some (sList :: path)) by reflexivity.
  repeat match goal with |- _ /\ _ => split end.
  - intros A. unfold get, try_read_file. rewrite G, H. cbn iota.
    rewrite skip_8, prefix_app, A. reflexivity.
  - intros A. unfold get, try_read_file. rewrite G, H. cbn iota.
    rewrite skip_18, prefix_app, A. change (String.prefix "__res__/" (append "__rubi_snapshot__/" x)) with false.
    reflexivity.
  - intros A F D. unfold get.
    assert (T : try_read_file o fs st (EStr (append "__res__/" x)) = None); [|now rewrite T].
    unfold try_read_file. rewrite G, H. cbn iota. rewrite skip_8, prefix_app, A.
    change (String.prefix "__rubi_snapshot__/" (append "__res__/" x)) with false. cbv iota.
    set (f := append "__res__/" x) in *. clearbody f. clear -D F. unfold paths_to_try.
    induction path as [|e path IH].
    + cbn [flat_map app read_first]. unfold read_file. now rewrite F.
    + assert (IH' := IH (fun d I => D d (or_intror I))). cbn [flat_map].
      destruct e as [u|u|z|n d|fl|a b|q]; try exact IH'. cbn [app read_first]. unfold read_file at 1.
      rewrite (D u (or_introl eq_refl)). exact IH'.
Qed.
Print Assumptions C100_built_in_files.
Definition os_res : os := Os (fun p => p) (fun _ => false)
  (fun p => if String.eqb p "resources/init.m" then Some (CText "x = 1") else None)
  (fun p => if String.eqb p "rules/1.m" then Some (CText "y = 2") else None).
Example C100_built_in_files_ex : exists st,
  get_sym_def st (sysname "$Path") = Some (mkList [EStr "."]) /\
  get os_res (fun _ => Some CBroken) st [EStr "__res__/init.m"] = GText "x = 1" "__res__/init.m" /\
  get os_res (fun _ => Some CBroken) st [EStr "__rubi_snapshot__/rules/1.m"] = GText "y = 2" "__rubi_snapshot__/rules/1.m" /\
  get os_res (fun _ => None) st [EStr "__res__/none.m"] = GFailed.
Proof.
  exists (State [(sysname "$Path", Def [DVal (held (ESym (sysname "$Path"))) (mkList [EStr "."]) 0] no_attrs None false)] false).
  repeat split; vm_compute; reflexivity.
Qed.
