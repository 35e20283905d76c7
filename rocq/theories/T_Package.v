(* Property theorems: packages (C98). *)
From Verif Require Import M_Syntax M_Parse S_Matrix S_Parse P_Parse T_Parse M_Package.
Open Scope nat_scope.

Definition commands : list string := ["BeginPackage"; "EndPackage"; "Begin"; "End"]%string.
Definition sys_ctx : string := "System`".
(* among these symbols and names, BeginPackage etc. occur only as System`BeginPackage etc. *)
Definition only_system (l : list string) : Prop :=
  forall c k, context_name c -> In k commands -> In (append c k) l -> c = sys_ctx.
(* the four System` functions exist and nobody has defined others of these names *)
Definition clean (known : list string) : Prop :=
  only_system known /\ forall k, In k commands -> In (append sys_ctx k) known.
(* a session in which System` is visible *)
Definition usable (s : session) : Prop :=
  exists c P, s_ctx s = Some c /\ s_path s = Some P /\ context_name c /\ Forall context_name P /\ In sys_ctx P /\ clean (s_known s).
(* the context Begin[c] enters from the context ctx *)
Definition enters (ctx c c' : string) : Prop := (exists t, c = append "`" t /\ c' = append ctx t) \/ (c = c' /\ forall t, c <> append "`" t).
(* what may stand in a package with context p: inputs, and blocks Begin[c] ...
   End[] with inputs in them; the last two arguments are the contexts that are
   entered and the names that are used *)
Inductive pbody (p : string) : list stmt -> list string -> list string -> Prop :=
| PB_nil : pbody p [] [] []
| PB_use l r cs ns : only_system l -> pbody p r cs ns -> pbody p (Use l :: r) cs (l ++ ns)
| PB_block c c' ls r cs ns : enters p c c' -> context_name c' -> Forall only_system ls -> pbody p r cs ns ->
    pbody p (Do (CBegin c) :: map Use ls ++ Do CEnd :: r) (c' :: cs) (concat ls ++ ns).

Lemma cmd_known k : In (cmd_name k) commands. Proof. destruct k; cbn; tauto. Qed.
Lemma cmd_plain k : In k commands -> ~ qualified k.
Proof.
  intros I Q. apply has_tick_spec in Q. cbn in I. destruct I as [<-|[<-|[<-|[<-|[]]]]]; discriminate Q.
Qed.
Lemma sys_context : context_name sys_ctx. Proof. exists "System"%string. reflexivity. Qed.

(* ---- reading keeps everything but the known symbols ---- *)
Definition same_vars (s s' : session) : Prop :=
  s_ctx s' = s_ctx s /\ s_path s' = s_path s /\ s_old s' = s_old s /\ s_oldpath s' = s_oldpath s /\ s_pkg s' = s_pkg s /\ s_old2 s' = s_old2 s.
Lemma same_refl s : same_vars s s. Proof. repeat split. Qed.
Lemma same_trans s s1 s2 : same_vars s s1 -> same_vars s1 s2 -> same_vars s s2.
Proof. intros (A1 & A2 & A3 & A4 & A5 & A6) (B1 & B2 & B3 & B4 & B5 & B6). repeat split; congruence. Qed.
Lemma read1_spec s n : exists r s', read1 s n = (r, s') /\ same_vars s s' /\ names_symbol (cur s) (cpath s) (s_known s) n r /\
  forall x, In x (s_known s') <-> In x (s_known s) \/ x = r.
Proof.
  unfold read1. destruct (resolve_sym (cur s) (cpath s) (s_known s) n) as [r d] eqn:E. exists r. eexists. split; [reflexivity|].
  split; [repeat split|]. pose proof (resolve_sym_spec _ _ _ _ _ _ E) as [N K]. split; [exact N|]. cbn [s_known]. exact K.
Qed.
(* a command name means the System` function *)
Lemma clean_command ctx P known k r : clean known -> Forall context_name P -> In sys_ctx P -> In k commands ->
  names_symbol ctx P known k r -> r = append sys_ctx k.
Proof.
  intros [O S0] F I K N. destruct N as [Q|pre c post _ E D _|_ D].
  - destruct (cmd_plain _ K Q).
  - rewrite (O c k); [reflexivity| |assumption|assumption]. rewrite Forall_forall in F. apply F. rewrite E. apply in_or_app. right. now left.
  - destruct (D sys_ctx I (S0 k K)).
Qed.
(* what a name can turn into, inside the contexts cs *)
Definition within (cs ns : list string) (x : string) : Prop :=
  In x ns /\ qualified x \/ exists c n, In c cs /\ In n ns /\ ~ qualified n /\ x = append c n.
Lemma clean_read ctx P known n r : clean known -> context_name ctx -> Forall context_name P -> In sys_ctx P -> only_system [n] ->
  names_symbol ctx P known n r -> clean (r :: known) /\ (In r known \/ within [ctx] [n] r).
Proof.
  intros [O S0] C F I H N. split.
  - split; [|intros k K; right; apply S0; exact K]. intros c k Cc K [E|D]; [|exact (O c k Cc K D)].
    destruct N as [Q|pre c0 post Q E0 D _|Q D].
    + apply (H c k Cc K). left. exact E.
    + apply (O c k Cc K). rewrite <- E. exact D.
    + destruct (context_unique _ _ _ _ C Cc Q (cmd_plain _ K) E) as [-> ->]. destruct (D sys_ctx I (S0 k K)).
  - destruct N as [Q|pre c0 post Q E0 D _|Q D].
    + right. left. split; [now left|exact Q].
    + left. exact D.
    + right. right. exists ctx, n. repeat split; [now left|now left|exact Q].
Qed.
Lemma clean_ext d d' : (forall x, In x d <-> In x d') -> clean d -> clean d'.
Proof.
  intros E [O S0]. split.
  - intros c k Cc K D. apply E in D. exact (O c k Cc K D).
  - intros k K. apply E. exact (S0 k K).
Qed.
Lemma within_mono cs ns cs' ns' x : incl cs cs' -> incl ns ns' -> within cs ns x -> within cs' ns' x.
Proof.
  intros A B [(I & Q)|(c & n & I1 & I2 & Q & E)]; [left|right].
  - split; [apply B; exact I|exact Q].
  - exists c, n. repeat split; auto.
Qed.

(* s' is s with symbols added that the names ns can turn into in the contexts cs *)
Definition grows (cs ns : list string) (s s' : session) : Prop :=
  (forall x, In x (s_known s) -> In x (s_known s')) /\ (forall x, In x (s_known s') -> In x (s_known s) \/ within cs ns x).
Lemma grows_refl cs ns s : grows cs ns s s. Proof. split; auto. Qed.
Lemma grows_trans cs ns s s1 s2 : grows cs ns s s1 -> grows cs ns s1 s2 -> grows cs ns s s2.
Proof. intros [A B] [A' B']. split; [auto|]. intros x I. destruct (B' x I) as [J|J]; [destruct (B x J); auto|auto]. Qed.
Lemma grows_mono cs ns cs' ns' s s' : incl cs cs' -> incl ns ns' -> grows cs ns s s' -> grows cs' ns' s s'.
Proof. intros A B [G H]. split; [exact G|]. intros x I. destruct (H x I) as [J|J]; [auto|right]. exact (within_mono _ _ _ _ _ A B J). Qed.

Section Ready.
Variables (ctx : string) (P : list string).
Hypothesis C : context_name ctx.
Hypothesis F : Forall context_name P.
Hypothesis I : In sys_ctx P.
Definition at_ (s : session) : Prop := s_ctx s = Some ctx /\ s_path s = Some P /\ clean (s_known s).
Lemma at_cur s : at_ s -> cur s = ctx /\ cpath s = P.
Proof. intros (A & B & _). unfold cur, cpath. rewrite A, B. split; reflexivity. Qed.
Lemma read1_at s n : at_ s -> only_system [n] -> exists r s', read1 s n = (r, s') /\ same_vars s s' /\ at_ s' /\
  names_symbol ctx P (s_known s) n r /\ grows [ctx] [n] s s'.
Proof.
  intros A H. destruct (read1_spec s n) as (r & s' & E & V & N & K). destruct (at_cur s A) as [Ec Ep]. rewrite Ec, Ep in N.
  exists r, s'. split; [exact E|]. split; [exact V|]. destruct A as (A1 & A2 & A3).
  destruct (clean_read ctx P (s_known s) n r A3 C F I H N) as [L W]. split; [|split; [exact N|]].
  - split; [rewrite (proj1 V); exact A1|]. split; [rewrite (proj1 (proj2 V)); exact A2|].
    apply (clean_ext (r :: s_known s)); [|exact L]. intro x. rewrite K. cbn. split; intros [X|X]; auto.
  - split; intros x X; [apply K; auto|]. apply K in X. destruct X as [X| ->]; [auto|exact W].
Qed.
Lemma read_at l : forall s, at_ s -> only_system l -> exists rs s', read s l = (rs, s') /\ same_vars s s' /\ at_ s' /\ grows [ctx] l s s'.
Proof.
  induction l as [|n l IH]; intros s A H.
  - exists [], s. split; [reflexivity|]. split; [apply same_refl|]. split; [exact A|apply grows_refl].
  - destruct (read1_at s n A) as (r & s1 & E & V & A1 & _ & G).
    { intros c k Cc K D. apply (H c k Cc K). cbn in D. destruct D as [D|[]]. left. exact D. }
    destruct (IH s1 A1) as (rs & s2 & E2 & V2 & A2 & G2). { intros c k Cc K D. apply (H c k Cc K). right. exact D. }
    exists (r :: rs), s2. cbn [read]. rewrite E, E2. split; [reflexivity|]. split; [exact (same_trans _ _ _ V V2)|]. split; [exact A2|].
    apply grows_trans with s1; [apply grows_mono with (3 := G)|apply grows_mono with (3 := G2)]; try apply incl_refl.
    + intros x [<-|[]]. now left.
    + apply incl_tl, incl_refl.
Qed.
Lemma uses_at ls : forall s, at_ s -> Forall only_system ls -> exists s', script s (map Use ls) = s' /\ same_vars s s' /\ at_ s' /\ grows [ctx] (concat ls) s s'.
Proof.
  induction ls as [|l ls IH]; intros s A H.
  - exists s. split; [reflexivity|]. split; [apply same_refl|]. split; [exact A|apply grows_refl].
  - inversion H as [|? ? H1 H2]; subst. destruct (read_at l s A H1) as (rs & s1 & E & V & A1 & G).
    destruct (IH s1 A1 H2) as (s2 & E2 & V2 & A2 & G2). exists s2.
    split; [|split; [exact (same_trans _ _ _ V V2)|split; [exact A2|]]].
    + cbn [map script fold_left step]. rewrite E. exact E2.
    + cbn [concat]. apply grows_trans with s1; [apply grows_mono with (3 := G)|apply grows_mono with (3 := G2)]; try apply incl_refl.
      * apply incl_appl, incl_refl.
      * apply incl_appr, incl_refl.
Qed.
Lemma sysname_ctx k : sysname k = append sys_ctx k. Proof. reflexivity. Qed.
(* a command takes effect; looking up its name leaves everything as it is *)
Lemma command_at s k : at_ s -> exists s', command s k = effect s' k /\ same_vars s s' /\ at_ s' /\ forall x, In x (s_known s') <-> In x (s_known s).
Proof.
  intros A. unfold command. destruct (read1_spec s (cmd_name k)) as (r & s' & E & V & N & K). destruct (at_cur s A) as [Ec Ep]. rewrite Ec, Ep in N.
  destruct A as (A1 & A2 & A3). pose proof (clean_command _ _ _ _ _ A3 F I (cmd_known k) N) as ->. rewrite E, <- sysname_ctx, String.eqb_refl. exists s'.
  assert (G : forall x, In x (s_known s') <-> In x (s_known s)).
  { intro x. rewrite K. split; [|auto]. intros [X| ->]; [exact X|]. exact (proj2 A3 _ (cmd_known k)). }
  split; [reflexivity|]. split; [exact V|]. split; [|exact G].
  split; [rewrite (proj1 V); exact A1|]. split; [rewrite (proj1 (proj2 V)); exact A2|].
  apply (clean_ext (s_known s)); [intro x; symmetry; apply G|exact A3].
Qed.
End Ready.

Lemma effect_begin ctx c c' s : enters ctx c c' -> s_ctx s = Some ctx ->
  effect s (CBegin c) = Session (Some c') (s_path s) (s_old s) (s_oldpath s) (s_pkg s) (s_ctx s) (s_known s).
Proof.
  intros [(t & -> & ->)|(<- & N)] E.
  - cbn. rewrite E. reflexivity.
  - destruct c as [|a c]; [reflexivity|]. destruct (Ascii.ascii_dec a "`"%char) as [->|D]; [destruct (N c); reflexivity|].
    destruct a as [[] [] [] [] [] [] [] []]; try reflexivity. destruct D. reflexivity.
Qed.
Lemma known_grows cs ns s s' : (forall x, In x (s_known s') <-> In x (s_known s)) -> grows cs ns s s'.
Proof. intro K. split; intros x X; [apply K; exact X|left; apply K; exact X]. Qed.
Lemma script_app s a b : script s (a ++ b) = script (script s a) b.
Proof. apply fold_left_app. Qed.

Definition kept (s s' : session) : Prop := s_old s' = s_old s /\ s_oldpath s' = s_oldpath s /\ s_pkg s' = s_pkg s.
Lemma block_run ctx P c c' ls s : context_name ctx -> Forall context_name P -> In sys_ctx P -> enters ctx c c' -> context_name c' ->
  Forall only_system ls -> at_ ctx P s ->
  exists s', script s (Do (CBegin c) :: map Use ls ++ [Do CEnd]) = s' /\ at_ ctx P s' /\ grows [c'] (concat ls) s s' /\ kept s s'.
Proof.
  intros C F I E C' H A. change (Do (CBegin c) :: map Use ls ++ [Do CEnd]) with ([Do (CBegin c)] ++ map Use ls ++ [Do CEnd]).
  rewrite !script_app. cbn [script fold_left step].
  destruct (command_at ctx P F I s (CBegin c) A) as (s1 & E1 & V1 & A1 & K1). destruct A1 as (B1 & B2 & B3).
  rewrite E1, (effect_begin ctx c c' s1 E B1).
  set (s2 := Session (Some c') (s_path s1) (s_old s1) (s_oldpath s1) (s_pkg s1) (s_ctx s1) (s_known s1)).
  assert (A2 : at_ c' P s2) by (split; [reflexivity|split; assumption]).
  destruct (uses_at c' P C' F I ls s2 A2 H) as (s3 & E3 & V3 & A3 & G3). rewrite E3.
  destruct (command_at c' P F I s3 CEnd A3) as (s4 & E4 & V4 & A4 & K4). rewrite E4. eexists. split; [reflexivity|].
  destruct V1 as (V11 & V12 & V13 & V14 & V15 & V16). destruct V3 as (V31 & V32 & V33 & V34 & V35 & V36). destruct V4 as (V41 & V42 & V43 & V44 & V45 & V46).
  cbn [s2 s_ctx s_path s_old s_oldpath s_pkg s_old2] in *. cbn [effect]. destruct A4 as (A41 & A42 & A43). split; [|split].
  - split; [cbn [s_ctx]; congruence|]. split; [exact A42|exact A43].
  - apply grows_trans with s2; [|apply grows_trans with s3; [exact G3|]].
    + apply known_grows. exact K1.
    + apply known_grows. exact K4.
  - cbn [effect]. split; [|split]; cbn [s_old s_oldpath s_pkg]; congruence.
Qed.
Lemma body_run p P body cs ns : context_name p -> Forall context_name P -> In sys_ctx P -> pbody p body cs ns -> forall s, at_ p P s ->
  at_ p P (script s body) /\ grows (p :: cs) ns s (script s body) /\ kept s (script s body).
Proof.
  intros C F I B. induction B as [|l r cs ns H B IH|c c' ls r cs ns E C' H B IH]; intros s A.
  - split; [exact A|]. split; [apply grows_refl|split; [|split]; reflexivity].
  - cbn [script fold_left step]. destruct (read_at p P C F I l s A H) as (rs & s1 & E & V & A1 & G). rewrite E. cbn [snd].
    destruct (IH s1 A1) as (A2 & G2 & K2). split; [exact A2|]. split.
    + apply grows_trans with s1; [apply grows_mono with (3 := G)|apply grows_mono with (3 := G2)].
      * intros x [<-|[]]. now left.
      * apply incl_appl, incl_refl.
      * apply incl_refl.
      * apply incl_appr, incl_refl.
    + destruct V as (V1 & V2 & V3 & V4 & V5 & V6). destruct K2 as (Y1 & Y2 & Y3). unfold script in *. split; [|split]; congruence.
  - replace (Do (CBegin c) :: map Use ls ++ Do CEnd :: r) with ((Do (CBegin c) :: map Use ls ++ [Do CEnd]) ++ r)
      by (cbn; rewrite <- app_assoc; reflexivity).
    rewrite script_app. destruct (block_run p P c c' ls s C F I E C' H A) as (s1 & E1 & A1 & G1 & K1). rewrite E1.
    destruct (IH s1 A1) as (A2 & G2 & K2). split; [exact A2|]. split.
    + apply grows_trans with s1; [apply grows_mono with (3 := G1)|apply grows_mono with (3 := G2)].
      * intros x [<-|[]]. right. now left.
      * apply incl_appl, incl_refl.
      * intros x [<-|X]; [now left|right; now right].
      * apply incl_appr, incl_refl.
    + destruct K1 as (X1 & X2 & X3). destruct K2 as (Y1 & Y2 & Y3). split; [|split]; congruence.
Qed.

(* BeginPackage["p`"]; ...; EndPackage[] gives $Context back its value, puts p`
   in front of $ContextPath, forgets no symbol, and creates only symbols that
   are spelled out in the package or lie in p` or a context entered by Begin. *)
Theorem C98_package : forall s p body cs ns c0 P0,
  usable s -> s_ctx s = Some c0 -> s_path s = Some P0 -> context_name p -> pbody p body cs ns ->
  let s' := script s (Do (CBeginPackage p) :: body ++ [Do CEndPackage]) in
  usable s' /\ s_ctx s' = Some c0 /\ s_path s' = Some (p :: P0) /\
  (forall x, In x (s_known s) -> In x (s_known s')) /\
  (forall x, In x (s_known s') -> In x (s_known s) \/ (In x ns /\ qualified x) \/
     exists c n, In c (p :: cs) /\ In n ns /\ ~ qualified n /\ x = append c n).
Proof.
  intros s p body cs ns c0 P0 (c & P & Ec & EP & C & F & I & L) E1 E2 Cp B s'.
  rewrite E1 in Ec. injection Ec as <-. rewrite E2 in EP. injection EP as <-.
  assert (A : at_ c0 P0 s) by (split; [exact E1|split; assumption]).
  unfold s'. change (Do (CBeginPackage p) :: body ++ [Do CEndPackage]) with ([Do (CBeginPackage p)] ++ body ++ [Do CEndPackage]).
  rewrite !script_app. cbn [script fold_left step].
  destruct (command_at c0 P0 F I s (CBeginPackage p) A) as (s1 & X1 & V1 & A1 & K1). rewrite X1. destruct A1 as (B1 & B2 & B3).
  set (s2 := effect s1 (CBeginPackage p)).
  assert (F2 : Forall context_name [p; sys_ctx]) by (constructor; [exact Cp|constructor; [exact sys_context|constructor]]).
  assert (I2 : In sys_ctx [p; sys_ctx]) by (right; now left).
  assert (A2 : at_ p [p; sys_ctx] s2) by (split; [reflexivity|split; [reflexivity|exact B3]]).
  destruct (body_run p _ body cs ns Cp F2 I2 B s2 A2) as (A3 & G3 & O1 & O2 & O3). fold (script s2 body).
  set (s3 := script s2 body) in *. clearbody s3.
  destruct (command_at p _ F2 I2 s3 CEndPackage A3) as (s4 & X4 & V4 & A4 & K4). rewrite X4. destruct A4 as (A41 & A42 & A43).
  destruct V4 as (V41 & V42 & V43 & V44 & V45 & V46). cbn [s2 effect s_old s_oldpath s_pkg] in O1, O2, O3.
  assert (Q1 : s_ctx (effect s4 CEndPackage) = Some c0) by (cbn [effect s_ctx]; congruence).
  assert (Q2 : s_path (effect s4 CEndPackage) = Some (p :: P0)).
  { cbn [effect s_path]. rewrite V44, V45, O2, O3, B2. reflexivity. }
  assert (G : grows (p :: cs) ns s (effect s4 CEndPackage)).
  { apply grows_trans with s2; [|apply grows_trans with s3; [exact G3|]].
    - apply known_grows. exact K1.
    - apply known_grows. exact K4. }
  split; [|split; [exact Q1|split; [exact Q2|]]].
  - exists c0, (p :: P0). split; [exact Q1|]. split; [exact Q2|]. split; [exact C|]. split; [constructor; assumption|].
    split; [now right|exact A43].
  - exact G.
Qed.
Print Assumptions C98_package.

(* A package cannot define a symbol of another context by accident: a symbol of
   a context q` that is neither p` nor entered in the package is there afterwards
   only if it was there before or is spelled out. *)
Theorem C98_no_leak : forall s p body cs ns q n,
  usable s -> context_name p -> pbody p body cs ns ->
  context_name q -> ~ In q (p :: cs) -> Forall context_name cs -> ~ qualified n -> ~ In (append q n) ns ->
  (In (append q n) (s_known (script s (Do (CBeginPackage p) :: body ++ [Do CEndPackage]))) <-> In (append q n) (s_known s)).
Proof.
  intros s p body cs ns q n U Cp B Cq N Fc Qn NS. destruct (U) as (c0 & P0 & E1 & E2 & _).
  destruct (C98_package s p body cs ns c0 P0 U E1 E2 Cp B) as (_ & _ & _ & K1 & K2). split; [|apply K1].
  intro X. apply K2 in X. destruct X as [X|[[X _]|(c & m & Ic & Im & Qm & E)]]; [exact X|destruct (NS X)|]. exfalso.
  assert (Cc : context_name c). { destruct Ic as [<-|Ic]; [exact Cp|]. rewrite Forall_forall in Fc. apply Fc. exact Ic. }
  destruct (context_unique _ _ _ _ Cq Cc Qn Qm E) as [-> _]. destruct (N Ic).
Qed.
Print Assumptions C98_no_leak.

(* Inside the package a plain name is a symbol of p`, of System`, or (in a block)
   of the block's context - never of the session's own context or path. *)
Theorem C98_inside : forall ctx p known n r,
  ~ qualified n -> names_symbol ctx [p; "System`"%string] known n r ->
  (r = append p n /\ In r known) \/ (r = append "System`" n /\ In r known /\ ~ In (append p n) known) \/
  (r = append ctx n /\ ~ In (append p n) known /\ ~ In (append "System`" n) known).
Proof.
  intros ctx p known n r Q N. destruct N as [Q'|pre c post _ E D X|_ D].
  - destruct (Q Q').
  - destruct pre as [|a pre]; [injection E as <- <-; left; split; [reflexivity|exact D]|]. injection E as <- E.
    destruct pre as [|b pre]; [|destruct pre; discriminate E]. injection E as <- <-. right. left.
    split; [reflexivity|]. split; [exact D|]. apply X. now left.
  - right. right. split; [reflexivity|]. split; apply D; [now left|right; now left].
Qed.
Print Assumptions C98_inside.

(* After EndPackage a plain name means the package's symbol if there is one, and
   otherwise what it meant with the old context and path; it never means a
   symbol of another context, such as the ones entered by Begin. *)
Theorem C98_after : forall c0 P0 p known n r, ~ qualified n ->
  (names_symbol c0 (p :: P0) known n r <->
   (In (append p n) known /\ r = append p n) \/ (~ In (append p n) known /\ names_symbol c0 P0 known n r)).
Proof.
  intros c0 P0 p known n r Q. split.
  - intros N. destruct N as [Q'|pre c post _ E D X|_ D].
    + destruct (Q Q').
    + destruct pre as [|a pre]; injection E as <- E; [left; auto|]. right. split; [apply X; now left|].
      apply ns_path with pre post; auto. intros c' J. apply X. now right.
    + right. split; [apply D; now left|]. apply ns_current; [exact Q|]. intros c J. apply D. now right.
  - intros [[D ->]|[D N]].
    + apply ns_path with [] P0; auto.
    + destruct N as [Q'|pre c post _ E D' X|_ D'].
      * destruct (Q Q').
      * apply ns_path with (p :: pre) post; auto; [cbn; rewrite E; reflexivity|]. intros c' [<-|J]; [exact D|apply X; exact J].
      * apply ns_current; [exact Q|]. intros c [<-|J]; [exact D|apply D'; exact J].
Qed.
Print Assumptions C98_after.
Theorem C98_private : forall c0 P0 p known n q m,
  context_name c0 -> context_name p -> Forall context_name P0 -> context_name q -> ~ qualified n -> ~ qualified m ->
  names_symbol c0 (p :: P0) known n (append q m) -> In q (c0 :: p :: P0).
Proof.
  intros c0 P0 p known n q m C0 Cp F Cq Q Qm N. remember (append q m) as r eqn:E. destruct N as [Q'|pre c post _ E0 D X|_ D].
  - destruct (Q Q').
  - right. assert (J : In c (p :: P0)) by (rewrite E0; apply in_or_app; right; now left).
    assert (Cc : context_name c). { destruct J as [<-|J]; [exact Cp|]. rewrite Forall_forall in F. apply F. exact J. }
    destruct (context_unique _ _ _ _ Cc Cq Q Qm E) as [<- _]. exact J.
  - destruct (context_unique _ _ _ _ C0 Cq Q Qm E) as [<- _]. now left.
Qed.
Print Assumptions C98_private.

(* Loading packages one after another puts them on the path, the last in front. *)
Definition packages (l : list (string * list stmt)) : list stmt :=
  flat_map (fun x => Do (CBeginPackage (fst x)) :: snd x ++ [Do CEndPackage]) l.
Theorem C98_packages : forall l s c0 P0,
  usable s -> s_ctx s = Some c0 -> s_path s = Some P0 ->
  (forall p b, In (p, b) l -> context_name p /\ exists cs ns, pbody p b cs ns) ->
  let s' := script s (packages l) in
  usable s' /\ s_ctx s' = Some c0 /\ s_path s' = Some (rev (map fst l) ++ P0).
Proof.
  induction l as [|[p b] l IH]; intros s c0 P0 U E1 E2 H; [cbn; auto|].
  destruct (H p b (or_introl eq_refl)) as (Cp & cs & ns & B).
  destruct (C98_package s p b cs ns c0 P0 U E1 E2 Cp B) as (U1 & X1 & X2 & _).
  change (packages ((p, b) :: l)) with ((Do (CBeginPackage p) :: b ++ [Do CEndPackage]) ++ packages l). cbv zeta. rewrite script_app.
  destruct (IH _ c0 (p :: P0) U1 X1 X2) as (U2 & X3 & X4); [intros p' b' J; apply H; now right|].
  split; [exact U2|]. split; [exact X3|]. rewrite X4. cbn [map rev fst]. rewrite <- app_assoc. reflexivity.
Qed.
Print Assumptions C98_packages.

(* Begin ... End around inputs, in or outside a package, leaves the context and
   the path as they were. *)
Theorem C98_block : forall s c c' ls ctx P,
  usable s -> s_ctx s = Some ctx -> s_path s = Some P -> enters ctx c c' -> context_name c' -> Forall only_system ls ->
  let s' := script s (Do (CBegin c) :: map Use ls ++ [Do CEnd]) in
  usable s' /\ s_ctx s' = Some ctx /\ s_path s' = Some P.
Proof.
  intros s c c' ls ctx P (c0 & P0 & Ec & EP & C & F & I & L) E1 E2 E C' H s'.
  rewrite E1 in Ec. injection Ec as <-. rewrite E2 in EP. injection EP as <-.
  destruct (block_run ctx P c c' ls s C F I E C' H) as (s1 & X & (A1 & A2 & A3) & _); [split; [exact E1|split; assumption]|].
  unfold s'. rewrite X. split; [|split; assumption]. exists ctx, P. repeat split; try assumption; apply A3.
Qed.
Print Assumptions C98_block.

(* a session: the four functions and Plus exist *)
Definition sys4 : list string := map sysname ["BeginPackage"; "EndPackage"; "Begin"; "End"; "Plus"]%string.
Definition ses0 : session := Session (Some "Global`"%string) (Some ["System`"%string]) None None None None sys4.
(* It is not so for Begin blocks inside Begin blocks: the functions remember one
   old context only. *)
Theorem C98_nested_begin_refuted :
  usable ses0 /\
  s_ctx (script ses0 [Do (CBegin "a`"); Do (CBegin "b`"); Do CEnd; Do CEnd]) = Some "a`"%string.
Proof.
  split; [|vm_compute; reflexivity].
  exists "Global`"%string, ["System`"%string]. repeat split; try (now left).
  - exists "Global"%string. reflexivity.
  - constructor; [exact sys_context|constructor].
  - intros c k Cc K D. assert (S1 : exists k', In k' (commands ++ ["Plus"%string]) /\ append c k = append sys_ctx k').
    { cbn in D. destruct D as [D|[D|[D|[D|[D|[]]]]]]; rewrite <- D; eexists; (split; [|reflexivity]); cbn; tauto. }
    destruct S1 as (k' & K' & E). refine (proj1 (context_unique _ _ _ _ Cc sys_context (cmd_plain _ K) _ E)).
    intro Q. apply has_tick_spec in Q. cbn in K'. destruct K' as [<-|[<-|[<-|[<-|[<-|[]]]]]]; discriminate Q.
  - intros k K. cbn in K. destruct K as [<-|[<-|[<-|[<-|[]]]]]; cbn; tauto.
Qed.
Print Assumptions C98_nested_begin_refuted.

(* Nor for a package inside a package: afterwards $Context is no string any more
   (Null), names are created without a context, and even EndPackage cannot be
   named. *)
Theorem C98_nested_package_refuted :
  let s := script ses0 [Do (CBeginPackage "a`"); Do (CBeginPackage "b`"); Do CEndPackage; Do CEndPackage] in
  s_ctx s = None /\ s_path s = None /\ fst (read s ["x"; "Plus"]%string) = ["x"; "Plus"]%string.
Proof. vm_compute. repeat split. Qed.
Print Assumptions C98_nested_package_refuted.
(* A stray EndPackage[] does the same. *)
Theorem C98_stray_end_refuted :
  let s := script ses0 [Do CEndPackage] in
  s_ctx s = None /\ s_path s = None /\ fst (read s ["Plus"]%string) = ["Plus"]%string.
Proof. vm_compute. repeat split. Qed.
Print Assumptions C98_stray_end_refuted.

(* the hypotheses of C98_package for
   BeginPackage["p`"]; f; Begin["`Private`"]; g; f; End[]; f; EndPackage[] *)
Definition body0 : list stmt := [Use ["f"]; Do (CBegin "`Private`"); Use ["g"; "f"]; Do CEnd; Use ["f"; "Plus"]]%string.
Example C98_ex_body : pbody "p`" body0 ["p`Private`"]%string ["f"; "g"; "f"; "f"; "Plus"]%string.
Proof.
  assert (O : forall l, Forall (fun n => has_tick n = false) l -> only_system l).
  { intros l Fl c k (a & ->) K D. exfalso. rewrite Forall_forall in Fl. apply Fl in D. apply has_tick_false in D. apply D.
    exists a, k. rewrite app_assoc_s. reflexivity. }
  apply (PB_use "p`" ["f"%string] _ ["p`Private`"%string] ["g"; "f"; "f"; "Plus"]%string); [apply O; repeat constructor|].
  apply (PB_block "p`" "`Private`" "p`Private`" [["g"; "f"]%string] [Use ["f"; "Plus"]%string] [] ["f"; "Plus"]%string).
  - left. exists "Private`"%string. split; reflexivity.
  - exists "p`Private"%string. reflexivity.
  - constructor; [apply O; repeat constructor|constructor].
  - apply (PB_use "p`" ["f"; "Plus"]%string [] [] []); [apply O; repeat constructor|constructor].
Qed.
Example C98_ex_run :
  let s := script ses0 (Do (CBeginPackage "p`") :: body0 ++ [Do CEndPackage]) in
  s_ctx s = Some "Global`"%string /\ s_path s = Some ["p`"; "System`"]%string /\
  s_known s = ["p`Private`g"; "p`f"]%string ++ sys4 /\
  fst (read s ["f"; "g"; "Plus"]%string) = ["p`f"; "Global`g"; "System`Plus"]%string.
Proof. vm_compute. repeat split. Qed.
