(* C102: expressions with operators, printed in InputForm, are read back. *)
From Verif Require Import M_Syntax M_Float M_Hash M_Parse M_OpForm S_Parse S_InputForm S_OpForm P_Parse P_OpForm P_OpForm2.
Open Scope nat_scope.

(* Whatever the precedences (as long as arithmetic binds tightest, == and != bind
   alike and repeatable operators group to the left), ToString[e, InputForm] -
   and what EasyRun returns - is read back as e, and as nothing else.
   Partial: for the expressions of [writable]. *)
Theorem C102_read_back_partial : forall T nf e, sane T -> writable e ->
  exists ts, op_form T e = Some ts /\ forall e', op_reads T nf ts e' <-> e' = e.
Proof.
  intros T nf e Sn W. destruct (printed_reads T nf Sn e OTop W (or_introl eq_refl)) as (ts & E & R).
  exists ts. split; [exact E|]. intros e'. split; [intros R'; exact (op_reads_fun T nf ts e' e R' R)|intros ->; exact R].
Qed.
Print Assumptions C102_read_back_partial.
Theorem C102_easy_run_partial : forall T nf e, sane T -> writable e ->
  exists ts, easy_form T e = Some ts /\ forall e', op_reads T nf ts e' <-> e' = e.
Proof.
  intros T nf e Sn W. destruct (printed_reads T nf Sn e (OUnder "") W (or_intror eq_refl)) as (ts & E & R).
  exists ts. split; [exact E|]. intros e'. split; [intros R'; exact (op_reads_fun T nf ts e' e R' R)|intros ->; exact R].
Qed.
Print Assumptions C102_easy_run_partial.
(* so different expressions have different texts *)
Theorem C102_distinct_texts_partial : forall T e e' ts, sane T -> writable e -> writable e' ->
  op_form T e = Some ts -> op_form T e' = Some ts -> e = e'.
Proof.
  intros T e e' ts Sn W W' E E'.
  destruct (C102_read_back_partial T (fun x => x) e Sn W) as (t1 & E1 & R1).
  destruct (C102_read_back_partial T (fun x => x) e' Sn W') as (t2 & E2 & R2).
  assert (t1 = ts) by congruence. assert (t2 = ts) by congruence. subst t1 t2. apply R2. apply R1. reflexivity.
Qed.
Print Assumptions C102_distinct_texts_partial.

(* ---- a table: the precedences of the language reference ---- *)
Definition T0 : table := Table
  (fun op => match find (fun p => String.eqb (fst p) op)
     [("Set", 40); ("SetDelayed", 40); ("ReplaceRepeated", 110); ("ReplaceAll", 110); ("Rule", 120); ("RuleDelayed", 120); ("Pattern", 150);
      ("Or", 215); ("And", 215 + 10); ("SameQ", 240); ("UnsameQ", 240); ("Equal", 290); ("Unequal", 290); ("Less", 290); ("Greater", 290);
      ("LessEqual", 290); ("GreaterEqual", 290); ("Plus", 310); ("Times", 400); ("StringJoin", 300); ("Power", 590)]%string
     with Some (_, k) => k | None => 1000 end)
  (fun op => existsb (String.eqb op) ["Set"; "SetDelayed"; "Rule"; "RuleDelayed"; "Power"]%string) 480.
Lemma sane_T0 : sane T0.
Proof.
  constructor.
  - intros op a Ho Ha. apply Nat.ltb_lt. unfold loose in Ho. unfold arith in Ha.
    repeat (destruct Ho as [<-|Ho]; [repeat (destruct Ha as [<-|Ha]; [vm_compute; reflexivity|]); contradiction|]). contradiction.
  - intros op Ho. apply Nat.ltb_lt. unfold loose in Ho. repeat (destruct Ho as [<-|Ho]; [vm_compute; reflexivity|]). contradiction.
  - reflexivity.
  - intros op Ho. unfold chain_ops in Ho. repeat (destruct Ho as [<-|Ho]; [reflexivity|]). contradiction.
Qed.

Definition g (s : string) : ex := ESym (append "Global`" s).
Definition op2 (op : string) (l : list ex) : ex := EExpr (sys op :: l).
(* f[x_Integer] := (x + 2)^y*z == -3 && (a === b == c) || {u, v}[[1]] /. {q -> (r -> s)} *)
Definition sample : ex :=
  op2 "SetDelayed"
    [EExpr [g "f"; EExpr [sys "Pattern"; g "x"; EExpr [sys "Blank"; sys "Integer"]]];
     op2 "ReplaceAll"
       [op2 "Or" [op2 "And" [op2 "Equal" [op2 "Times" [op2 "Power" [op2 "Plus" [g "x"; EInt 2]; g "y"]; g "z"]; EInt (-3)];
                             op2 "SameQ" [g "a"; op2 "Equal" [g "b"; g "c"]]];
                  EExpr [sys "Part"; EExpr [sys "List"; g "u"; g "v"]; EInt 1]];
        EExpr [sys "List"; op2 "Rule" [g "q"; op2 "Rule" [g "r"; g "s"]]]]].
Ltac no_in := let H := fresh in intros H; vm_compute in H; (repeat (destruct H as [H|H]; [discriminate H|])); contradiction.
Ltac plain := intros H; vm_compute in H; (repeat (destruct H as [H|H]; [discriminate H|])); contradiction.
Lemma g_call s args : In s ["f"; "h"]%string -> call_form (append "Global`" s) args.
Proof.
  intros Hs. destruct Hs as [<-|[<-|[]]]; (split; [plain|intros op E; discriminate E]).
Qed.
Lemma g_sym s : In s ["a"; "b"; "c"; "q"; "r"; "s"; "u"; "v"; "x"; "y"; "z"]%string -> closed (g s).
Proof. intros Hs. apply c_sym. repeat (destruct Hs as [<-|Hs]; [plain|]). contradiction. Qed.
Lemma no_under_dec s : (fix ok s := match s with EmptyString => true | String c t => negb (Ascii.eqb c "_") && ok t end) s = true ->
  forall a b, s <> append a (append "_" b).
Proof.
  induction s as [|c s IH]; intros H a b.
  - destruct a; discriminate.
  - apply andb_true_iff in H. destruct H as [H1 H2]. destruct a as [|d a]; intros Q; injection Q as Q1 Q2.
    + subst c. discriminate H1.
    + exact (IH H2 a b Q2).
Qed.
Ltac sym := apply w_closed, g_sym; cbn; tauto.
Ltac not_abs := let h := fresh in let l := fresh in let E := fresh in
  intros (h & l & E & [[E1 E2]|[E1 [[E2 E3]|E2]]]);
  first [ discriminate E | injection E as E; subst; cbn in *; first [lia | discriminate | (repeat (destruct E1 as [E1|E1]; [discriminate E1|])); contradiction] ].
Ltac syms := repeat (apply Forall_cons; [sym|]); apply Forall_nil.
Ltac not_neg := intros (? & E & L); first [discriminate E | injection E as <-; lia].
Example sample_writable : writable sample.
Proof.
  apply w_binary; [cbn; tauto|cbn; tauto| |].
  { apply w_closed. apply (c_call (append "Global`" "f")); [apply g_call; cbn; tauto| |constructor; [intros Q; discriminate Q|constructor]].
    constructor; [|constructor]. apply w_closed. apply c_pattern; [split; [discriminate|apply no_under_dec; reflexivity]|].
    apply (bl_head 1 "Blank"); [constructor|split; [discriminate|apply no_under_dec; reflexivity]|discriminate]. }
  apply w_binary; [cbn; tauto|cbn; tauto| |].
  2:{ apply w_closed, c_list. constructor; [|constructor]. apply w_binary; [cbn; tauto|cbn; tauto|sym|]. apply w_binary; [cbn; tauto|cbn; tauto|sym|sym]. }
  apply (w_chain "Or"); [cbn; tauto|cbn; tauto|discriminate| |intros _; not_abs].
  constructor; [|constructor; [|constructor]].
  2:{ apply w_closed, c_part; [apply c_list; syms|]. repeat constructor. }
  apply (w_chain "And"); [cbn; tauto|cbn; tauto|discriminate| |intros _; not_abs].
  constructor; [|constructor; [|constructor]].
  - apply (w_chain "Equal"); [cbn; tauto|cbn; tauto|discriminate| |intros _; not_abs].
    constructor; [|repeat constructor].
    apply w_times; [discriminate| |repeat constructor; not_neg|not_abs|].
    + constructor; [|syms]. apply w_power; [|sym|not_neg|not_neg|].
      * apply w_plus; [discriminate|constructor; [sym|repeat constructor]|repeat constructor; not_neg|not_abs].
      * repeat constructor; vm_compute; reflexivity.
    + constructor; [|constructor; [|constructor]]; (split; [intros; discriminate|]); intros b z Q; discriminate Q.
  - apply (w_chain "SameQ"); [cbn; tauto|cbn; tauto|discriminate| |intros _; not_abs].
    constructor; [sym|constructor; [|constructor]].
    apply (w_chain "Equal"); [cbn; tauto|cbn; tauto|discriminate|syms|intros _; not_abs].
Qed.
(* its text *)
Definition chars (t : otok) : string :=
  match t with
  | KInt n => match n with 1%N => "1" | 2%N => "2" | 3%N => "3" | _ => "?" end
  | KName s => match strip_prefix "Global`" s with Some r => r | None => short s end
  | KStr s => s
  | KPat s => match strip_prefix "Global`" s with Some r => r | None => s end
  | KMinus => "-"
  | KOp op => match find (fun p => String.eqb (fst p) op) sign with Some (_, s) => s | None => "?" end
  | KLP => "(" | KRP => ")" | KLB => "[" | KRB => "]" | KLC => "{" | KRC => "}" | KLBB => "[[" | KRBB => "]]" | KComma => ", "
  end%string.
Example sample_text : option_map (fun ts => String.concat "" (map chars ts)) (op_form T0 sample) =
  Some "f[x_System`Integer] := ((((((x + 2)^y*z == -3) && (a === b == c)) || {u, v}[[1]])) /. ({q -> (r -> s)}))"%string.
Proof. vm_compute. reflexivity. Qed.
Example sample_read : exists ts, op_form T0 sample = Some ts /\ op_reads T0 (fun x => x) ts sample.
Proof.
  destruct (C102_read_back_partial T0 (fun x => x) sample sane_T0 sample_writable) as (ts & E & R). exists ts. split; [exact E|]. apply R. reflexivity.
Qed.

(* ---- signs: what a negative term of a sum, and a factor -1, are read as ---- *)
Section Signs.
Variable T : table.
Variable nf : flt -> flt.
Hypothesis Sn : sane T.

Definition plus_step (a : past) (x : bool * past) : past := if fst x then PSub a (snd x) else PAssoc "Plus" a (snd x).
Definition summand (x : bool * past) : ex :=
  if fst x then EExpr [sys "Times"; conv nf (snd x); EInt (-1)] else conv nf (snd x).
Lemma plus_grows a r x : conv nf a = EExpr (sys "Plus" :: r) -> conv nf (plus_step a x) = EExpr (sys "Plus" :: r ++ [summand x]).
Proof.
  intros E. unfold plus_step, summand. destruct (fst x); cbn [conv]; rewrite E; reflexivity.
Qed.
Lemma plus_grow_all l : forall a r, conv nf a = EExpr (sys "Plus" :: r) ->
  conv nf (fold_left plus_step l a) = EExpr (sys "Plus" :: r ++ map summand l).
Proof.
  induction l as [|x l IH]; intros a r E; [now rewrite app_nil_r|]. cbn [fold_left map].
  rewrite (IH _ (r ++ [summand x]) (plus_grows a r x E)). now rewrite <- app_assoc.
Qed.
Lemma plus_starts a x : ~ headed_by [sys "Plus"] (conv nf a) -> conv nf (plus_step a x) = EExpr [sys "Plus"; conv nf a; summand x].
Proof.
  intros N.
  assert (G : forall e y, ~ headed_by [sys "Plus"] e -> fully_assoc (sysname "Plus") e y = EExpr [sys "Plus"; e; y]).
  { clear. intros e y N. unfold fully_assoc. change (is_ineq (sysname "Plus")) with false. cbn [andb].
    destruct (head_assertion e (sysname "Plus")) as [parts|] eqn:H; [|reflexivity]. exfalso. apply N.
    destruct e as [s|s|z|n d|f|a1 a2|[|h l]]; try discriminate H. destruct h as [s|s|z|n d|f|a1 a2|q]; try discriminate H. cbn [head_assertion] in H.
    destruct (String.eqb_spec s (sysname "Plus")) as [->|]; [|discriminate H]. exists (sys "Plus"), l. split; [now left|reflexivity]. }
  unfold plus_step, summand. destruct (fst x); cbn [conv]; apply G; exact N.
Qed.
(* the text t of the term e, printed in a sum, and how it is read after a first term *)
Definition term_read (t : list otok) (x : bool * past) : Prop :=
  if fst x then exists k, t = [KMinus; KInt k] /\ snd x = PInt (Z.of_N k)
  else starts t /\ claim T (S (tprec T "Plus")) t (snd x).
Lemma sum_read texts l : Forall2 term_read texts l -> forall a0 m rest res, m <= tprec T "Plus" -> follow T (tprec T "Plus") rest ->
  Rd T (QLoop m (fold_left plus_step l a0)) rest res -> Rd T (QLoop m a0) (flat_map plus_term texts ++ rest) res.
Proof.
  intros F. induction F as [|t x ts l H F IH]; intros a0 m rest res Lm Fo R; [exact R|].
  cbn [flat_map fold_left] in *. rewrite <- app_assoc. set (rest' := flat_map plus_term ts ++ rest) in *.
  assert (Fo' : follow T (S (tprec T "Plus")) rest').
  { unfold rest'. clear IH R H. destruct F as [|u v us vs H F]; cbn [flat_map app]; [exact (follow_mono T _ _ _ (Nat.le_succ_diag_r _) Fo)|].
    unfold term_read in H. destruct (fst v).
    - destruct H as (k & -> & _). cbn [plus_term app]. split; [cbn [stops]; lia|exact Logic.I].
    - destruct H as ((c & r & -> & N) & _). destruct c; cbn [plus_term app]; try (split; [cbn [stops]; lia|exact Logic.I]); congruence. }
  specialize (IH (plus_step a0 x) m rest res Lm Fo R). fold rest' in IH.
  unfold term_read in H. unfold plus_step in IH at 1. destruct (fst x).
  - destruct H as (k & -> & E). cbn [plus_term app].
    assert (Q : Rd T (QExpr (S (tprec T "Plus"))) (KInt k :: rest') (snd x, rest')).
    { rewrite E. apply (ptext_claim T (S (tprec T "Plus")) [KInt k] _ (int_ptext T k) _ rest'); [lia|exact Fo'|]. apply Rd_stop. exact (proj1 Fo'). }
    destruct Q as [n1 Q]. destruct IH as [n2 IH]. exists (S (n1 + n2)). cbn [ord]. rewrite (proj2 (Nat.leb_le _ _) Lm).
    rewrite (ord_mono T (n1 + n2) n1 _ _ _ Q) by lia. exact (ord_mono T (n1 + n2) n2 _ _ _ IH ltac:(lia)).
  - destruct H as ((c & r & -> & N) & Cl).
    assert (E : plus_term (c :: r) = KOp "Plus" :: c :: r) by (destruct c; try reflexivity; congruence). rewrite E.
    cbn [app]. apply (Rd_op T m a0 "Plus" _ (snd x) rest'); [exact Lm| |exact IH].
    rewrite (group_left T Sn "Plus") by (cbn; tauto). apply Cl; [lia|exact Fo'|]. apply Rd_stop. exact (proj1 Fo').
Qed.
End Signs.

(* x + y - 3 stands for the sum of x, y and Times[3, -1]: a sum with negative
   integers after the first term is printed with minus signs, and read as the sum
   of the same terms, each negative integer z as Times[-z, -1] *)
Definition as_read (e : ex) : ex :=
  match e with
  | EInt z => if (z <? 0)%Z then EExpr [sys "Times"; EInt (- z); EInt (-1)] else e
  | _ => e
  end.
Lemma term_good T nf e : sane T -> writable e -> exists t x, opr T (OUnder "Plus") e = Some t /\ term_read T t x /\ unparen (summand nf x) = as_read e.
Proof.
  intros Sn W. destruct (level_arith T "Plus") as (Cc & Lv & Ac & Th); [cbn; tauto|].
  assert (H : ~ neg_int e -> exists t x, opr T (OUnder "Plus") e = Some t /\ term_read T t x /\ unparen (summand nf x) = as_read e).
  { intros N. destruct (proj1 (writable_good T nf Sn (Datatypes.S (ex_size e)) e (Nat.lt_succ_diag_r _)) W (OUnder "Plus") Cc) as (ta & E & U & Cl & _ & St).
    exists (fst ta), (false, snd ta). split; [exact E|]. split.
    - split; [exact (St Ac N)|]. cbn [snd]. rewrite <- Lv. apply Cl. now right.
    - unfold summand. cbn [fst snd]. rewrite U. destruct e as [s|s|z|n d|f|a1 a2|l]; try reflexivity. cbn [as_read].
      destruct (Z.ltb_spec z 0) as [L|L]; [|reflexivity]. exfalso. apply N. now exists z. }
  destruct e as [s|s|z|n d|f|a1 a2|l]; try (apply H; intros (w & Q & _); discriminate Q).
  destruct (Z.ltb_spec z 0) as [L|L]; [|apply H; intros (w & Q & L'); injection Q as <-; lia].
  exists (M_OpForm.int_text z), (true, PInt (- z)). split; [reflexivity|]. split.
  - exists (Z.to_N (- z)). split; [|cbn [snd]; f_equal; lia]. unfold M_OpForm.int_text. now rewrite (proj2 (Z.ltb_lt _ _) L).
  - unfold summand. cbn [fst snd conv as_read]. rewrite (proj2 (Z.ltb_lt _ _) L). reflexivity.
Qed.
Theorem C102_sum_signs_partial : forall T nf e0 args, sane T -> args <> [] -> Forall writable (e0 :: args) -> ~ neg_int e0 -> ~ absorbed "Plus" e0 ->
  exists ts, op_form T (EExpr (sys "Plus" :: e0 :: args)) = Some ts /\
    forall e', op_reads T nf ts e' <-> e' = EExpr (sys "Plus" :: e0 :: map as_read args).
Proof.
  intros T nf e0 args Sn NE W N0 NA.
  destruct (level_arith T "Plus") as (Cc & Lv & Ac & Th); [cbn; tauto|].
  inversion W as [|? ? W0 Wa]; subst.
  destruct (proj1 (writable_good T nf Sn (Datatypes.S (ex_size e0)) e0 (Nat.lt_succ_diag_r _)) W0 (OUnder "Plus") Cc) as ([t0 a0] & E0 & F0).
  assert (Fi := F0). rewrite <- Th in Fi.
  destruct (first_ok T nf Sn "Plus" e0 (t0, a0)) as (N1 & _); [cbn; tauto|cbn; intuition discriminate|exact NA|exact Fi|]. cbn [snd] in N1.
  destruct F0 as (U & Cl & _ & St). cbn [fst snd] in *. specialize (Cl (or_intror N0)). rewrite Lv in Cl.
  assert (K : exists texts l, oall (map (opr T (OUnder "Plus")) args) = Some texts /\ Forall2 (term_read T) texts l /\
                map (fun x => unparen (summand nf x)) l = map as_read args).
  { clear -Wa Sn. induction Wa as [|e args We Wa IH]; [exists [], []; repeat split; constructor|].
    destruct (term_good T nf e Sn We) as (t & x & E & R & Q), IH as (ts & l & E' & R' & Q').
    exists (t :: ts), (x :: l). cbn [map oall]. rewrite E, E'. cbn [oall option_map]. split; [reflexivity|]. split; [now constructor|]. cbn [map]. now rewrite Q, Q'. }
  destruct K as (texts & l & E & F & Q).
  exists (t0 ++ flat_map plus_term texts). split.
  { unfold op_form. destruct args as [|e1 args]; [congruence|].
    change (opr T OTop (EExpr (sys "Plus" :: e0 :: e1 :: args))) with
      (option_map (fun ts => oparens (oneeds T "Plus" OTop) (plus_text ts)) (oall (map (opr T (OUnder "Plus")) (e0 :: e1 :: args)))).
    change (map (opr T (OUnder "Plus")) (e0 :: e1 :: args)) with (opr T (OUnder "Plus") e0 :: map (opr T (OUnder "Plus")) (e1 :: args)).
    cbn [oall]. rewrite E0, E. reflexivity. }
  assert (R : op_reads T nf (t0 ++ flat_map plus_term texts) (EExpr (sys "Plus" :: e0 :: map as_read args))).
  { assert (P : Rd T (QExpr 0) ((t0 ++ flat_map plus_term texts) ++ []) (fold_left plus_step l a0, [])).
    { rewrite <- app_assoc. apply Cl; [lia| |].
      - destruct F as [|t x ts l' H F]; [|cbn [flat_map app]].
        + split; exact Logic.I.
        + unfold term_read in H. destruct (fst x).
          * destruct H as (k & -> & _). cbn [plus_term app]. split; [cbn [stops]; lia|exact Logic.I].
          * destruct H as ((c & r & -> & N) & _). destruct c; cbn [plus_term app]; try (split; [cbn [stops]; lia|exact Logic.I]); congruence.
      - apply (sum_read T Sn texts l F); [lia|split; exact Logic.I|]. apply Rd_stop. exact Logic.I. }
    rewrite app_nil_r in P. destruct P as [n P]. exists n, (fold_left plus_step l a0). split; [exact P|].
    destruct args as [|e1 args]; [congruence|]. destruct l as [|x l]; [discriminate Q|]. cbn [fold_left].
    rewrite (plus_grow_all nf l _ [conv nf a0; summand nf x]) by (apply plus_starts; exact N1).
    rewrite unparen_expr by (intros X; discriminate X). cbn [map app] in *. rewrite U. do 3 f_equal.
    rewrite map_map. exact Q. }
  intros e'. split; [intros R'; exact (op_reads_fun T nf _ e' _ R' R)|intros ->; exact R].
Qed.
Print Assumptions C102_sum_signs_partial.

(* -x stands for Times[-1, x] and is read as Times[x, -1] *)
Theorem C102_negation_partial : forall T nf e, sane T -> closed e -> unsplit e -> (forall z, e <> EInt z) ->
  exists ts, op_form T (EExpr [sys "Times"; EInt (-1); e]) = Some (KMinus :: ts) /\
    (forall e', op_reads T nf ts e' <-> e' = e) /\
    forall e', op_reads T nf (KMinus :: ts) e' <-> e' = EExpr [sys "Times"; e; EInt (-1)].
Proof.
  intros T nf e Sn C Us NI.
  destruct (level_arith T "Times") as (Cc & _); [cbn; tauto|].
  destruct (proj2 (writable_good T nf Sn (Datatypes.S (ex_size e)) e (Nat.lt_succ_diag_r _)) C (OUnder "Times") Cc) as ([ts a] & E & U & P & _).
  cbn [fst snd] in *. exists ts. split; [|split].
  - unfold op_form.
    change (opr T OTop (EExpr [sys "Times"; EInt (-1); e])) with
      (if existsb splits [EInt (-1); e] then None else
       option_map (fun ts => drop_neg_one (oparens (oneeds T "Times" OTop) (ojoined [KOp "Times"] ts))) (oall (map (opr T (OUnder "Times")) [EInt (-1); e]))).
    change (existsb splits [EInt (-1); e]) with (splits e || false). rewrite (unsplit_false e Us). cbn [orb].
    change (map (opr T (OUnder "Times")) [EInt (-1); e]) with [Some [KMinus; KInt 1]; opr T (OUnder "Times") e]. rewrite E. reflexivity.
  - destruct (claim_whole T 0 ts a [] (ptext_claim T 0 ts a P) Logic.I) as [n R]. rewrite app_nil_r in R.
    assert (R0 : op_reads T nf ts e) by (exists n, a; split; [exact R|exact U]).
    intros e'. split; [intros R'; exact (op_reads_fun T nf _ e' _ R' R0)|intros ->; exact R0].
  - assert (R0 : op_reads T nf (KMinus :: ts) (EExpr [sys "Times"; e; EInt (-1)])).
    { assert (Q : Rd T (QExpr (uminus T)) (ts ++ []) (a, [])).
      { apply (ptext_claim T (uminus T) ts a P); [lia|split; exact Logic.I|]. apply Rd_stop. exact Logic.I. }
      rewrite app_nil_r in Q.
      assert (Q' : Rd T (QExpr 0) (KMinus :: ts) (PNeg a, [])).
      { apply (Rd_expr T 0 _ (PNeg a) []); [|apply Rd_stop; exact Logic.I]. destruct Q as [n Q]. exists (Datatypes.S n). cbn [ord]. now rewrite Q. }
      destruct Q' as [n Q']. exists n, (PNeg a). split; [exact Q'|]. cbn [conv].
      assert (V : unparen (EExpr [sys "Times"; conv nf a; EInt (-1)]) = EExpr [sys "Times"; e; EInt (-1)]).
      { rewrite unparen_expr by (intros X; discriminate X). cbn [map]. rewrite U. reflexivity. }
      destruct (conv nf a) as [s|s|z|n0 d|f|a1 a2|l] eqn:A; try exact V; clear V.
      - exfalso. apply (NI z). rewrite <- U. reflexivity.
      - exfalso. revert C. rewrite <- U. clear. intros C. change (unparen (EFlt f)) with (EFlt f) in C. inversion C as [| | |? B| | | | |]. subst. inversion B. }
    intros e'. split; [intros R'; exact (op_reads_fun T nf _ e' _ R' R0)|intros ->; exact R0].
Qed.
Print Assumptions C102_negation_partial.
Example C102_signs_ex : Forall writable [g "x"; EInt (-3); g "y"] /\ ~ neg_int (g "x") /\ ~ absorbed "Plus" (g "x") /\ closed (g "x") /\ unsplit (g "x") /\
  option_map (fun ts => String.concat "" (map chars ts)) (op_form T0 (op2 "Plus" [g "x"; EInt (-3); g "y"])) = Some "x-3 + y"%string /\
  option_map (fun ts => String.concat "" (map chars ts)) (op_form T0 (op2 "Times" [EInt (-1); g "x"])) = Some "-x"%string.
Proof.
  assert (P : forall n, In n ["x"; "y"]%string -> closed (g n)) by (intros n [<-|[<-|[]]]; apply g_sym; cbn; tauto).
  split; [|split; [|split; [|split; [|split; [|split]]]]].
  - apply Forall_cons; [apply w_closed, P; cbn; tauto|]. apply Forall_cons; [apply w_int|].
    apply Forall_cons; [apply w_closed, P; cbn; tauto|constructor].
  - intros (z & Q & _). discriminate Q.
  - intros (h & l & Q & _). discriminate Q.
  - apply P. cbn. tauto.
  - split; intros; discriminate.
  - vm_compute. reflexivity.
  - vm_compute. reflexivity.
Qed.

(* ---- what is not read back ---- *)
Definition misread (T : table) (e e' : ex) : Prop := e <> e' /\ exists ts, op_form T e = Some ts /\ forall nf, op_reads T nf ts e'.
(* And[And[x], y] is printed as And[x] && y, which is And[x, y]; likewise for the
   other repeatable operators *)
Theorem C102_absorbed_refuted : forall T, misread T (op2 "And" [op2 "And" [g "x"]; g "y"]) (op2 "And" [g "x"; g "y"]) /\
  misread T (op2 "Plus" [op2 "Plus" [g "x"]; g "y"]) (op2 "Plus" [g "x"; g "y"]) /\
  misread T (op2 "Equal" [op2 "Less" [g "x"]; g "y"]) (EExpr [sys "Inequality"; g "x"; sys "Equal"; g "y"]).
Proof.
  intros T. split; [|split]; (split; [discriminate|]); eexists; (split; [reflexivity|]); intros nf; exists 20; eexists; (split; reflexivity).
Qed.
Print Assumptions C102_absorbed_refuted.
(* Part[a == b, 1] is printed as a == b[[1]] *)
Theorem C102_part_refuted : forall T, misread T (EExpr [sys "Part"; op2 "Equal" [g "a"; g "b"]; EInt 1]) (op2 "Equal" [g "a"; EExpr [sys "Part"; g "b"; EInt 1]]).
Proof. intros T. split; [discriminate|]; eexists; (split; [reflexivity|]); intros nf; exists 20; eexists. split; [cbn; destruct (right T "Equal"); reflexivity|]. reflexivity. Qed.
Print Assumptions C102_part_refuted.
(* a compound head: (a && b)[x] is printed as a && b[x] *)
Theorem C102_head_refuted : forall T, misread T (EExpr [op2 "And" [g "a"; g "b"]; g "x"]) (op2 "And" [g "a"; EExpr [g "b"; g "x"]]).
Proof. intros T. split; [discriminate|]; eexists; (split; [reflexivity|]); intros nf; exists 20; eexists. split; [cbn; destruct (right T "And"); reflexivity|]. reflexivity. Qed.
Print Assumptions C102_head_refuted.
(* a named pattern is not put in parentheses: Equal[x : Alternatives[a, b], c] *)
Theorem C102_pattern_refuted : misread T0
  (op2 "Equal" [EExpr [sys "Pattern"; g "x"; op2 "Alternatives" [g "a"; g "b"]]; g "c"])
  (EExpr [sys "Pattern"; g "x"; op2 "Equal" [op2 "Alternatives" [g "a"; g "b"]; g "c"]]).
Proof.
  split; [discriminate|]; eexists. split; [vm_compute; reflexivity|]. intros nf; exists 20; eexists. split; [vm_compute; reflexivity|]. reflexivity.
Qed.
Print Assumptions C102_pattern_refuted.
(* an unevaluated power with three arguments: a^b^c *)
Theorem C102_power_refuted : misread T0 (op2 "Power" [g "a"; g "b"; g "c"]) (op2 "Power" [g "a"; op2 "Power" [g "b"; g "c"]]).
Proof.
  split; [discriminate|]; eexists. split; [vm_compute; reflexivity|]. intros nf; exists 20; eexists. split; [vm_compute; reflexivity|]. reflexivity.
Qed.
Print Assumptions C102_power_refuted.
(* if == and != had different precedences, x != y == z would be read as one
   comparison of three: the assumption on tables is needed *)
Theorem C102_eq_alike_refuted : forall T, tprec T "Equal" < tprec T "Unequal" -> right T "Unequal" = false -> right T "Equal" = false ->
  misread T (op2 "Equal" [op2 "Unequal" [g "x"; g "y"]; g "z"]) (EExpr [sys "Inequality"; g "x"; sys "Unequal"; g "y"; sys "Equal"; g "z"]).
Proof.
  intros T L R1 R2. split; [discriminate|]. apply Nat.ltb_lt in L as Lb.
  exists [KName "Global`x"; KOp "Unequal"; KName "Global`y"; KOp "Equal"; KName "Global`z"]%string. split.
  { unfold op_form. cbn -[Nat.ltb]. change (2 <? 2) with false. cbn -[Nat.ltb]. rewrite Lb. reflexivity. }
  intros nf. enough (Q : Rd T (QExpr 0) [KName "Global`x"; KOp "Unequal"; KName "Global`y"; KOp "Equal"; KName "Global`z"]%string
    (PAssoc "Equal" (PAssoc "Unequal" (PIdent "Global`x") (PIdent "Global`y")) (PIdent "Global`z"), [])).
  { destruct Q as [n Q]. exists n. eexists. split; [exact Q|]. reflexivity. }
  eapply Rd_expr; [apply (name_ptext T "Global`x"); apply Rd_post; exact Logic.I|].
  eapply (Rd_op T 0 _ "Unequal"); [lia| |].
  { rewrite R1. eapply Rd_expr; [apply (name_ptext T "Global`y"); apply Rd_post; exact Logic.I|]. apply Rd_stop. cbn [stops]. lia. }
  change (build "Unequal" (PIdent "Global`x") (PIdent "Global`y")) with (PAssoc "Unequal" (PIdent "Global`x") (PIdent "Global`y")).
  eapply (Rd_op T 0 _ "Equal"); [lia| |].
  { rewrite R2. eapply Rd_expr; [apply (name_ptext T "Global`z" []); apply Rd_post; exact Logic.I|]. apply Rd_stop. exact Logic.I. }
  apply Rd_stop. exact Logic.I.
Qed.
Print Assumptions C102_eq_alike_refuted.
