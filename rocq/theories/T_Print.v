(* C54 FullForm text. *)
From Verif Require Import M_Syntax M_Parse M_Print S_Matrix S_Parse S_Print P_Parse P_Print.
Open Scope nat_scope.

(* Expressions built from symbols that print as names, integers, strings
   without quotes and nonempty compound expressions, without form wrappers,
   are determined by their FullForm text, if different symbols in them have
   different short names.  Missing: rationals, reals, complex numbers; strings
   with quotes, form wrappers and clashing short names are refuted below. *)
Theorem C54_fullform_partial : forall ftext ctext oform ctx path e1 e2,
  printable ctx path e1 -> printable ctx path e2 -> distinct_names ctx path e1 e2 ->
  fullform ftext ctext oform ctx path e1 = fullform ftext ctext oform ctx path e2 -> e1 = e2.
Proof. exact fullform_inj. Qed.
Print Assumptions C54_fullform_partial.

(* the contexts after start-up, $Context and $ContextPath (evalstate.go 97-106, 275-276) *)
Definition pctx : string := "Global`".
Definition ppath : list string := ["System`"; "Global`"]%string.
Definition show := fullform (fun _ => "1."%string) (fun _ => "1."%string) (fun _ _ => "?"%string) pctx ppath.

Definition demo1 : ex := EExpr [sys "List"; EExpr [ESym "Global`f"; EInt (-12); EStr "a, b"]; ESym "Global`x"].
Example demo1_text : show demo1 = "List[f[-12, ""a, b""], x]"%string.
Proof. vm_compute. reflexivity. Qed.
Example demo1_printable : printable pctx ppath demo1.
Proof.
  apply pr_expr; [apply pr_sym; cbn; split; [reflexivity|intuition discriminate]| |intros; discriminate].
  intros x [<-|[<-|[]]]; [|apply pr_sym; cbn; split; [reflexivity|intuition discriminate]].
  apply pr_expr; [apply pr_sym; cbn; split; [reflexivity|intuition discriminate]| |intros; discriminate].
  intros x [<-|[<-|[]]]; constructor. reflexivity.
Qed.
Example demo1_names : distinct_names pctx ppath demo1 demo1.
Proof.
  assert (G : forall n, mentions n demo1 -> In n ["System`List"; "Global`f"; "Global`x"]%string).
  { intros n M. inversion M as [|l x I0 M0]; subst. cbn [In] in I0. destruct I0 as [<-|[<-|[<-|[]]]].
    - inversion M0; subst. cbn; auto.
    - inversion M0 as [|l x I1 M1]; subst. cbn [In] in I1. destruct I1 as [<-|[<-|[<-|[]]]]; inversion M1; subst. cbn; auto.
    - inversion M0; subst. cbn; auto. }
  intros n m N M E. apply G in N. apply G in M. cbn [In] in N, M.
  destruct N as [<-|[<-|[<-|[]]]], M as [<-|[<-|[<-|[]]]]; try reflexivity; discriminate.
Qed.

(* Rationals, and complex numbers with integer parts, print as the calls
   Rational[n, d] and Complex[a, b]; so the theorem above also covers expressions
   with such numbers in them: sign, numerator and denominator can be read off. *)
Lemma as_calls_not_form w x : forall l, map as_calls l = [ESym w; x] -> exists y, l = [ESym w; y] /\ x = as_calls y.
Proof.
  intros l E. destruct l as [|a [|b [|c l]]]; try discriminate E. cbn [map] in E. injection E as E1 E2. exists b.
  split; [|now symmetry]. destruct a as [s|s|z|n d|f|a1 a2|l]; try discriminate E1.
  - cbn in E1. now injection E1 as ->.
  - destruct a1, a2; discriminate E1.
Qed.
Theorem C54_number_text : forall ftext ctext oform ctx path e,
  sym_text ctx path (sysname "Rational") = "Rational"%string ->
  sym_text ctx path (sysname "Complex") = "Complex"%string ->
  printable ctx path (as_calls e) ->
  fullform ftext ctext oform ctx path (as_calls e) = fullform ftext ctext oform ctx path e.
Proof.
  intros ftext ctext oform ctx path e R C. induction e as [s|s|z|n d|f|a1 a2 IH1 IH2|l IH] using ex_ind'; intros P; try reflexivity.
  - cbn [as_calls fullform map join]. unfold sys. cbn [fullform]. rewrite R. cbn [append]. rewrite !app_assoc_s. reflexivity.
  - destruct a1 as [s|s|z|n d|f|b1 b2|l]; try reflexivity. destruct a2 as [s|s|z'|n d|f|b1 b2|l]; try reflexivity.
    cbn [as_calls fullform map join component_text]. unfold sys. cbn [fullform]. rewrite C. cbn [append]. rewrite !app_assoc_s. reflexivity.
  - cbn [as_calls] in *. rewrite Forall_forall in IH.
    inversion P as [ | | |h args Ph Pa W E]. destruct l as [|h0 l0]; [discriminate E|]. cbn [map] in E. injection E as -> ->.
    assert (Ih : fullform ftext ctext oform ctx path (as_calls h0) = fullform ftext ctext oform ctx path h0) by (apply IH; [now left|exact Ph]).
    assert (Ia : map (fullform ftext ctext oform ctx path) (map as_calls l0) = map (fullform ftext ctext oform ctx path) l0).
    { rewrite map_map. apply map_ext_in. intros x I0. apply IH; [now right|]. apply Pa. now apply in_map. }
    assert (D : forall q, (forall w x, q = [ESym w; x] -> ~ In w forms) -> forall h t, q = h :: t ->
      fullform ftext ctext oform ctx path (EExpr q) = append (fullform ftext ctext oform ctx path h)
        (append "[" (append (join (map (fullform ftext ctext oform ctx path) t)) "]"))).
    { intros q Nq k t ->. cbn [fullform]. destruct k as [w|s|z|n d|f|a1 a2|l]; try reflexivity.
      destruct t as [|x [|y t]]; try reflexivity. destruct (existsb (String.eqb w) forms) eqn:X; [|reflexivity].
      exfalso. apply existsb_exists in X. destruct X as (u & I0 & X). apply String.eqb_eq in X. subst u. now apply (Nq w x eq_refl). }
    cbn [map]. rewrite (D (as_calls h0 :: map as_calls l0)) with (h := as_calls h0) (t := map as_calls l0); [|intros w x Q|reflexivity].
    + rewrite (D (h0 :: l0)) with (h := h0) (t := l0); [now rewrite Ih, Ia| |reflexivity].
      intros w x Q. injection Q as -> ->. apply (W w (as_calls x)); reflexivity.
    + injection Q as Q1 Q2. exact (W w x Q1 Q2).
Qed.
Print Assumptions C54_number_text.

Lemma as_calls_inj e1 : forall e2, no_number_calls e1 -> no_number_calls e2 -> as_calls e1 = as_calls e2 -> e1 = e2.
Proof.
  assert (H : forall l t, map as_calls l = sys "Rational" :: t -> exists t', l = sys "Rational" :: t').
  { intros [|a l] t E; [discriminate E|]. cbn [map] in E. injection E as E _.
    destruct a as [s|s|z|n d|f|a1 a2|q]; try discriminate E; [|destruct a1, a2; discriminate E]. cbn in E. rewrite <- E. now exists l. }
  assert (H' : forall l t, map as_calls l = sys "Complex" :: t -> exists t', l = sys "Complex" :: t').
  { intros [|a l] t E; [discriminate E|]. cbn [map] in E. injection E as E _.
    destruct a as [s|s|z|n d|f|a1 a2|q]; try discriminate E; [|destruct a1, a2; discriminate E]. cbn in E. rewrite <- E. now exists l. }
  induction e1 as [s|s|z|n d|f|a1 a2 IH1 IH2|l IH] using ex_ind'; intros e2 N1 N2 E.
  - destruct e2 as [s2|s2|z2|n2 d2|f2|b1 b2|l2]; cbn [as_calls] in E; try discriminate E; [exact E|destruct b1, b2; discriminate E].
  - destruct e2 as [s2|s2|z2|n2 d2|f2|b1 b2|l2]; cbn [as_calls] in E; try discriminate E; [exact E|destruct b1, b2; discriminate E].
  - destruct e2 as [s2|s2|z2|n2 d2|f2|b1 b2|l2]; cbn [as_calls] in E; try discriminate E; [exact E|destruct b1, b2; discriminate E].
  - destruct e2 as [s2|s2|z2|n2 d2|f2|b1 b2|l2]; cbn [as_calls] in E; try discriminate E.
    + now injection E as -> ->.
    + destruct b1, b2; discriminate E.
    + injection E as E. symmetry in E. destruct (H _ _ E) as (t' & ->). inversion N2 as [? A|? ? R C]; [now destruct (A (sys "Rational" :: t'))|]. now destruct (R t').
  - destruct e2 as [s2|s2|z2|n2 d2|f2|b1 b2|l2]; cbn [as_calls] in E; try discriminate E; [exact E|destruct b1, b2; discriminate E].
  - assert (K : (exists u v, a1 = EInt u /\ a2 = EInt v) \/ as_calls (ECplx a1 a2) = ECplx a1 a2).
    { destruct a1; try (now right). destruct a2; try (now right). left. eauto. }
    destruct K as [(u & v & -> & ->)|K].
    + destruct e2 as [s2|s2|z2|n2 d2|f2|b1 b2|l2]; cbn [as_calls] in E; try discriminate E.
      * destruct b1; try discriminate E. destruct b2; try discriminate E. now injection E as -> ->.
      * injection E as E. symmetry in E. destruct (H' _ _ E) as (t' & ->). inversion N2 as [? A|? ? R C]; [now destruct (A (sys "Complex" :: t'))|]. now destruct (C t').
    + rewrite K in E. destruct e2 as [s2|s2|z2|n2 d2|f2|b1 b2|l2]; cbn [as_calls] in E; try discriminate E.
      destruct b1; try exact E; destruct b2; try exact E; discriminate E.
  - cbn [as_calls] in E. inversion N1 as [? A|? A R C]; [now destruct (A l)|]. subst.
    destruct e2 as [s2|s2|z2|n2 d2|f2|b1 b2|l2]; cbn [as_calls] in E; try discriminate E.
    + injection E as E. destruct (H _ _ E) as (t' & ->). now destruct (R t').
    + destruct b1; try discriminate E. destruct b2; try discriminate E. injection E as E. destruct (H' _ _ E) as (t' & ->). now destruct (C t').
    + injection E as E. f_equal. inversion N2 as [? B|? B R2 C2]; [now destruct (B l2)|]. subst. clear H H' R C R2 C2 N1 N2.
      rewrite Forall_forall in IH. revert l2 B E. induction l as [|x l IHl]; intros [|y l2] B E; try discriminate E; [reflexivity|].
      cbn [map] in E. injection E as E1 E2. f_equal.
      * apply IH; [now left|apply A; now left|apply B; now left|exact E1].
      * apply IHl; [intros k I0; apply IH; now right|intros k I0; apply A; now right|intros k I0; apply B; now right|exact E2].
Qed.
Theorem C54_fullform_numbers_partial : forall ftext ctext oform ctx path e1 e2,
  sym_text ctx path (sysname "Rational") = "Rational"%string ->
  sym_text ctx path (sysname "Complex") = "Complex"%string ->
  printable ctx path (as_calls e1) -> printable ctx path (as_calls e2) ->
  distinct_names ctx path (as_calls e1) (as_calls e2) ->
  no_number_calls e1 -> no_number_calls e2 ->
  fullform ftext ctext oform ctx path e1 = fullform ftext ctext oform ctx path e2 -> e1 = e2.
Proof.
  intros ftext ctext oform ctx path e1 e2 R C P1 P2 D N1 N2 E. apply as_calls_inj; [exact N1|exact N2|].
  apply (C54_fullform_partial ftext ctext oform ctx path); [exact P1|exact P2|exact D|].
  rewrite !C54_number_text by assumption. exact E.
Qed.
Print Assumptions C54_fullform_numbers_partial.
Definition demo2 : ex := EExpr [sys "List"; ERat (-3) 4; ECplx (EInt 0) (EInt (-1)); ESym "Global`x"].
Example C54_numbers_ex : show demo2 = "List[Rational[-3, 4], Complex[0, -1], x]"%string /\
  printable pctx ppath (as_calls demo2) /\ distinct_names pctx ppath (as_calls demo2) (as_calls demo2) /\ no_number_calls demo2.
Proof.
  assert (S0 : forall n, In n [sysname "List"; sysname "Rational"; sysname "Complex"; "Global`x"%string] -> printable pctx ppath (ESym n)).
  { intros n I0. apply pr_sym. cbn [In] in I0. repeat destruct I0 as [<-|I0]; [..|destruct I0]; cbn; (split; [reflexivity|intuition discriminate]). }
  split; [vm_compute; reflexivity|]. split; [|split].
  - cbn [as_calls demo2 map]. apply pr_expr; [apply S0; cbn; tauto| |intros; discriminate].
    intros x [<-|[<-|[<-|[]]]].
    + apply pr_expr; [apply S0; cbn; tauto| |intros; discriminate]. intros y [<-|[<-|[]]]; constructor.
    + apply pr_expr; [apply S0; cbn; tauto| |intros; discriminate]. intros y [<-|[<-|[]]]; constructor.
    + apply S0; cbn; tauto.
  - intros n m M1 M2.
    assert (S0' : forall k x, mentions k (ESym x) -> k = x) by (intros k x M; inversion M; reflexivity).
    assert (P0 : forall k l, mentions k (EExpr l) -> exists x, In x l /\ mentions k x) by (intros k l M; inversion M; eauto).
    assert (I0' : forall k z, ~ mentions k (EInt z)) by (intros k z M; inversion M).
    assert (G : forall k, mentions k (as_calls demo2) -> In k [sysname "List"; sysname "Rational"; sysname "Complex"; "Global`x"%string]).
    { intros k M. cbn [as_calls demo2 map] in M.
      apply P0 in M. destruct M as (x & J & M'). cbn [In] in J.
      destruct J as [<-|[<-|[<-|[<-|[]]]]].
      - rewrite (S0' _ _ M'). now left.
      - apply P0 in M'. destruct M' as (y & J & N). cbn [In] in J. destruct J as [<-|[<-|[<-|[]]]].
        + rewrite (S0' _ _ N). right. now left.
        + now apply I0' in N.
        + now apply I0' in N.
      - apply P0 in M'. destruct M' as (y & J & N). cbn [In] in J. destruct J as [<-|[<-|[<-|[]]]].
        + rewrite (S0' _ _ N). right. right. now left.
        + now apply I0' in N.
        + now apply I0' in N.
      - rewrite (S0' _ _ M'). right. right. right. now left. }
    apply G in M1, M2. cbn [In] in M1, M2.
    destruct M1 as [<-|[<-|[<-|[<-|[]]]]]; destruct M2 as [<-|[<-|[<-|[<-|[]]]]]; intros E; try reflexivity; vm_compute in E; discriminate E.
  - apply nn_expr; [|intros t E; discriminate E|intros t E; discriminate E].
    intros x [<-|[<-|[<-|[<-|[]]]]]; apply nn_atom; intros; discriminate.
Qed.

(* A symbol that is known is printed so that its text denotes it, unless a name
   on the context path shadows it. *)
Theorem C54_symbol_roundtrip : forall ctx path known s t, context_name ctx -> Forall context_name path ->
  In s known -> qualified s -> t = sym_text ctx path s ->
  (qualified t -> t = s) -> (forall c, In c path -> In (append c t) known -> append c t = s) ->
  names_symbol ctx path known t s.
Proof.
  intros ctx path known s t Hc Hp K Q -> QT SH.
  assert (D : forall c n, String.prefix c n = true -> n = append c (drop c n)).
  { induction c as [|a c IH]; intros n; [reflexivity|]. destruct n as [|b n]; cbn [String.prefix drop append]; [discriminate|].
    destruct (ascii_dec a b) as [->|]; [|discriminate]. intros H. f_equal. now apply IH. }
  assert (H : (exists c, In c (ctx :: path) /\ s = append c (sym_text ctx path s)) \/ sym_text ctx path s = s).
  { destruct s as [|a s]; [destruct Q as (x & y & E); destruct x; discriminate|]. unfold sym_text.
    destruct (String.prefix ctx (String a s)) eqn:P1.
    - left. exists ctx. split; [now left|now apply D].
    - clear -D. induction path as [|c path IH]; [right; reflexivity|]. cbn [path_text].
      destruct (String.prefix c (String a s)) eqn:P2.
      + left. exists c. split; [right; now left|now apply D].
      + destruct IH as [(c' & [<-|I0] & E)|E]; [left..|now right]; [exists ctx; split; [now left|exact E]|].
        exists c'. split; [right; now right|exact E]. }
  set (t := sym_text ctx path s) in *.
  assert (QD : qualified t \/ ~ qualified t).
  { destruct (has_tick t) eqn:E; [left; now apply has_tick_spec|right; now apply has_tick_false]. }
  destruct QD as [QD|QD]; [rewrite <- (QT QD); now constructor|].
  assert (N : forall l, (exists pre c post, l = pre ++ c :: post /\ In (append c t) known /\ (forall c', In c' pre -> ~ In (append c' t) known))
              \/ (forall c, In c l -> ~ In (append c t) known)).
  { clear. intros l. induction l as [|c l IH]; [right; intros c []|].
    destruct (in_dec string_dec (append c t) known) as [I0|N0].
    - left. exists [], c, l. repeat split; [exact I0|]. intros c' [].
    - destruct IH as [(pre & d & post & -> & I1 & N1)|N1].
      + left. exists (c :: pre), d, post. repeat split; [exact I1|]. intros c' [<-|I2]; [exact N0|now apply N1].
      + right. intros c' [<-|I2]; [exact N0|now apply N1]. }
  destruct (N path) as [(pre & c & post & Ep & Ic & Nc)|Np].
  - assert (Ec : append c t = s). { apply SH; [|exact Ic]. rewrite Ep. apply in_or_app. right. now left. }
    rewrite <- Ec. eapply ns_path; eauto.
  - destruct H as [(c & [<-|I0] & E)|E].
    + rewrite E. now apply ns_current.
    + exfalso. apply (Np c I0). now rewrite <- E.
    + exfalso. apply QD. rewrite E. exact Q.
Qed.
Print Assumptions C54_symbol_roundtrip.
Example roundtrip_nonvacuous :
  names_symbol pctx ppath ["System`Sin"; "Global`x"]%string "x" "Global`x" /\
  names_symbol pctx ppath ["System`Sin"; "Global`x"]%string "Sin" "System`Sin".
Proof.
  split.
  - apply C54_symbol_roundtrip; try (now cbn; auto).
    + now exists "Global"%string.
    + constructor; [now exists "System"%string|constructor; [now exists "Global"%string|constructor]].
    + now exists "Global"%string, "x"%string.
    + intros Q. apply has_tick_spec in Q. discriminate.
    + intros c [<-|[<-|[]]] [E|[E|[]]]; discriminate || reflexivity.
  - apply C54_symbol_roundtrip; try (now cbn; auto).
    + now exists "Global"%string.
    + constructor; [now exists "System"%string|constructor; [now exists "Global"%string|constructor]].
    + now exists "System"%string, "Sin"%string.
    + intros Q. apply has_tick_spec in Q. discriminate.
    + intros c [<-|[<-|[]]] [E|[E|[]]]; discriminate || reflexivity.
Qed.

(* A string is printed without escaping: two different lists have the same text. *)
Theorem C54_string_refuted : exists e1 e2, e1 <> e2 /\
  forall ftext ctext oform, fullform ftext ctext oform pctx ppath e1 = fullform ftext ctext oform pctx ppath e2.
Proof.
  exists (EExpr [sys "List"; EStr "a"; EStr "b"]), (EExpr [sys "List"; EStr "a"", ""b"]).
  split; [discriminate|]. intros. reflexivity.
Qed.
Print Assumptions C54_string_refuted.

(* Short names clash: Global`Sin and System`Sin have the same text, and the text
   of the first denotes the second. *)
Theorem C54_shadow_refuted : exists s1 s2 known, s1 <> s2 /\ In s1 known /\ In s2 known /\
  sym_text pctx ppath s1 = sym_text pctx ppath s2 /\
  names_symbol pctx ppath known (sym_text pctx ppath s1) s2.
Proof.
  exists "Global`Sin"%string, "System`Sin"%string, ["Global`Sin"; "System`Sin"]%string.
  split; [discriminate|]. split; [now left|]. split; [right; now left|]. split; [reflexivity|].
  change "System`Sin"%string with (append "System`" "Sin"). eapply (ns_path _ _ _ _ []).
  - intros Q. apply has_tick_spec in Q. discriminate.
  - reflexivity.
  - right. now left.
  - intros c' [].
Qed.
Print Assumptions C54_shadow_refuted.

(* FullForm[x] inside an expression disappears. *)
Theorem C54_wrapper_refuted : forall ftext ctext oform ctx path x,
  x <> EExpr [sys "FullForm"; x] /\
  fullform ftext ctext oform ctx path (EExpr [sys "FullForm"; x]) = fullform ftext ctext oform ctx path x.
Proof.
  intros. split; [|reflexivity]. intros E. apply (f_equal (fix sz e := match e with EExpr l => S (fold_right (fun y n => sz y + n) 0 l) | _ => 0 end)) in E.
  cbn [fold_right] in E. unfold sys in E. lia.
Qed.
Print Assumptions C54_wrapper_refuted.
