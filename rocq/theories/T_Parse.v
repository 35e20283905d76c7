(* C53 names and chains of infix operators, C56 infix arithmetic. *)
From Verif Require Import M_Syntax M_Parse S_Matrix P_Matrix T_Matrix S_Parse P_Parse.
Open Scope nat_scope.

(* ------------------------------------------------------------------ C53 *)
(* Only the symbols of the expression change; the i-th one is the symbol that
   its name denotes, given the symbols known before and those to its left; all
   of them are known afterwards. *)
Theorem C53_resolution : forall ctx path d e e' d', resolve ctx path d e = (e', d') ->
  shape e' = shape e /\
  length (symbols e') = length (symbols e) /\
  (forall i n, nth_error (symbols e) i = Some n ->
     exists r, nth_error (symbols e') i = Some r /\ names_symbol ctx path (d ++ firstn i (symbols e')) n r) /\
  (forall x, In x d' <-> In x d \/ In x (symbols e')).
Proof. intros ctx path d e e' d'. exact (resolve_spec ctx path e d e' d'). Qed.
Print Assumptions C53_resolution.

(* a name denotes exactly one symbol *)
Theorem C53_names_unique : forall ctx path known n r1 r2,
  names_symbol ctx path known n r1 -> names_symbol ctx path known n r2 -> r1 = r2.
Proof.
  intros ctx path known n r1 r2 H1 H2.
  assert (P : forall r, names_symbol ctx path known n r -> r = fst (resolve_sym ctx path known n)).
  { clear. intros r H. unfold resolve_sym. destruct H as [Q|pre c post Q -> I N|Q N].
    - rewrite (proj2 (has_tick_spec n) Q). reflexivity.
    - rewrite (proj2 (has_tick_false n) Q).
      assert (E : on_path (pre ++ c :: post) known n = Some (append c n)); [|now rewrite E].
      induction pre as [|c' pre IH]; cbn [app on_path].
      + now rewrite (proj2 (is_def_spec _ _) I).
      + rewrite (proj2 (is_def_false _ _) (N c' (or_introl eq_refl))). apply IH. intros c0 H0. apply N. now right.
    - rewrite (proj2 (has_tick_false n) Q). rewrite (proj2 (on_path_none _ _ _) N). reflexivity. }
  rewrite (P r1 H1), (P r2 H2). reflexivity.
Qed.
Print Assumptions C53_names_unique.

(* In an input without qualified names all occurrences of a name stand for the
   same symbol, the one the name denoted before the input was read. *)
Theorem C53_consistent : forall ctx path d e, context_name ctx -> Forall context_name path ->
  (forall n, In n (symbols e) -> ~ qualified n) ->
  exists f d', resolve ctx path d e = (rename f e, d') /\
    forall n, In n (symbols e) -> names_symbol ctx path d n (f n).
Proof.
  intros ctx path d e Hc Hp Q. destruct (resolve_grown ctx path d e Hc Hp Q d (grown_refl _ _ _)) as (d' & E & _).
  exists (lookup ctx path d), d'. split; [exact E|]. intros n Hn. unfold lookup.
  destruct (resolve_sym ctx path d n) as [r d1] eqn:S0. exact (proj1 (resolve_sym_spec _ _ _ _ _ _ S0)).
Qed.
Print Assumptions C53_consistent.

(* Reading the same input again gives the same expression, and an expression
   already read is not changed. *)
Theorem C53_reread : forall ctx path d e e' d', context_name ctx -> Forall context_name path ->
  (forall n, In n (symbols e) -> ~ qualified n) ->
  resolve ctx path d e = (e', d') ->
  (exists d'', resolve ctx path d' e = (e', d'')) /\ (exists d'', resolve ctx path d' e' = (e', d'')).
Proof.
  intros ctx path d e e' d' Hc Hp Q E.
  destruct (resolve_grown ctx path d e Hc Hp Q d (grown_refl _ _ _)) as (d1 & E1 & G).
  rewrite E in E1. injection E1 as -> ->. split.
  - destruct (resolve_grown ctx path d e Hc Hp Q d1 G) as (d2 & E2 & _). eauto.
  - apply resolve_qualified. intros n Hn. destruct (resolve_spec _ _ _ _ _ _ E) as (_ & L & N & _).
    apply In_nth_error in Hn. destruct Hn as (i & Hi).
    destruct (nth_error (symbols e) i) as [m|] eqn:Em.
    + destruct (N i m Em) as (r & Er & NS). rewrite Hi in Er. injection Er as <-.
      assert (T : forall c, context_name c -> qualified (append c m)).
      { intros c (a & ->). exists a, m. now rewrite app_assoc_s. }
      destruct NS as [Qm|pre c post Qm Ep _ _|Qm _]; [exact Qm| |exact (T ctx Hc)].
      apply T. rewrite Forall_forall in Hp. apply Hp. rewrite Ep. apply in_or_app. right. now left.
    + apply nth_error_None in Em. assert (i < length (symbols (rename (lookup ctx path d) e))) by (apply nth_error_Some; congruence). lia.
Qed.
Print Assumptions C53_reread.

(* Chains of one operator are flat.  The leftmost operand must not itself be
   written as op[...] (or, for comparisons, as a comparison). *)
Theorem C53_chain_partial : forall nf op a0 l, l <> [] ->
  ~ headed_by [sys op] (conv nf a0) ->
  (In op comparisons -> ~ headed_by comparison_heads (conv nf a0)) ->
  conv nf (chain a0 (map (fun a => (op, a)) l)) = EExpr (sys op :: conv nf a0 :: map (conv nf) l).
Proof. exact chain_same. Qed.
Print Assumptions C53_chain_partial.

(* Chains of comparisons: one comparison if all operators are the same,
   otherwise Inequality[a0, op1, a1, op2, a2, ...] *)
Theorem C53_comparisons_partial : forall nf a0 l, l <> [] ->
  (forall p, In p l -> In (fst p) comparisons) -> ~ headed_by comparison_heads (conv nf a0) ->
  ((forall p q, In p l -> In q l -> fst p = fst q) ->
     exists op, In op (map fst l) /\ conv nf (chain a0 l) = EExpr (sys op :: conv nf a0 :: map (fun p => conv nf (snd p)) l)) /\
  ((exists p q, In p l /\ In q l /\ fst p <> fst q) ->
     conv nf (chain a0 l) = EExpr (sys "Inequality" :: conv nf a0 :: flat_map (fun p => [sys (fst p); conv nf (snd p)]) l)).
Proof.
  intros nf a0 l NE HC NH. destruct (chain_mixed nf a0 l NE HC NH) as [(op & Ho & E)|[(p & q & Hp & Hq & N) E]].
  - split.
    + intros _. exists op. split; [|exact E]. destruct l as [|x t]; [congruence|]. left. apply Ho. now left.
    + intros (p & q & Hp & Hq & N). exfalso. apply N. rewrite (Ho p Hp), (Ho q Hq). reflexivity.
  - split; [|intros _; exact E]. intros A. exfalso. apply N. now apply A.
Qed.
Print Assumptions C53_comparisons_partial.

(* A parenthesised left operand always stays one operand, for every operator
   and every mixture of comparisons. *)
Theorem C53_parenthesised : forall nf op a l, l <> [] ->
  unparen (conv nf (chain (PParen a) (map (fun b => (op, b)) l))) =
  EExpr (sys op :: unparen (conv nf a) :: map (fun b => unparen (conv nf b)) l).
Proof.
  intros nf op a l NE. rewrite chain_same.
  - rewrite unparen_sys. cbn [map conv]. rewrite unparen_parens, map_map. reflexivity.
  - assumption.
  - intros (h & t & [<-|[]] & E). discriminate.
  - intros _ (h & t & Hh & E). cbn [conv] in E. injection E as <- <-. unfold comparison_heads in Hh.
    apply in_map_iff in Hh. destruct Hh as (o & X & _). discriminate.
Qed.
Print Assumptions C53_parenthesised.

(* the marker for parentheses never reaches the evaluator *)
Theorem C53_no_marker : forall nf p, (forall s, In s (idents p) -> s <> "Internal`Parens"%string) ->
  ~ In "Internal`Parens"%string (symbols (unparen (conv nf p))).
Proof. exact conv_np. Qed.
Print Assumptions C53_no_marker.

(* SameQ[a, b] === c is read as a === b === c, not as (a === b) === c *)
Theorem C53_chain_refuted : forall nf,
  let ab := PCall (PIdent "SameQ") [PIdent "a"; PIdent "b"] in
  let ab' := PCall (PIdent "System`SameQ") [PIdent "a"; PIdent "b"] in
  conv nf (PAssoc "SameQ" ab' (PIdent "c")) = EExpr [sys "SameQ"; ESym "a"; ESym "b"; ESym "c"] /\
  unparen (conv nf (PAssoc "SameQ" (PParen ab') (PIdent "c"))) = EExpr [sys "SameQ"; EExpr [sys "SameQ"; ESym "a"; ESym "b"]; ESym "c"].
Proof. intros nf. cbv zeta. vm_compute. split; reflexivity. Qed.
Print Assumptions C53_chain_refuted.

(* patterns: a_b, a__b, a___b with a and b possibly missing *)
Theorem C53_pattern : forall a b k, no_under a -> no_under b -> 1 <= k <= 3 -> ~ (k = 1 /\ b = "."%string) ->
  let blank := nth k [sNull; sys "Blank"; sys "BlankSequence"; sys "BlankNullSequence"] sNull in
  let bl := EExpr (blank :: if String.eqb b "" then [] else [ESym b]) in
  parse_pattern (append a (append (under k) b)) =
  if String.eqb a "" then bl else EExpr [sys "Pattern"; ESym a; bl].
Proof.
  intros a b k Ha Hb Hk Hd. cbv zeta. unfold parse_pattern. rewrite !(contains_skip _ a) by assumption.
  destruct k as [|[|[|[|k]]]]; try lia.
  - rewrite (contains_short 2 1), (contains_short 1 1) by (assumption || lia).
    rewrite (split_two 0) by assumption. cbn [append nth].
    destruct (String.eqb_spec a ""), (String.eqb_spec b ""); try reflexivity; cbn [Nat.eqb andb];
      (destruct (String.eqb_spec b "."); [exfalso; apply Hd; auto|reflexivity]).
  - rewrite (contains_short 2 2), (contains_run 1 2) by (assumption || lia).
    rewrite (split_two 1) by assumption. cbn [append nth]. destruct (String.eqb_spec a ""), (String.eqb_spec b ""); reflexivity.
  - rewrite (contains_run 2 3) by (assumption || lia).
    rewrite (split_two 2) by assumption. cbn [append nth]. destruct (String.eqb_spec a ""), (String.eqb_spec b ""); reflexivity.
Qed.
Print Assumptions C53_pattern.

(* ... and the optional forms _. and a_. *)
Theorem C53_pattern_optional : forall a, no_under a ->
  parse_pattern (append a "_.") =
  EExpr [sys "Optional"; if String.eqb a "" then EExpr [sys "Blank"] else EExpr [sys "Pattern"; ESym a; EExpr [sys "Blank"]]].
Proof.
  intros a Ha. assert (Hb : no_under ".").
  { intros [|c [|c' x]] y E; cbn in E; discriminate. }
  unfold parse_pattern. change "_."%string with (append (under 1) ".").
  rewrite !(contains_skip _ a), (contains_short 2 1), (contains_short 1 1) by (assumption || lia).
  rewrite (split_two 0) by assumption. cbn [append]. destruct (String.eqb_spec a ""); reflexivity.
Qed.
Print Assumptions C53_pattern_optional.

(* examples *)
Definition exn : flt -> flt := fun f => f.
Example C53_ex_names :
  resolve "Global`" ["Foo`"; "System`"]%string ["System`Plus"; "Foo`x"]%string
    (EExpr [ESym "Plus"; ESym "x"; ESym "y"; ESym "Bar`x"; ESym "y"])%string =
  (EExpr [ESym "System`Plus"; ESym "Foo`x"; ESym "Global`y"; ESym "Bar`x"; ESym "Global`y"],
   ["Bar`x"; "Global`y"; "System`Plus"; "Foo`x"])%string.
Proof. reflexivity. Qed.
Example C53_ex_contexts : context_name "Global`" /\ Forall context_name ["Foo`"; "System`"]%string /\
  (forall n, In n (symbols (EExpr [ESym "Plus"; ESym "x"; ESym "y"])%string) -> ~ qualified n).
Proof.
  split; [exists "Global"%string; reflexivity|]. split.
  - repeat constructor; [exists "Foo"%string|exists "System"%string]; reflexivity.
  - intros n Hn. apply has_tick_false. cbn in Hn. repeat (destruct Hn as [<-|Hn]; [reflexivity|]). destruct Hn.
Qed.
Example C53_ex_chain : (* a < b <= c < d *)
  conv exn (chain (PIdent "a") [("Less", PIdent "b"); ("LessEqual", PIdent "c"); ("Less", PIdent "d")])%string =
  EExpr [sys "Inequality"; ESym "a"; sys "Less"; ESym "b"; sys "LessEqual"; ESym "c"; sys "Less"; ESym "d"]%string.
Proof. reflexivity. Qed.
Example C53_ex_operand : ~ headed_by comparison_heads (conv exn (PIdent "a")) /\ ~ headed_by [sys "Plus"] (conv exn (PIdent "a")).
Proof. split; intros (h & t & _ & E); discriminate. Qed.
Example C53_ex_pattern : parse_pattern "x__Integer" = EExpr [sys "Pattern"; ESym "x"; EExpr [sys "BlankSequence"; ESym "Integer"]].
Proof. reflexivity. Qed.
Example C53_ex_no_under : no_under "Integer".
Proof. intros a b E. repeat (destruct a as [|? a]; cbn in E; [discriminate|]; injection E as _ E). destruct a; discriminate. Qed.

(* ------------------------------------------------------------------ C56 *)
(* Whatever a valuation gives to sums, products, reciprocals and negative
   literals, the expression read from infix arithmetic has the value of the
   arithmetic: the flattening of chains, the treatment of a - b, a / b and -a
   and the parentheses change nothing. *)
Theorem C56_infix_value : forall (R : semiring) (neg_flt : flt -> flt) (inv : R -> R) (v : ex -> R),
  sum_valuation v (sys "Plus") -> product_valuation v (sys "Times") ->
  (forall x, v (EExpr [sys "Power"; x; EInt (-1)]) = inv (v x)) ->
  (forall z, v (EInt (- z)) = smul (v (EInt z)) (v (EInt (-1)))) ->
  (forall f, v (EFlt (neg_flt f)) = smul (v (EFlt f)) (v (EInt (-1)))) ->
  forall p, v (unparen (conv neg_flt p)) = meaning neg_flt inv v p.
Proof. intros R nf inv v Vp Vt Vi Vz Vf p. exact (conv_meaning nf inv v Vp Vt Vi Vz Vf p). Qed.
Print Assumptions C56_infix_value.

(* a valuation that meets the hypotheses, and (2 - x) * 3 - 4 - 5 with x = 3 *)
Example C56_ex_valuation :
  sum_valuation zval (sys "Plus") /\ product_valuation zval (sys "Times") /\
  (forall x, zval (EExpr [sys "Power"; x; EInt (-1)]) = (fun _ : zsr => 5%Z) (zval x)) /\
  (forall z, zval (EInt (- z)) = smul (zval (EInt z)) (zval (EInt (-1)))) /\
  (forall f, zval (EFlt (exn f)) = smul (zval (EFlt f)) (zval (EInt (-1)))).
Proof.
  split; [exact zval_plus|]. split; [exact zval_times|]. split; [reflexivity|].
  split; [|reflexivity]. intros z. change (- z = z * (-1))%Z. lia.
Qed.
Definition ex_arith : past := PSub (PSub (PAssoc "Times" (PParen (PSub (PInt 2) (PIdent "x"))) (PInt 3)) (PInt 4)) (PNeg (PInt 5)).
Example C56_ex_value : zval (unparen (conv exn ex_arith)) = (-2)%Z /\
  unparen (conv exn ex_arith) = EExpr [sys "Plus";
    EExpr [sys "Times"; EExpr [sys "Plus"; EInt 2; EExpr [sys "Times"; ESym "x"; EInt (-1)]]; EInt 3];
    EExpr [sys "Times"; EInt 4; EInt (-1)]; EExpr [sys "Times"; EInt (-5); EInt (-1)]].
Proof. vm_compute. split; reflexivity. Qed.
