(* Proofs about mapping at levels. *)
From Verif Require Import M_Syntax M_Float M_Hash M_Compare M_Match M_Functional S_Functional.
Open Scope Z_scope.

Section Kids.
  Context {A : Type}.
  Variable cb : ex -> list Z -> A -> ex * A.
  Variable sel : nat -> ex -> bool.

  Fixpoint kids (path : list Z) (e : ex) (s : A) {struct e} : ex * A :=
    match e with
    | EExpr (h :: args) =>
        let '(l, s') :=
          (fix go (i : Z) (args : list ex) (s : A) : list ex * A :=
             match args with
             | [] => ([], s)
             | x :: t =>
                 let p := path ++ [i] in
                 let '(x1, s1) := kids p x s in
                 let '(x2, s2) := if sel (length p) x then cb x1 p s1 else (x1, s1) in
                 let '(t', s3) := go (i + 1) t s2 in
                 (x2 :: t', s3)
             end) 1 args s in
        (EExpr (h :: l), s')
    | _ => (e, s)
    end.
  Definition node (path : list Z) (e : ex) (s : A) : ex * A :=
    let '(e1, s1) := kids path e s in if sel (length path) e then cb e1 path s1 else (e1, s1).

  Lemma len_snoc (p : list Z) i : length (p ++ [i]) = S (length p).
  Proof. rewrite app_length. cbn. lia. Qed.

  Lemma kids_none e : forall path s,
    (forall l x, (length path < l)%nat -> sel l x = false) -> kids path e s = (e, s).
  Proof.
    induction e as [s0|s0|z|n d|f|a1 a2 IH1 IH2|l IH] using ex_ind'; intros path s Hs; try reflexivity.
    destruct l as [|h args]; [reflexivity|]. cbn [kids]. inversion IH as [|? ? _ IHa]; subst. clear IH.
    match goal with |- context [?go 1 args s] => set (G := go) end.
    assert (HG : forall i s, G i args s = (args, s)).
    { induction IHa as [|x t Hx Ht IHt]; intros i s1; [reflexivity|].
      cbn. rewrite Hx. 2:{ intros l y Hl. rewrite len_snoc in Hl. apply Hs. lia. }
      rewrite Hs by (rewrite len_snoc; lia).
      rewrite IHt. reflexivity. }
    rewrite HG. reflexivity.
  Qed.

  Variable sp : lspec.

  Lemma walk_kids e : forall path s,
    (forall l x, (length path < l)%nat -> Z.of_nat l <= ls_max sp -> sel l x = (ls_min sp <=? Z.of_nat l)) ->
    (forall l x, ls_max sp < Z.of_nat l -> sel l x = false) ->
    Z.of_nat (length path) < ls_max sp ->
    walk cb sp path e s = kids path e s.
  Proof.
    induction e as [s0|s0|z|n d|f|a1 a2 IH1 IH2|l IH] using ex_ind'; intros path s H1 H2 H3; try reflexivity.
    destruct l as [|h args]; [reflexivity|]. cbn [kids walk]. inversion IH as [|? ? _ IHa]; subst. clear IH.
    match goal with |- (let '(_, _) := ?go 1 args s in _) = (let '(_, _) := ?go' 1 args s in _) => set (G := go); set (G' := go') end.
    assert (HG : forall i s, G i args s = G' i args s).
    { induction IHa as [|x t Hx Ht IHt]; intros i s1; [reflexivity|].
      cbn -[Z.of_nat].
      assert (E : (match x with EExpr _ => if Z.of_nat (length (path ++ [i])) <? ls_max sp then walk cb sp (path ++ [i]) x s1 else (x, s1) | _ => (x, s1) end)
                  = kids (path ++ [i]) x s1).
      { destruct x; try reflexivity.
        destruct (Z.of_nat (length (path ++ [i])) <? ls_max sp) eqn:EL.
        - apply Hx; [|assumption|apply Z.ltb_lt; exact EL].
          intros l y Hl. apply H1. rewrite len_snoc in Hl. lia.
        - rewrite kids_none; [reflexivity|]. intros l y Hl. apply H2. apply Z.ltb_ge in EL. lia. }
      rewrite E. destruct (kids (path ++ [i]) x s1) as [x1 s2].
      rewrite (H1 (length (path ++ [i]))) by (rewrite len_snoc; lia).
      destruct (if ls_min sp <=? _ then _ else _) as [x2 s3]. rewrite IHt. reflexivity. }
    rewrite HG. reflexivity.
  Qed.

  Lemma walk_none e s : ls_max sp <= 0 -> 1 < ls_min sp -> walk cb sp [] e s = (e, s).
  Proof.
    intros Hm Hi. destruct e as [| | | | | |[|h args]]; try reflexivity. cbn [walk].
    match goal with |- (let '(_, _) := ?go 1 args s in _) = _ => set (G := go) end.
    assert (HG : forall i s, G i args s = (args, s)).
    { induction args as [|x t IHt]; intros i s1; [reflexivity|].
      cbn -[Z.of_nat]. cbn [app length]. replace (ls_min sp <=? Z.of_nat 1) with false by (symmetry; apply Z.leb_gt; lia).
      replace (Z.of_nat 1 <? ls_max sp) with false by (symmetry; apply Z.ltb_ge; lia).
      destruct x; rewrite IHt; reflexivity. }
    rewrite HG. reflexivity.
  Qed.

  Lemma walk_back_kids e : forall path s,
    (forall l x, (1 <= l)%nat -> is_expr x = true -> (depth x <= depth e)%nat -> (l + depth x <= length path + depth e)%nat ->
       sel l x = check_level sp (Z.of_nat l) && check_depth sp (Z.of_nat (depth x))) ->
    (forall l x, (1 <= l)%nat -> is_expr x = false -> (l + depth x <= length path + depth e)%nat ->
       sel l x = check_level sp (Z.of_nat l + 1) && check_depth sp 1) ->
    walk_back cb sp path e s = (let '(e1, s1) := kids path e s in (e1, Z.of_nat (depth e), s1)).
  Proof.
    induction e as [s0|s0|z|n d|f|a1 a2 IH1 IH2|l IH] using ex_ind'; intros path s H1 H2; try reflexivity.
    destruct l as [|h args]; [reflexivity|]. cbn [kids walk_back depth]. inversion IH as [|? ? _ IHa]; subst. clear IH.
    set (FR := fold_right (fun x m => Nat.max (depth x) m) 1%nat).
    assert (HFR : forall x l, In x l -> (depth x <= FR l)%nat).
    { intros x l0. induction l0 as [|y t IHl]; [intros []|]. intros [->|Hin]; cbn; [lia|]. specialize (IHl Hin). lia. }
    assert (HFR1 : forall l, (1 <= FR l)%nat) by (induction l; cbn; lia).
    assert (Hb : forall x, In x args -> (depth x <= FR args)%nat) by (intros; apply HFR; assumption).
    assert (HD : depth (EExpr (h :: args)) = S (FR args)) by reflexivity. rewrite HD in H1, H2. clear HD.
    match goal with |- match ?go 1 args 1 s with _ => _ end = match match ?go' 1 args s with _ => _ end with _ => _ end =>
      set (G := go); set (G' := go') end.
    assert (HG : forall as' i d s0, Forall (fun e => forall path s,
        (forall l x, (1 <= l)%nat -> is_expr x = true -> (depth x <= depth e)%nat -> (l + depth x <= length path + depth e)%nat ->
          sel l x = check_level sp (Z.of_nat l) && check_depth sp (Z.of_nat (depth x))) ->
        (forall l x, (1 <= l)%nat -> is_expr x = false -> (l + depth x <= length path + depth e)%nat ->
          sel l x = check_level sp (Z.of_nat l + 1) && check_depth sp 1) ->
        walk_back cb sp path e s = (let '(e1, s1) := kids path e s in (e1, Z.of_nat (depth e), s1))) as' ->
      (forall x, In x as' -> (depth x <= FR args)%nat) -> (1 <= d)%nat ->
      G i as' (Z.of_nat d) s0 = let '(l, s') := G' i as' s0 in (l, Z.of_nat (Nat.max d (FR as')), s')).
    { induction as' as [|x t IHt]; intros i d s0 HF Hin Hd.
      - cbn. repeat f_equal. lia.
      - inversion HF as [|? ? Hx HF']; subst. cbn -[Z.of_nat Nat.max Z.max].
        assert (Hdx : (depth x <= FR args)%nat) by (apply Hin; left; reflexivity).
        assert (E : (match x with
                     | EExpr _ => let '(x1, dx, s1) := walk_back cb sp (path ++ [i]) x s0 in
                         if check_level sp (Z.of_nat (length (path ++ [i]))) && check_depth sp dx
                         then let '(x2, s2) := cb x1 (path ++ [i]) s1 in (x2, Z.max (Z.of_nat d) dx, s2)
                         else (x1, Z.max (Z.of_nat d) dx, s1)
                     | _ => if check_level sp (Z.of_nat (length (path ++ [i])) + 1) && check_depth sp 1
                         then let '(x2, s2) := cb x (path ++ [i]) s0 in (x2, Z.of_nat d, s2) else (x, Z.of_nat d, s0)
                     end) = let '(x1, s1) := kids (path ++ [i]) x s0 in
                            let '(x2, s2) := if sel (length (path ++ [i])) x then cb x1 (path ++ [i]) s1 else (x1, s1) in
                            (x2, Z.of_nat (Nat.max d (depth x)), s2)).
        { destruct (is_expr x) eqn:Ex.
          - destruct x as [| | | | | |lx]; try discriminate Ex.
            rewrite Hx.
            2:{ intros l y Hl Hy Hdy Hs. apply H1; try assumption; rewrite ?len_snoc in *; lia. }
            2:{ intros l y Hl Hy Hs. apply H2; try assumption; rewrite ?len_snoc in *; lia. }
            rewrite (H1 (length (path ++ [i]))) by (rewrite ?len_snoc; try reflexivity; lia).
            destruct (kids (path ++ [i]) (EExpr lx) s0) as [x1 s1].
            rewrite <- Nat2Z.inj_max. destruct (_ && _); [|reflexivity].
            destruct (cb x1 (path ++ [i]) s1) as [x2 s2]. reflexivity.
          - rewrite (H2 (length (path ++ [i]))) by (rewrite ?len_snoc; try assumption; lia).
            replace (Nat.max d (depth x)) with d by (destruct x; try discriminate Ex; cbn [depth]; lia).
            destruct x as [| | | | | |lx]; try discriminate Ex; cbn [kids]; (destruct (_ && _); [|reflexivity]);
            match goal with |- context [cb ?a ?b ?c] => destruct (cb a b c) end; reflexivity. }
        rewrite E. clear E. destruct (kids (path ++ [i]) x s0) as [x1 s1].
        destruct (if sel _ x then _ else _) as [x2 s2].
        rewrite IHt; [|assumption|intros; apply Hin; right; assumption|lia].
        destruct (G' (i + 1) t s2) as [t' s3]. do 3 f_equal. change (FR (x :: t)) with (Nat.max (depth x) (FR t)). lia. }
    change 1 with (Z.of_nat 1) at 2.
    rewrite (HG args 1 1%nat s IHa Hb (le_n 1)).
    destruct (G' 1 args s) as [l s']. repeat f_equal.
    specialize (HFR1 args). unfold FR in *. lia.
  Qed.
End Kids.

(* a callback without effect *)
Lemma node_pure (sel : nat -> ex -> bool) (g : ex -> list Z -> ex) e : forall path,
  node (fun x p (s : unit) => (g x p, s)) sel path e tt = (map_at sel g path e, tt).
Proof.
  unfold node.
  induction e as [s0|s0|z|n d|f|a1 a2 IH1 IH2|l IH] using ex_ind'; intros path;
    try (cbn [kids map_at]; destruct (sel _ _); reflexivity).
  destruct l as [|h args]; [cbn [kids map_at]; destruct (sel _ _); reflexivity|].
  cbn [kids map_at]. inversion IH as [|? ? _ IHa]; subst. clear IH.
  match goal with |- context [match ?go 1 args tt with _ => _ end] => set (G := go) end.
  match goal with |- context [EExpr (h :: ?go 1 args)] => set (G' := go) end.
  assert (HG : forall i, G i args tt = (G' i args, tt)).
  { induction IHa as [|x t Hx Ht IHt]; intros i; [reflexivity|].
    cbn. specialize (Hx (path ++ [i])).
    destruct (kids _ sel (path ++ [i]) x tt) as [x1 []].
    rewrite Hx. rewrite IHt. reflexivity. }
  rewrite HG. destruct (sel _ _); reflexivity.
Qed.

Definition picked (sel : nat -> ex -> bool) (test : ex -> bool) (q : nat * ex) : bool :=
  sel (fst q) (snd q) && test (snd q).

(* a counting callback *)
Lemma node_count (sel : nat -> ex -> bool) (test : ex -> bool) e : forall path s,
  node (fun x p n => (x, if test x then n + 1 else n)) sel path e s
  = (e, s + Z.of_nat (length (filter (picked sel test) (subexprs (length path) e)))).
Proof.
  assert (N : forall path e s, kids (fun x p n => (x, if test x then n + 1 else n)) sel path e s
     = (e, s + Z.of_nat (length (filter (picked sel test) (tl (subexprs (length path) e))))) ->
     node (fun x p n => (x, if test x then n + 1 else n)) sel path e s
     = (e, s + Z.of_nat (length (filter (picked sel test) (subexprs (length path) e))))).
  { intros path e0 s H. unfold node. rewrite H.
    assert (E : subexprs (length path) e0 = (length path, e0) :: tl (subexprs (length path) e0)) by (destruct e0; reflexivity).
    set (r := tl (subexprs (length path) e0)) in *. rewrite E. cbn [filter]. unfold picked at 2 4. cbn [fst snd].
    destruct (sel (length path) e0); cbn [andb]; [|reflexivity].
    destruct (test e0); [|reflexivity]. f_equal. cbn [length]. lia. }
  induction e as [s0|s0|z|n d|f|a1 a2 IH1 IH2|l IH] using ex_ind'; intros path s; apply N;
    try (cbn; f_equal; lia).
  destruct l as [|h args]; [cbn; f_equal; lia|].
  cbn [kids subexprs tl]. inversion IH as [|? ? _ IHa]; subst. clear IH.
  match goal with |- context [match ?go 1 args s with _ => _ end] => set (G := go) end.
  assert (HG : forall i s, G i args s = (args, s + Z.of_nat (length (filter (picked sel test) (flat_map (subexprs (S (length path))) args))))).
  { induction IHa as [|x t Hx Ht IHt]; intros i s1; [cbn; f_equal; lia|].
    cbn -[Z.of_nat]. specialize (Hx (path ++ [i]) s1). unfold node in Hx.
    destruct (kids _ sel (path ++ [i]) x s1) as [x1 s2].
    rewrite Hx. rewrite IHt. f_equal. rewrite len_snoc, filter_app, app_length. lia. }
  rewrite HG. reflexivity.
Qed.

(* ---------------------------------------------------- parsing of levels *)
Definition sym64 (b : bound) : Z := match b with Lv z => z | PInf => lvl_inf | NInf => lvl_ninf end.
Definition lspec_of (u : level_spec) : lspec :=
  match u with
  | Upto (Lv z) => if z <? 0 then LS false true 1 (- z) else LS false false 1 z
  | Upto PInf => LS false false 1 lvl_inf
  | Upto NInf => LS false true 1 lvl_inf
  | Exactly (Lv z) => if z <? 0 then LS true true (- z) (- z) else LS false false z z
  | Exactly PInf => LS false false lvl_inf lvl_inf
  | Exactly NInf => LS true true lvl_inf lvl_inf
  | Between a b => LS (sym64 a <? 0) (sym64 b <? 0) (Z.abs (sym64 a)) (Z.abs (sym64 b))
  end.

Lemma wrap64_id z : - 2 ^ 63 <= z < 2 ^ 63 -> wrap64 z = z.
Proof. intros H. unfold wrap64. rewrite Z.mod_small; lia. Qed.
Lemma neg64_id z : - 2 ^ 63 < z < 2 ^ 63 -> neg64 z = - z.
Proof. intros H. unfold neg64. apply wrap64_id. lia. Qed.
Lemma level_bound_ok b : bound_ok b -> level_bound (bound_ex b) = Some (sym64 b).
Proof.
  destruct b as [z| |]; intros H; [|vm_compute; reflexivity|vm_compute; reflexivity].
  unfold level_bound, bound_ex, parse_neg_infinity, parse_infinity, parse_integer. cbn in H.
  rewrite wrap64_id by lia. reflexivity.
Qed.
Lemma parse_ok u : spec_ok u -> parse_level_spec (level_ex u) = Some (lspec_of u).
Proof.
  intros [H1 H2]. destruct u as [b|b|a b].
  - destruct b as [z| |]; [|vm_compute; reflexivity|vm_compute; reflexivity].
    cbn [low high bound_ok] in *. unfold parse_level_spec, level_ex, bound_ex, parse_integer, lspec_of.
    rewrite wrap64_id, neg64_id by lia. destruct (z <? 0); reflexivity.
  - destruct b as [z| |]; [|vm_compute; reflexivity|vm_compute; reflexivity].
    cbn [low high bound_ok] in *. unfold parse_level_spec, level_ex, bound_ex, parse_integer, lspec_of.
    change (args_of (EExpr [ESym "System`List"; EInt z]) nList) with (Some [EInt z]).
    change (parse_infinity (EExpr [ESym "System`List"; EInt z])) with false.
    change (parse_neg_infinity (EExpr [ESym "System`List"; EInt z])) with false. cbv iota.
    rewrite wrap64_id, neg64_id by lia. destruct (z <? 0); reflexivity.
  - cbn [low high] in *. unfold parse_level_spec, level_ex.
    change (parse_integer (EExpr [ESym "System`List"; bound_ex a; bound_ex b])) with (@None Z).
    change (parse_infinity (EExpr [ESym "System`List"; bound_ex a; bound_ex b])) with false.
    replace (parse_neg_infinity (EExpr [ESym "System`List"; bound_ex a; bound_ex b])) with false
      by (unfold parse_neg_infinity; reflexivity).
    change (args_of (EExpr [ESym "System`List"; bound_ex a; bound_ex b]) nList) with (Some [bound_ex a; bound_ex b]).
    cbv iota. rewrite !level_bound_ok by assumption. unfold lspec_of. do 2 f_equal.
    + assert (B : - 2 ^ 63 < sym64 a < 2 ^ 63) by (destruct a; cbn in *; lia).
      destruct (sym64 a <? 0) eqn:E; [rewrite neg64_id by assumption|]; lia.
    + assert (B : - 2 ^ 63 < sym64 b < 2 ^ 63) by (destruct b; cbn in *; lia).
      destruct (sym64 b <? 0) eqn:E; [rewrite neg64_id by assumption|]; lia.
Qed.

(* the bounds of lspec_of, uniformly *)
Lemma lspec_min_level u : by_level (low u) -> ls_mind (lspec_of u) = false /\
  match low u with Lv z => ls_min (lspec_of u) = z | _ => ls_min (lspec_of u) = lvl_inf end.
Proof.
  destruct u as [[z| |]|[z| |]|[z| |] b]; cbn [low by_level]; try tauto; intros H; unfold lspec_of; cbn [low].
  all: try (destruct (z <? 0) eqn:E; [try lia|]; cbn; auto; fail).
  all: try (split; reflexivity).
  split; [cbn; lia|cbn; lia].
Qed.
Lemma lspec_min_depth u : by_depth (low u) -> ls_mind (lspec_of u) = true /\
  match low u with Lv z => z < 0 /\ ls_min (lspec_of u) = - z | _ => lvl_inf <= ls_min (lspec_of u) end.
Proof.
  unfold by_depth. destruct u as [[z| |]|[z| |]|[z| |] b]; cbn [low by_level]; try tauto; intros H; unfold lspec_of; cbn [low]; try lia.
  all: try (destruct (z <? 0) eqn:E; [|lia]; cbn; repeat split; lia).
  all: cbn; repeat split; unfold lvl_inf, lvl_ninf; cbn; try lia.
Qed.
Lemma lspec_max_level u : by_level (high u) -> ls_maxd (lspec_of u) = false /\
  match high u with Lv z => ls_max (lspec_of u) = z | _ => ls_max (lspec_of u) = lvl_inf end.
Proof.
  destruct u as [[z| |]|[z| |]|a [z| |]]; cbn [high by_level]; try tauto; intros H; unfold lspec_of; cbn [high].
  all: try (destruct (z <? 0) eqn:E; [try lia|]; cbn; auto; fail).
  all: try (split; reflexivity).
  split; [cbn; lia|cbn; lia].
Qed.
Lemma lspec_max_depth u : by_depth (high u) -> ls_maxd (lspec_of u) = true /\
  match high u with Lv z => z < 0 /\ ls_max (lspec_of u) = - z | _ => lvl_inf <= ls_max (lspec_of u) end.
Proof.
  unfold by_depth. destruct u as [[z| |]|[z| |]|a [z| |]]; cbn [high by_level]; try tauto; intros H; unfold lspec_of; cbn [high]; try lia.
  all: try (destruct (z <? 0) eqn:E; [|lia]; cbn; repeat split; lia).
  all: cbn; repeat split; unfold lvl_inf, lvl_ninf; cbn; try lia.
Qed.
Lemma by_level_dec b : by_level b \/ by_depth b.
Proof. unfold by_depth. destruct b as [z| |]; cbn; try tauto. lia. Qed.

Lemma depth_pos e : (1 <= depth e)%nat.
Proof. destruct e as [| | | | | |[|h t]]; cbn; lia. Qed.
Lemma subexprs_depth e : forall l k x, In (k, x) (subexprs l e) -> (l <= k /\ k + depth x <= l + depth e)%nat.
Proof.
  induction e as [s0|s0|z|n d|f|a1 a2 IH1 IH2|l IH] using ex_ind'; intros l0 k x H;
    try (destruct H as [H|[]]; injection H; intros; subst; cbn; lia).
  destruct l as [|h args]; [destruct H as [H|[]]; injection H; intros; subst; cbn; lia|].
  cbn [subexprs] in H. destruct H as [H|H]; [injection H; intros; subst; lia|].
  apply in_flat_map in H. destruct H as [y [Hy Hin]].
  inversion IH as [|? ? _ IHa]; subst. rewrite Forall_forall in IHa.
  specialize (IHa y Hy (S l0) k x Hin).
  assert (Hd : (depth y < depth (EExpr (h :: args)))%nat).
  { cbn [depth]. clear -Hy. induction args as [|z t IHt]; [destruct Hy|]. cbn. destruct Hy as [->|Hy]; [lia|]. specialize (IHt Hy). lia. }
  lia.
Qed.

Lemma arg_depth h args y : In y args -> (S (depth y) <= depth (EExpr (h :: args)))%nat.
Proof.
  intros Hy. cbn [depth]. induction args as [|z t IHt]; [destruct Hy|]. cbn. destruct Hy as [->|Hy]; [lia|]. specialize (IHt Hy). lia.
Qed.

Lemma kids_ext {A} (cb : ex -> list Z -> A -> ex * A) sel sel' e : forall path s,
  (forall l x, (length path < l)%nat -> (l + depth x <= length path + depth e)%nat -> sel l x = sel' l x) ->
  kids cb sel path e s = kids cb sel' path e s.
Proof.
  induction e as [s0|s0|z|n d|f|a1 a2 IH1 IH2|l IH] using ex_ind'; intros path s H; try reflexivity.
  destruct l as [|h args]; [reflexivity|]. cbn [kids].
  inversion IH as [|? ? _ IHa]; subst. clear IH.
  assert (Hb : forall y, In y args -> (S (depth y) <= depth (EExpr (h :: args)))%nat) by (intros; apply arg_depth; assumption).
  set (D := depth (EExpr (h :: args))) in *. clearbody D.
  match goal with |- match ?go 1 args s with _ => _ end = match ?go' 1 args s with _ => _ end => set (G := go); set (G' := go') end.
  assert (HG : forall i s, G i args s = G' i args s).
  { induction IHa as [|x t Hx Ht IHt]; intros i s1; [reflexivity|].
    cbn. assert (Dx : (S (depth x) <= D)%nat) by (apply Hb; left; reflexivity).
    rewrite Hx. 2:{ intros l y Hl Hd. rewrite len_snoc in *. apply H; lia. }
    rewrite (H (length (path ++ [i])) x) by (rewrite len_snoc; lia).
    destruct (kids cb sel' (path ++ [i]) x s1) as [x1 s2]. destruct (if sel' _ x then _ else _) as [x2 s3].
    rewrite IHt; [reflexivity|]. intros; apply Hb; right; assumption. }
  rewrite HG. reflexivity.
Qed.

Lemma fst_node {A} (cb : ex -> list Z -> A -> ex * A) sel e s (b : bool) r :
  kids cb sel [] e s = r -> sel 0%nat e = b ->
  node cb sel [] e s = (let '(e1, s1) := r in if b then cb e1 [] s1 else (e1, s1)).
Proof. intros H1 H2. unfold node. rewrite H1. destruct r. cbn [length]. rewrite H2. reflexivity. Qed.

Lemma shallow_bound e : shallow e -> Z.of_nat (depth e) < lvl_inf.
Proof. intros H. exact H. Qed.

Lemma sel_level u l x e : by_level (low u) -> by_level (high u) -> shallow e -> (l + depth x <= depth e)%nat ->
  selected u l x = (ls_min (lspec_of u) <=? Z.of_nat l) && (Z.of_nat l <=? ls_max (lspec_of u)).
Proof.
  intros Hl Hh Hs Hd. apply shallow_bound in Hs. pose proof (depth_pos x).
  destruct (lspec_min_level u Hl) as [_ Hm]. destruct (lspec_max_level u Hh) as [_ HM].
  unfold selected. f_equal.
  - destruct (low u) as [z| |]; cbn [above]; [rewrite Hm|rewrite Hm|destruct Hl].
    + cbn in Hl. replace (z <? 0) with false by (symmetry; apply Z.ltb_ge; lia). reflexivity.
    + symmetry. apply Z.leb_gt. lia.
  - destruct (high u) as [z| |]; cbn [below]; [rewrite HM|rewrite HM|destruct Hh].
    + cbn in Hh. replace (z <? 0) with false by (symmetry; apply Z.ltb_ge; lia). reflexivity.
    + symmetry. apply Z.leb_le. lia.
Qed.

Lemma level_apply_exact {A} (cb : ex -> list Z -> A -> ex * A) u e s :
  spec_ok u -> shallow e -> exact u e ->
  level_apply cb (lspec_of u) e s = node cb (selected u) [] e s.
Proof.
  intros Hok Hs Hex. destruct Hex as [[Hl [Hh Hn]]|[He Hex]].
  - (* levels only *)
    destruct (lspec_min_level u Hl) as [Em Hm]. destruct (lspec_max_level u Hh) as [EM HM].
    set (sp := lspec_of u) in *.
    assert (Sel : forall l x, (l + depth x <= depth e)%nat -> selected u l x = (ls_min sp <=? Z.of_nat l) && (Z.of_nat l <=? ls_max sp))
      by (intros; apply (sel_level u l x e); assumption).
    assert (S0 : selected u 0 e = (ls_min sp <=? 0) && (0 <=? ls_max sp)) by (apply (Sel 0%nat e); lia).
    assert (Min0 : 0 <= ls_min sp).
    { destruct (low u); cbn in Hl; [lia|rewrite Hm; unfold lvl_inf; lia|tauto]. }
    assert (Max0 : 0 <= ls_max sp).
    { destruct (high u); cbn in Hh; [lia|rewrite HM; unfold lvl_inf; lia|tauto]. }
    destruct (is_expr e) eqn:Ee.
    + destruct e as [| | | | | |parts]; try discriminate Ee. unfold level_apply. rewrite Em, EM. cbn [negb andb].
      set (e := EExpr parts) in *.
      destruct ((ls_min sp =? 0) && (ls_max sp =? 0)) eqn:E0.
      * apply andb_prop in E0. destruct E0 as [E1 E2]. apply Z.eqb_eq in E1, E2.
        assert (K : kids cb (selected u) [] e s = (e, s)).
        { rewrite (kids_ext cb (selected u) (fun _ _ => false)).
          - apply kids_none. reflexivity.
          - cbn [length]. intros l x H1 H2. rewrite Sel by lia. rewrite E2. apply andb_false_intro2. apply Z.leb_gt. lia. }
        rewrite (fst_node cb (selected u) e s true (e, s) K); [reflexivity|]. rewrite S0, E1, E2. reflexivity.
      * assert (K : walk cb sp [] e s = kids cb (selected u) [] e s).
        { destruct (Z.eq_dec (ls_max sp) 0) as [Z0|Z0].
          - assert (1 < ls_min sp).
            { destruct (Z.eq_dec (ls_min sp) 0) as [Y|Y]; [rewrite Y, Z0 in E0; discriminate E0|].
              destruct (Z.eq_dec (ls_min sp) 1) as [Y1|Y1]; [|lia]. exfalso. apply Hn. split.
              - destruct (low u); [congruence|rewrite Hm in Y1; discriminate Y1|destruct Hl].
              - destruct (high u); [congruence|rewrite HM in Z0; discriminate Z0|destruct Hh]. }
            rewrite walk_none by lia. symmetry.
            rewrite (kids_ext cb (selected u) (fun _ _ => false)).
            + apply kids_none. reflexivity.
            + cbn [length]. intros l x H1 H2. rewrite Sel by lia. apply andb_false_intro2. apply Z.leb_gt. lia.
          - rewrite (kids_ext cb (selected u) (fun l x => (ls_min sp <=? Z.of_nat l) && (Z.of_nat l <=? ls_max sp))).
            2:{ cbn [length]. intros l x H1 H2. apply Sel. lia. }
            apply walk_kids.
            + intros l x _ H. replace (Z.of_nat l <=? ls_max sp) with true by (symmetry; apply Z.leb_le; lia). apply andb_true_r.
            + intros l x H. apply andb_false_intro2. apply Z.leb_gt. lia.
            + cbn. lia. }
        rewrite K. unfold node. destruct (kids cb (selected u) [] e s) as [e1 s1].
        cbn [length]. rewrite S0. unfold check_level, check_depth. rewrite Em, EM. rewrite andb_true_r. reflexivity.
    + assert (L : level_apply cb sp e s = if check_level sp 0 && check_depth sp 0 then cb e [] s else (e, s))
        by (destruct e; try discriminate Ee; reflexivity).
      rewrite L. unfold node. replace (kids cb (selected u) [] e s) with (e, s) by (destruct e; try discriminate Ee; reflexivity).
      cbn [length]. rewrite S0. unfold check_level, check_depth. rewrite Em, EM, andb_true_r. reflexivity.
  - (* at least one depth *)
    set (sp := lspec_of u) in *.
    assert (D : negb (ls_mind sp) && negb (ls_maxd sp) = false /\ (ls_min sp =? 0) && (ls_max sp =? 0) = false).
    { destruct (by_level_dec (low u)) as [Hl|Hl], (by_level_dec (high u)) as [Hh|Hh]; unfold by_depth in Hex; try tauto.
      - destruct (lspec_max_depth u Hh) as [EM HM]. fold sp in EM, HM. rewrite EM, andb_false_r. split; [reflexivity|].
        apply andb_false_intro2. apply Z.eqb_neq. unfold lvl_inf in *. destruct (high u); [lia|lia|lia].
      - destruct (lspec_min_depth u Hl) as [EM HM]. fold sp in EM, HM. rewrite EM. split; [reflexivity|].
        apply andb_false_intro1. apply Z.eqb_neq. unfold lvl_inf in *. destruct (low u); [lia|lia|lia].
      - destruct (lspec_min_depth u Hl) as [EM HM]. fold sp in EM, HM. rewrite EM. split; [reflexivity|].
        apply andb_false_intro1. apply Z.eqb_neq. unfold lvl_inf in *. destruct (low u); [lia|lia|lia]. }
    destruct D as [D1 D2].
    apply shallow_bound in Hs.
    assert (Comp : forall l x, (l + depth x <= depth e)%nat -> selected u l x = check_level sp (Z.of_nat l) && check_depth sp (Z.of_nat (depth x))).
    { intros l x Hd. pose proof (depth_pos x). unfold selected, check_level, check_depth.
      destruct (by_level_dec (low u)) as [Hl|Hl], (by_level_dec (high u)) as [Hh|Hh]; try (unfold by_depth in Hex; tauto).
      - destruct (lspec_min_level u Hl) as [Em Hm]. destruct (lspec_max_depth u Hh) as [EM HM]. fold sp in Em, EM, Hm, HM. rewrite Em, EM.
        f_equal.
        + destruct (low u) as [z| |]; cbn [above]; [rewrite Hm|rewrite Hm|destruct Hl].
          * cbn in Hl. replace (z <? 0) with false by (symmetry; apply Z.ltb_ge; lia). reflexivity.
          * symmetry. apply Z.leb_gt. lia.
        + destruct (high u) as [z| |]; cbn [below].
          * destruct HM as [Hz HM]. rewrite HM. replace (z <? 0) with true by (symmetry; apply Z.ltb_lt; lia). reflexivity.
          * exfalso. apply Hh. exact Logic.I.
          * symmetry. apply Z.leb_gt. lia.
      - destruct (lspec_min_depth u Hl) as [Em Hm]. destruct (lspec_max_level u Hh) as [EM HM]. fold sp in Em, EM, Hm, HM. rewrite Em, EM.
        rewrite andb_comm. f_equal.
        + destruct (high u) as [z| |]; cbn [below]; [rewrite HM|rewrite HM|destruct Hh].
          * cbn in Hh. replace (z <? 0) with false by (symmetry; apply Z.ltb_ge; lia). reflexivity.
          * symmetry. apply Z.leb_le. lia.
        + destruct (low u) as [z| |]; cbn [above].
          * destruct Hm as [Hz HM']. rewrite HM'. replace (z <? 0) with true by (symmetry; apply Z.ltb_lt; lia). reflexivity.
          * exfalso. apply Hl. exact Logic.I.
          * symmetry. apply Z.leb_le. lia.
      - destruct (lspec_min_depth u Hl) as [Em Hm]. destruct (lspec_max_depth u Hh) as [EM HM]. fold sp in Em, EM, Hm, HM. rewrite Em, EM.
        cbn [andb]. f_equal.
        + destruct (low u) as [z| |]; cbn [above].
          * destruct Hm as [Hz HM']. rewrite HM'. replace (z <? 0) with true by (symmetry; apply Z.ltb_lt; lia). reflexivity.
          * exfalso. apply Hl. exact Logic.I.
          * symmetry. apply Z.leb_le. lia.
        + destruct (high u) as [z| |]; cbn [below].
          * destruct HM as [Hz HM']. rewrite HM'. replace (z <? 0) with true by (symmetry; apply Z.ltb_lt; lia). reflexivity.
          * exfalso. apply Hh. exact Logic.I.
          * symmetry. apply Z.leb_gt. lia. }
    assert (Atom : forall l x, (1 <= l)%nat -> is_expr x = false -> (l + depth x <= depth e)%nat ->
              selected u l x = check_level sp (Z.of_nat l + 1) && check_depth sp 1).
    { intros l x Hl1 Hx Hd. rewrite (Comp l x Hd).
      assert (Dx : depth x = 1%nat) by (destruct x; try discriminate Hx; reflexivity). rewrite Dx in *.
      change (Z.of_nat 1) with 1. unfold check_level, check_depth.
      destruct (by_level_dec (low u)) as [Hl|Hl], (by_level_dec (high u)) as [Hh|Hh]; try (unfold by_depth in Hex; tauto).
      - destruct (lspec_min_level u Hl) as [Em Hm]. destruct (lspec_max_depth u Hh) as [EM HM]. fold sp in Em, EM, Hm, HM. rewrite Em, EM.
        destruct Hex as [[Q _]|[[_ [_ Hex]]|[Q _]]]; try (unfold by_depth in Q; tauto).
        destruct Hex as [Q|[Q|[Q|Q]]].
        + rewrite Q in Hm. f_equal. rewrite Hm. destruct (0 <=? Z.of_nat l) eqn:E1, (0 <=? Z.of_nat l + 1) eqn:E2; lia.
        + rewrite Q in Hm. f_equal. rewrite Hm. destruct (1 <=? Z.of_nat l) eqn:E1, (1 <=? Z.of_nat l + 1) eqn:E2; lia.
        + rewrite Q in Hm. f_equal. rewrite Hm. destruct (lvl_inf <=? Z.of_nat l) eqn:E1, (lvl_inf <=? Z.of_nat l + 1) eqn:E2; lia.
        + replace (ls_max sp <=? 1) with false; [rewrite !andb_false_r; reflexivity|].
          symmetry. apply Z.leb_gt. destruct (high u) as [z| |].
          * assert (z <> -1) by congruence. lia.
          * exfalso. apply Hh. exact Logic.I.
          * unfold lvl_inf in *. lia.
      - destruct (lspec_min_depth u Hl) as [Em Hm]. destruct (lspec_max_level u Hh) as [EM HM]. fold sp in Em, EM, Hm, HM. rewrite Em, EM.
        destruct Hex as [[_ Q]|[[Q _]|[_ [_ Hex]]]]; try (unfold by_depth in *; tauto).
        destruct Hex as [Q|Q]; rewrite Q in HM; rewrite HM; f_equal.
        + destruct (Z.of_nat l <=? 0) eqn:E1, (Z.of_nat l + 1 <=? 0) eqn:E2; lia.
        + destruct (Z.of_nat l <=? lvl_inf) eqn:E1, (Z.of_nat l + 1 <=? lvl_inf) eqn:E2; lia.
      - destruct (lspec_min_depth u Hl) as [Em Hm]. destruct (lspec_max_depth u Hh) as [EM HM]. fold sp in Em, EM, Hm, HM. rewrite Em, EM.
        reflexivity. }
    destruct e as [| | | | | |parts]; try discriminate He. unfold level_apply. rewrite D1, D2.
    set (e := EExpr parts) in *.
    rewrite (walk_back_kids cb (selected u) sp e [] s).
    + unfold node. destruct (kids cb (selected u) [] e s) as [e1 s1]. cbn [length].
      rewrite (Comp 0%nat e) by lia. reflexivity.
    + cbn [length]. intros. apply Comp. lia.
    + cbn [length]. intros. apply Atom; try assumption; lia.
Qed.
