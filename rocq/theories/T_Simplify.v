(* Property theorems: Simplify's search (C128). *)
From Verif Require Import M_Syntax M_List M_Simplify.
From Coq Require Import List Lia.
Import ListNotations.
Open Scope Z_scope.

(* ---- specification ---- *)
(* the number of atoms, a negative integer counting for 2, a rational number
   for 3 (one more for a minus sign), a complex one for its parts and 1 *)
Inductive size : ex -> Z -> Prop :=
| Sz_sym s : size (ESym s) 1
| Sz_str s : size (EStr s) 1
| Sz_flt f : size (EFlt f) 1
| Sz_int z : 0 <= z -> size (EInt z) 1
| Sz_neg z : z < 0 -> size (EInt z) 2
| Sz_rat n d : 0 <= n -> 0 <= d -> size (ERat n d) 3
| Sz_rat_neg n d : n < 0 -> 0 <= d -> size (ERat n d) 4
| Sz_rat_den n d : 0 <= n -> d < 0 -> size (ERat n d) 4
| Sz_rat_both n d : n < 0 -> d < 0 -> size (ERat n d) 5
| Sz_cplx a b x y : size a x -> size b y -> size (ECplx a b) (x + y + 1)
| Sz_nil : size (EExpr []) 0
| Sz_cons a l x y : size a x -> size (EExpr l) y -> size (EExpr (a :: l)) (x + y).

(* an equivalence of expressions ("have the same value") that is respected by
   replacing arguments *)
Record same_value (R : ex -> ex -> Prop) : Prop := {
  sv_refl : forall a, R a a;
  sv_trans : forall a b c, R a b -> R b c -> R a c;
  sv_args : forall h l l', Forall2 R l l' -> R (EExpr (h :: l)) (EExpr (h :: l')) }.
(* the rewriters keep it *)
Definition sound (w : rewriters) (R : ex -> ex -> Prop) : Prop :=
  (forall e, R e (bool_simplify w e)) /\ (forall e, R e (trig_simplify w e)) /\ (forall e, R e (expand_fix w e)) /\
  (forall e, R e (complex_expand w e)) /\ (forall e, R e (together w e)) /\ (forall e, R e (factor_common w e)) /\
  (forall p c, In c (const_terms w p) -> R p (factor_out w c p)) /\ (forall e, R e (sqrt_factor w e)).

Lemma sum_shift l a : fold_left (fun res part => res + leaf_count_simplify part) l a = a + fold_left (fun res part => res + leaf_count_simplify part) l 0.
Proof.
  revert a. induction l as [|x l IH]; intro a; cbn [fold_left]; [lia|]. rewrite IH, (IH (0 + _)). lia.
Qed.
Lemma lcs_cons a l : leaf_count_simplify (EExpr (a :: l)) = leaf_count_simplify a + leaf_count_simplify (EExpr l).
Proof. cbn [leaf_count_simplify fold_left]. rewrite sum_shift. lia. Qed.

(* ---- C128 ---- *)
(* ExpreduceLeafCountSimplify is that size *)
Theorem C128_measure : forall e, size e (leaf_count_simplify e).
Proof.
  induction e as [s|s|z|n d|f|a1 a2 IH1 IH2|l IH] using ex_ind'.
  - constructor.
  - constructor.
  - cbn [leaf_count_simplify]. destruct (Z.ltb_spec z 0); constructor; assumption.
  - cbn [leaf_count_simplify]. destruct (Z.ltb_spec n 0), (Z.ltb_spec d 0); cbn [Z.add]; constructor; assumption.
  - constructor.
  - replace (leaf_count_simplify (ECplx a1 a2)) with (leaf_count_simplify a1 + leaf_count_simplify a2 + 1) by (cbn [leaf_count_simplify]; lia).
    apply Sz_cplx; assumption.
  - induction IH as [|a l Ha _ IHl]; [apply Sz_nil|]. rewrite lcs_cons. apply Sz_cons; assumption.
Qed.
Print Assumptions C128_measure.
Lemma lcs_nonneg e : 0 <= leaf_count_simplify e.
Proof.
  induction e as [s|s|z|n d|f|a1 a2 IH1 IH2|l IH] using ex_ind'; cbn [leaf_count_simplify]; try lia.
  - destruct (z <? 0); lia.
  - destruct (n <? 0), (d <? 0); lia.
  - change (0 <= leaf_count_simplify (EExpr l)). induction IH as [|a l Ha _ IHl]; [cbn; lia|]. rewrite lcs_cons. lia.
Qed.
(* at least LeafCount, and smaller if a part is replaced by a smaller one *)
Theorem C128_measure_leafcount : forall e, Z.of_nat (leaf_count e) <= leaf_count_simplify e.
Proof.
  induction e as [s|s|z|n d|f|a1 a2 IH1 IH2|l IH] using ex_ind'; cbn [leaf_count leaf_count_simplify]; try lia.
  - destruct (z <? 0); lia.
  - destruct (n <? 0), (d <? 0); lia.
  - change (Z.of_nat (leaf_count (EExpr l)) <= leaf_count_simplify (EExpr l)).
    induction IH as [|a l Ha _ IHl]; [cbn; lia|]. rewrite lcs_cons. cbn [leaf_count fold_right] in *. lia.
Qed.
Print Assumptions C128_measure_leafcount.
Theorem C128_measure_monotone : forall l1 a b l2, leaf_count_simplify a < leaf_count_simplify b ->
  leaf_count_simplify (EExpr (l1 ++ a :: l2)) < leaf_count_simplify (EExpr (l1 ++ b :: l2)).
Proof.
  intros l1 a b l2 H. induction l1 as [|x l1 IH]; cbn [app]; rewrite !lcs_cons; lia.
Qed.
Print Assumptions C128_measure_monotone.

Lemma keep_le t e : leaf_count_simplify (keep t e) <= leaf_count_simplify e /\ leaf_count_simplify (keep t e) <= leaf_count_simplify t.
Proof. unfold keep. destruct (Z.ltb_spec (leaf_count_simplify t) (leaf_count_simplify e)); lia. Qed.
Lemma keep_either t e : keep t e = t \/ keep t e = e.
Proof. unfold keep. destruct (_ <? _); auto. Qed.

(* the search never makes an expression larger, whatever the rewriters do *)
Theorem C128_never_larger : forall w e,
  leaf_count_simplify (simplify_search w e) <= leaf_count_simplify (trig_simplify w (bool_simplify w e)).
Proof.
  intros w e. unfold simplify_search. set (e1 := trig_simplify w (bool_simplify w e)). cbv zeta.
  assert (K : forall t x, leaf_count_simplify (keep t x) <= leaf_count_simplify x) by (intros; apply keep_le).
  etransitivity; [apply K|]. etransitivity; [apply K|]. etransitivity; [apply K|].
  etransitivity; [destruct (big_power w _); [reflexivity|apply K]|]. destruct (_ <? 5); [apply K|reflexivity].
Qed.
Print Assumptions C128_never_larger.
(* nor larger than the forms it tried: what Together, myFactorCommonTerms and
   taking out a factor give for the expression as it then is *)
Theorem C128_tried : forall w e,
  exists e3 e4 e5, leaf_count_simplify (simplify_search w e) <= leaf_count_simplify (together w e3) /\
    leaf_count_simplify (simplify_search w e) <= leaf_count_simplify (factor_common w e4) /\
    leaf_count_simplify (simplify_search w e) <= leaf_count_simplify e5 /\
    e4 = keep (together w e3) e3 /\ e5 = keep (factor_common w e4) e4 /\
    forall c, is_plus e5 = true -> In c (const_terms w e5) -> leaf_count_simplify (simplify_search w e) <= leaf_count_simplify (factor_out w c e5).
Proof.
  intros w e. unfold simplify_search. set (e1 := trig_simplify w (bool_simplify w e)). cbv zeta.
  set (e2 := if inferred_power e1 <? 5 then _ else _). set (e3 := if big_power w e2 then _ else _).
  set (e4 := keep (together w e3) e3). set (e5 := keep (factor_common w e4) e4).
  exists e3, e4, e5. destruct (keep_le (try_factoring w e5) e5) as [A B].
  destruct (keep_le (factor_common w e4) e4) as [C D]. destruct (keep_le (together w e3) e3) as [G H].
  fold e5 in C, D. fold e4 in G, H. repeat split; try lia.
  intros c P I. etransitivity; [exact B|]. unfold try_factoring. rewrite P. clear - I.
  assert (L : forall l s, leaf_count_simplify (fold_left (fun simplest c => keep (factor_out w c e5) simplest) l s) <= leaf_count_simplify s).
  { induction l as [|x l IH]; intro s; cbn [fold_left]; [lia|]. etransitivity; [apply IH|apply keep_le]. }
  generalize e5 at 3. revert I. induction (const_terms w e5) as [|x l IH]; [intros []|]. intros [->|I] s; cbn [fold_left].
  - etransitivity; [apply L|apply keep_le].
  - apply IH, I.
Qed.
Print Assumptions C128_tried.

(* if the rewriters keep values, Simplify does, at every level *)
Theorem C128_value : forall w R, same_value R -> sound w R -> forall e, R e (simplify w e).
Proof.
  intros w R S (Hb & Ht & He & Hc & Hg & Hf & Ho & Hs).
  assert (K : forall t e, R e t -> R e (keep t e)) by (intros t e H; destruct (keep_either t e) as [-> | ->]; [exact H|apply (sv_refl R S)]).
  assert (T : forall p, R p (try_factoring w p)).
  { intro p. unfold try_factoring. destruct (is_plus p); [|apply (sv_refl R S)].
    assert (G : forall l s, incl l (const_terms w p) -> R p s -> R p (fold_left (fun simplest c => keep (factor_out w c p) simplest) l s)).
    { induction l as [|c l IH]; intros s I H; cbn [fold_left]; [exact H|]. apply IH; [intros x X; apply I; right; exact X|].
      destruct (keep_either (factor_out w c p) s) as [-> | ->]; [apply Ho, I; left; reflexivity|exact H]. }
    apply G; [apply incl_refl|apply (sv_refl R S)]. }
  assert (Q : forall e, R e (simplify_search w e)).
  { intro e. unfold simplify_search. cbv zeta. pose proof (sv_trans R S) as Tr.
    eapply Tr; [apply Hb|]. eapply Tr; [apply Ht|]. generalize (trig_simplify w (bool_simplify w e)). intro e1.
    eapply Tr; [|apply K, T]. eapply Tr; [|apply K, Hf]. eapply Tr; [|apply K, Hg].
    set (e2 := if inferred_power e1 <? 5 then _ else _). assert (A : R e1 e2) by (unfold e2; destruct (_ <? 5); [apply K, He|apply (sv_refl R S)]).
    apply (Tr _ _ _ A). destruct (big_power w e2); [apply (sv_refl R S)|apply K, Hc]. }
  assert (I : forall e, R e (simplify_inner w e)).
  { intro e. unfold simplify_inner. apply (sv_trans R S _ _ _ (Q e)). apply (sv_trans R S _ _ _ (Ht _)). apply Hs. }
  induction e as [s|s|z|n d|f|a1 a2 IH1 IH2|l IH] using ex_ind'; try apply I.
  destruct l as [|h args]; [apply I|]. inversion IH as [|? ? _ IH']; subst. cbn [simplify].
  refine (sv_trans R S _ _ _ _ (I _)). apply (sv_args R S).
  clear - IH'. induction IH' as [|a l Ha _ IHl]; cbn [map]; constructor; assumption.
Qed.
Print Assumptions C128_value.

(* with rewriters that do something: x + 0 - (-x) with a Together that finds 2x *)
Definition w_ex : rewriters := {|
  bool_simplify := fun e => e; trig_simplify := fun e => e; expand_fix := fun e => e; complex_expand := fun e => e;
  together := fun e => if is_plus e then EExpr [sys "Times"; EInt 2; ESym "Global`x"] else e;
  factor_common := fun e => e; const_terms := fun _ => [EInt 1]; factor_out := fun _ e => e; sqrt_factor := fun e => e; big_power := fun _ => false |}.
Example C128_nonvacuous : simplify w_ex (EExpr [sys "f"; EExpr [sys "Plus"; ESym "Global`x"; EInt (-3); EInt 3; ESym "Global`x"]]) =
  EExpr [sys "f"; EExpr [sys "Times"; EInt 2; ESym "Global`x"]] /\
  leaf_count_simplify (EExpr [sys "f"; EInt (-1); ERat (-1) 2; ECplx (EInt 0) (EInt 1)]) = 10 /\
  same_value (fun _ _ => True) /\ sound w_ex (fun _ _ => True).
Proof. split; [vm_compute; reflexivity|]. split; [vm_compute; reflexivity|]. split; [split; auto|repeat split; auto]. Qed.
