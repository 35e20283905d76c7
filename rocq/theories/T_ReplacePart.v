(* Property theorems: ReplacePart[e, v, i] (C133). *)
From Verif Require Import M_Syntax M_Float M_Hash M_Num M_Arith M_Match M_List P_Hash S_List T_List M_LibList T_LibList M_ReplacePart.
From Coq Require Import List Lia.
Import ListNotations.
Open Scope nat_scope.

Lemma length_value_ok h l : length_value (EExpr (h :: l)) = Z.of_nat (List.length l).
Proof. unfold length_value, length_eval. cbn [List.length]. rewrite Nat2Z.inj_succ. lia. Qed.
Lemma range_value h l1 l2 l3 a b : in_int64 (Z.of_nat (List.length (l1 ++ l2 ++ l3)) + 1) ->
  a = (Z.of_nat (List.length l1) + 1)%Z -> b = (Z.of_nat (List.length l1) + Z.of_nat (List.length l2))%Z ->
  part_value (EExpr (h :: l1 ++ l2 ++ l3)) [span (EInt a) (EInt b)] = EExpr (h :: l2).
Proof. intros I -> ->. apply (C103_take_range h l1 l2 l3 I). Qed.

(* the heads of the two ends and of the single element survive evaluation *)
Definition inert_head (ev : ex -> ex) (h : ex) : Prop := forall l, ev (EExpr (h :: l)) = EExpr (h :: l).

(* ---- C133 ---- *)
(* ReplacePart[h[a1, ..., ai, ...], v, i] is h[a1, ..., v, ...], for every head
   that has no rules *)
Theorem C133_replace_part_partial : forall ev h l1 x l2 v, inert_head ev h -> in_int64 (Z.of_nat (List.length (l1 ++ x :: l2)) + 1) ->
  replace_at_m ev (EExpr (h :: l1 ++ x :: l2)) v (Z.of_nat (List.length l1) + 1) = RpValue (EExpr (h :: l1 ++ v :: l2)).
Proof.
  intros ev h l1 x l2 v In I. unfold replace_at_m. rewrite length_value_ok. rewrite app_length in *. cbn [List.length] in *.
  destruct (Z.leb_spec (Z.of_nat (List.length l1) + 1) 0) as [L|_]; [lia|].
  destruct (Z.leb_spec (Z.of_nat (List.length l1) + 1) (Z.of_nat (List.length l1 + S (List.length l2)))) as [_|L]; [|lia].
  rewrite (range_value h [] l1 (x :: l2)) by (cbn [List.length app]; rewrite ?app_length; cbn [List.length]; first [assumption|lia]).
  replace (l1 ++ x :: l2) with ((l1 ++ [x]) ++ l2 ++ []) by (rewrite app_nil_r, <- app_assoc; reflexivity).
  rewrite (range_value h (l1 ++ [x]) l2 []) by (rewrite ?app_nil_r, ?app_length; cbn [List.length]; unfold in_int64 in *; lia).
  rewrite !In. assert (J : join_eval [EExpr (h :: l1); EExpr [h; v]; EExpr (h :: l2)] = Some (EExpr (h :: l1 ++ v :: l2))).
  { pose proof (C43_join h [l1; [v]; l2]) as J. cbn [map concat app] in J. rewrite app_nil_r in J. apply J. discriminate. }
  rewrite J, In. reflexivity.
Qed.
Print Assumptions C133_replace_part_partial.
(* out of range: only the message; an atom, or a position that is not positive:
   no rule *)
Theorem C133_out_of_range : forall ev h l v i,
  ((i <= 0)%Z -> replace_at_m ev (EExpr (h :: l)) v i = RpCall) /\
  ((Z.of_nat (List.length l) < i)%Z -> replace_at_m ev (EExpr (h :: l)) v i = RpNull).
Proof.
  intros ev h l v i. unfold replace_at_m. rewrite length_value_ok. split; intro H.
  - destruct (Z.leb_spec i 0); [reflexivity|lia].
  - destruct (Z.leb_spec i 0); [lia|]. destruct (Z.leb_spec i (Z.of_nat (List.length l))); [lia|reflexivity].
Qed.
Print Assumptions C133_out_of_range.
Theorem C133_atom : forall ev e v i, (forall l, e <> EExpr l) -> replace_at_m ev e v i = RpCall.
Proof. intros ev e v i H. destruct e as [s|s|z|n d|f|a1 a2|l]; try reflexivity. destruct (H l eq_refl). Qed.
Print Assumptions C133_atom.
(* a head whose one-argument form is its argument (Plus, Times, ...) breaks it:
   unless the new element happens to have that head, the Join stays *)
Theorem C133_plus_refuted : forall ev h l1 x l2 v, ev (EExpr [h; v]) = v -> (forall l, v <> EExpr l) ->
  in_int64 (Z.of_nat (List.length (l1 ++ x :: l2)) + 1) ->
  exists a b, replace_at_m ev (EExpr (h :: l1 ++ x :: l2)) v (Z.of_nat (List.length l1) + 1) = RpValue (EExpr [sys "Join"; a; v; b]).
Proof.
  intros ev h l1 x l2 v One At I. unfold replace_at_m. rewrite length_value_ok. rewrite app_length in *. cbn [List.length] in *.
  destruct (Z.leb_spec (Z.of_nat (List.length l1) + 1) 0) as [L|_]; [lia|].
  destruct (Z.leb_spec (Z.of_nat (List.length l1) + 1) (Z.of_nat (List.length l1 + S (List.length l2)))) as [_|L]; [|lia].
  rewrite One. eexists. eexists.
  assert (J : forall a b, join_eval [a; v; b] = None).
  { intros a b. unfold join_eval, headed_lists. destruct a as [w1|w1|w1|w1 w2|w1|w1 w2|[|h0 l0]]; try reflexivity.
    cbn [same_heads]. destruct v as [u|u|u|u u2|u|u1 u2|l3]; try reflexivity. destruct (At l3 eq_refl). }
  rewrite J. reflexivity.
Qed.
Print Assumptions C133_plus_refuted.

(* ReplacePart[{1, 4, 9}, x, 2] = {1, x, 9} *)
Example C133_list : replace_at_m (fun e => e) (mkList [EInt 1; EInt 4; EInt 9]) (ESym "Global`x") 2 = RpValue (mkList [EInt 1; ESym "Global`x"; EInt 9]).
Proof. reflexivity. Qed.
Example C133_inert : inert_head (fun e => e) (sys "List").
Proof. intro l. reflexivity. Qed.
(* Plus[x] = x: ReplacePart[a + b, x, 1] *)
Definition ev_one (e : ex) : ex := match e with EExpr [_; x] => x | EExpr [_] => EInt 0 | _ => e end.
Example C133_plus : replace_at_m ev_one (EExpr [sys "Plus"; ESym "Global`a"; ESym "Global`b"]) (ESym "Global`x") 1 =
  RpValue (EExpr [sys "Join"; EInt 0; ESym "Global`x"; ESym "Global`b"]).
Proof. reflexivity. Qed.
