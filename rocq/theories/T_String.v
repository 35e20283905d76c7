(* Property theorems: StringJoin, StringLength, StringTake (C62),
   StringReplace (C63), ExportString to Base64 (C64). *)
From Verif Require Import M_Syntax M_Float M_String S_String.
Open Scope nat_scope.

Lemma bytes_of_bytes l : bytes (of_bytes l) = l.
Proof. apply list_ascii_of_string_of_list_ascii. Qed.
Lemma of_bytes_bytes s : of_bytes (bytes s) = s.
Proof. apply string_of_list_ascii_of_string. Qed.
Lemma bytes_append a b : bytes (append a b) = (bytes a ++ bytes b)%list.
Proof. induction a as [|c a IH]; [reflexivity|]. apply (f_equal (cons c)) in IH. exact IH. Qed.
Lemma bytes_length s : String.length s = length (bytes s).
Proof. induction s as [|c s IH]; [reflexivity|]. apply (f_equal S) in IH. exact IH. Qed.
Lemma bytes_inj a b : bytes a = bytes b -> a = b.
Proof. intro H. rewrite <- (of_bytes_bytes a), <- (of_bytes_bytes b), H. reflexivity. Qed.

(* ---- C62 ---- *)
Lemma join_loop_strings l : forall acc, exists r, join_loop acc (map EStr l) = Some r /\ bytes r = (bytes acc ++ concat (map bytes l))%list.
Proof.
  induction l as [|s l IH]; intro acc; cbn [map join_loop concat].
  - exists acc. rewrite app_nil_r. split; reflexivity.
  - destruct (IH (append acc s)) as [r [E B]]. exists r. split; [exact E|]. rewrite B, bytes_append, app_assoc. reflexivity.
Qed.

(* StringJoin of strings is the concatenation of their bytes, in order. *)
Theorem C62_join : forall l, exists r, string_join (map EStr l) = Some (EStr r) /\ bytes r = concat (map bytes l).
Proof.
  intro l. destruct (join_loop_strings l EmptyString) as [r [E B]]. exists r. unfold string_join. rewrite E. split; [reflexivity|exact B].
Qed.
Print Assumptions C62_join.

(* StringJoin stays unevaluated exactly when some argument is not a string. *)
Theorem C62_join_unevaluated : forall args, string_join args = None <-> exists a, In a args /\ forall s, a <> EStr s.
Proof.
  intro args. unfold string_join. generalize EmptyString. induction args as [|a args IH]; intro acc; cbn [join_loop].
  - split; [discriminate|]. intros [a [[] _]].
  - destruct a as [s|s|z|n d|f|x y|l];
      try (split; [intros _; eexists; split; [left; reflexivity|discriminate] | reflexivity]).
    rewrite IH. split.
    + intros [a [H1 H2]]. exists a. split; [right; exact H1|exact H2].
    + intros [a [[<-|H1] H2]]; [destruct (H2 s eq_refl)|]. exists a. split; assumption.
Qed.
Print Assumptions C62_join_unevaluated.

(* Joining joins is the join of all the strings: StringJoin is associative and
   "" is its unit. *)
Theorem C62_join_assoc : forall a b, exists ra rb, string_join (map EStr a) = Some (EStr ra) /\ string_join (map EStr b) = Some (EStr rb) /\
  string_join [EStr ra; EStr rb] = string_join (map EStr (a ++ b)).
Proof.
  intros a b. destruct (C62_join a) as [ra [Ea Ba]]. destruct (C62_join b) as [rb [Eb Bb]]. exists ra, rb. split; [exact Ea|]. split; [exact Eb|].
  destruct (C62_join [ra; rb]) as [r [E B]]. destruct (C62_join (a ++ b)) as [r' [E' B']]. cbn [map] in E. rewrite E, E'. do 2 f_equal.
  apply bytes_inj. rewrite B, B', map_app, concat_app, <- Ba, <- Bb. cbn [map concat]. rewrite app_nil_r. reflexivity.
Qed.
Print Assumptions C62_join_assoc.

(* The length of a join is the sum of the lengths. *)
Theorem C62_join_length : forall l, exists r, string_join (map EStr l) = Some (EStr r) /\
  string_length [EStr r] = Some (EInt (fold_right Z.add 0%Z (map (fun s => Z.of_nat (length (bytes s))) l))).
Proof.
  intro l. destruct (C62_join l) as [r [E B]]. exists r. split; [exact E|]. cbn [string_length]. do 2 f_equal. rewrite bytes_length, B.
  clear. induction l as [|s l IH]; [reflexivity|]. cbn [map concat fold_right]. rewrite app_length, Nat2Z.inj_add, IH. reflexivity.
Qed.
Print Assumptions C62_join_length.

Lemma utf8_char_length c : utf8_char c -> 1 <= length c.
Proof. destruct 1; cbn; lia. Qed.
Lemma utf8_char_one c : utf8_char c -> (length c = 1 <-> Forall (fun b => (N_of_ascii b < 128)%N) c).
Proof.
  unfold byte_in. destruct 1; cbn [length]; (split; [intro E; try discriminate; repeat constructor; unfold byte_in in *; lia|]);
  intro F; try reflexivity; exfalso; inversion F; subst; unfold byte_in in *; lia.
Qed.
Lemma concat_len cs : Forall utf8_char cs -> length cs <= length (concat cs) /\
  (length cs = length (concat cs) <-> Forall (fun b => (N_of_ascii b < 128)%N) (concat cs)).
Proof.
  induction 1 as [|c cs Hc H IH]; cbn [concat length]; [split; [lia|]; split; [constructor|reflexivity]|].
  rewrite app_length, Forall_app. pose proof (utf8_char_length _ Hc). pose proof (utf8_char_one _ Hc) as [O1 O2]. destruct IH as [L [I1 I2]].
  split; [lia|]. split.
  - intro E. assert (length c = 1) by lia. split; [apply O1; assumption|]. apply I1. lia.
  - intros [F1 F2]. rewrite (O2 F1), (I2 F2). reflexivity.
Qed.

(* StringLength of a UTF-8 text is at least its number of characters, and
   equals it exactly when the text is ASCII. *)
Theorem C62_length : forall s cs, utf8_text (bytes s) cs -> exists n, string_length [EStr s] = Some (EInt (Z.of_nat n)) /\ length cs <= n /\
  (length cs = n <-> Forall (fun b => (N_of_ascii b < 128)%N) (bytes s)).
Proof.
  intros s cs [E F]. exists (length (bytes s)). cbn [string_length]. rewrite bytes_length. split; [reflexivity|].
  rewrite E. apply concat_len. exact F.
Qed.
Print Assumptions C62_length.
Example C62_length_nontrivial : utf8_text (bytes "ab") [["a"%char]; ["b"%char]].
Proof. split; [reflexivity|]. repeat constructor; vm_compute; discriminate. Qed.

(* It is not the number of characters in general: one character, length 2. *)
Definition e_acute : string := String (ascii_of_nat 195) (String (ascii_of_nat 169) EmptyString).
Theorem C62_length_characters_refuted : exists s cs, utf8_text (bytes s) cs /\ length cs = 1 /\ string_length [EStr s] = Some (EInt 2).
Proof.
  exists e_acute, [bytes e_acute]. split; [|split; reflexivity]. split; [reflexivity|]. constructor; [|constructor].
  apply u2; vm_compute; split; discriminate.
Qed.
Print Assumptions C62_length_characters_refuted.

Definition fits (z : Z) : Prop := (- 2 ^ 63 < z < 2 ^ 63)%Z.
Lemma wrap_fits z : (- 2 ^ 63 <= z < 2 ^ 63)%Z -> wrap64 z = z.
Proof. intro H. unfold wrap64. rewrite Z.mod_small; lia. Qed.
Definition take_args (s : string) (i j : Z) : list ex := [EStr s; EExpr [sys "List"; EInt i; EInt j]].

Lemma take_eq s i j : fits i -> fits j ->
  string_take (take_args s i j) =
    if (i <? 1)%Z || (Z.of_nat (length (bytes s)) <? j)%Z then None
    else Some (EStr (of_bytes (firstn (Z.to_nat (j + 1 - i)) (skipn (Z.to_nat (i - 1)) (bytes s))))).
Proof.
  unfold fits. intros Hi Hj. unfold string_take, take_args, sys. rewrite String.eqb_refl, bytes_length.
  rewrite (wrap_fits i), (wrap_fits j), (wrap_fits (i - 1)), (wrap_fits (j - 1)) by lia.
  assert (((i - 1 <? 0) || (Z.of_nat (length (bytes s)) <=? j - 1))%Z = ((i <? 1) || (Z.of_nat (length (bytes s)) <? j))%Z) as ->.
  { f_equal; [destruct (Z.ltb_spec (i - 1) 0), (Z.ltb_spec i 1); lia|].
    destruct (Z.leb_spec (Z.of_nat (length (bytes s))) (j - 1)), (Z.ltb_spec (Z.of_nat (length (bytes s))) j); lia. }
  destruct (_ || _)%bool; [reflexivity|]. destruct (Z.ltb_spec (j - 1) (i - 1)).
  - replace (Z.to_nat (j + 1 - i)) with 0 by lia. reflexivity.
  - do 4 f_equal. lia.
Qed.

(* StringTake[s, {i, j}] with 1 <= i and j <= length: the bytes i to j (none
   when j < i), for every i and j that fit in 64 bits; otherwise unevaluated. *)
Theorem C62_take : forall s i j, fits i -> fits j -> (1 <= i)%Z -> (j <= Z.of_nat (length (bytes s)))%Z ->
  exists r, string_take (take_args s i j) = Some (EStr r) /\
    Z.of_nat (length (bytes r)) = Z.max 0 (j + 1 - i) /\
    forall k, k < length (bytes r) -> nth_error (bytes r) k = nth_error (bytes s) (Z.to_nat (i - 1) + k).
Proof.
  intros s i j Hi Hj H1 H2. rewrite take_eq by assumption.
  replace (_ || _)%bool with false by (symmetry; apply orb_false_iff; split; apply Z.ltb_ge; lia).
  eexists. split; [reflexivity|]. rewrite bytes_of_bytes. split.
  - rewrite firstn_length, skipn_length. lia.
  - intros k Hk. rewrite firstn_length in Hk.
    set (L := bytes s) in *. set (a := Z.to_nat (i - 1)) in *. set (m := Z.to_nat (j + 1 - i)) in *.
    rewrite <- (firstn_skipn a L) at 2. 
    destruct (le_lt_dec (length L) a) as [Hl|Hl]; [rewrite (skipn_all2 L Hl) in Hk; cbn in Hk; lia|].
    rewrite nth_error_app2 by (rewrite firstn_length; lia). replace (a + k - length (firstn a L)) with k by (rewrite firstn_length; lia).
    rewrite <- (firstn_skipn m (skipn a L)) at 2. rewrite nth_error_app1 by (rewrite firstn_length; lia). reflexivity.
Qed.
Print Assumptions C62_take.

Theorem C62_take_out_of_range : forall s i j, fits i -> fits j -> (i < 1 \/ Z.of_nat (length (bytes s)) < j)%Z ->
  string_take (take_args s i j) = None.
Proof.
  intros s i j Hi Hj H. rewrite take_eq by assumption.
  replace (_ || _)%bool with true; [reflexivity|]. symmetry. apply orb_true_iff. destruct H; [left|right]; apply Z.ltb_lt; lia.
Qed.
Print Assumptions C62_take_out_of_range.
Example C62_take_nontrivial : fits 2 /\ fits 3 /\ string_take (take_args "abcd" 2 3) = Some (EStr "bc") /\
  string_take (take_args "abcd" 0 3) = None /\ string_take (take_args "abcd" 3 2) = Some (EStr "").
Proof. unfold fits. repeat split; try lia; reflexivity. Qed.

(* Taking the first k bytes and the rest and joining them gives the string
   back. *)
Theorem C62_take_join : forall s k, fits (Z.of_nat (length (bytes s)) + 1) -> k <= length (bytes s) ->
  exists a b, string_take (take_args s 1 (Z.of_nat k)) = Some (EStr a) /\
    string_take (take_args s (Z.of_nat k + 1) (Z.of_nat (length (bytes s)))) = Some (EStr b) /\
    string_join [EStr a; EStr b] = Some (EStr s).
Proof.
  intros s k H Hk. unfold fits in H.
  rewrite !take_eq by (unfold fits; lia).
  replace ((1 <? 1) || (Z.of_nat (length (bytes s)) <? Z.of_nat k))%Z with false by (symmetry; apply orb_false_iff; split; apply Z.ltb_ge; lia).
  replace ((Z.of_nat k + 1 <? 1) || (Z.of_nat (length (bytes s)) <? Z.of_nat (length (bytes s))))%Z with false by (symmetry; apply orb_false_iff; split; apply Z.ltb_ge; lia).
  eexists _, _. split; [reflexivity|]. split; [reflexivity|]. unfold string_join. cbn [join_loop option_map]. do 2 f_equal. apply bytes_inj.
  rewrite !bytes_append, !bytes_of_bytes. cbn [bytes list_ascii_of_string app].
  replace (Z.to_nat (Z.of_nat k + 1 - 1)) with k by lia. replace (Z.to_nat (1 - 1)) with 0 by lia.
  cbn [skipn]. replace (bytes EmptyString) with (@nil ascii) by reflexivity. cbn [app]. rewrite (firstn_all2 (n := Z.to_nat _) (skipn k (bytes s))) by (rewrite skipn_length; lia).
  apply firstn_skipn.
Qed.
Print Assumptions C62_take_join.
Example C62_take_join_nontrivial : fits (Z.of_nat (length (bytes "hello")) + 1) /\ 2 <= length (bytes "hello").
Proof. unfold fits. cbn. lia. Qed.

(* Indices outside 64 bits are reduced modulo 2^64 instead of being refused:
   the full form of C62_take_out_of_range is false. *)
Theorem C62_take_huge_refuted :
  string_take (take_args "abc" (2 ^ 64 + 1) 2) = Some (EStr "ab") /\
  string_take (take_args "abc" 1 (2 ^ 64 + 2)) = Some (EStr "ab") /\
  string_take (take_args "abc" (- 2 ^ 63) 2) = Some (EStr "").
Proof. repeat split; reflexivity. Qed.
Print Assumptions C62_take_huge_refuted.

(* StringTake can cut a character in two: the result of taking the "first
   character" of a one-character text is not a UTF-8 text. *)
Theorem C62_take_characters_refuted : exists s r, utf8_text (bytes s) [bytes s] /\ string_take (take_args s 1 1) = Some (EStr r) /\
  forall cs, ~ utf8_text (bytes r) cs.
Proof.
  exists e_acute, (String (ascii_of_nat 195) EmptyString). split; [|split; [reflexivity|]].
  - split; [reflexivity|]. constructor; [|constructor]. apply u2; vm_compute; split; discriminate.
  - intros cs [E F]. destruct cs as [|c cs]; [discriminate|]. inversion F as [|? ? Hc _]; subst. cbn [concat] in E.
    destruct Hc; cbn in E; try discriminate; injection E as E _; unfold byte_in in *; subst a; cbn in *; try lia.
Qed.
Print Assumptions C62_take_characters_refuted.

(* ---- C63 ---- *)
Lemma has_prefix_spec p : forall s, has_prefix p s = true <-> exists b, s = (p ++ b)%list.
Proof.
  induction p as [|a p IH]; intro s; cbn [has_prefix].
  - split; [intros _; exists s; reflexivity|reflexivity].
  - destruct s as [|c s]; [split; [discriminate|intros [b E]; discriminate]|].
    rewrite andb_true_iff, Ascii.eqb_eq, IH. split.
    + intros [-> [b ->]]. exists b. reflexivity.
    + intros [b E]. injection E as -> ->. split; [reflexivity|]. exists b. reflexivity.
Qed.

Lemma index_of_spec old s : match index_of old s with
  | Some j => occurs_at old s j /\ forall i, occurs_at old s i -> j <= i
  | None => forall i, ~ occurs_at old s i end.
Proof.
  induction s as [|c s IH].
  - cbn [index_of]. destruct (has_prefix old []) eqn:E.
    + split; [|lia]. apply has_prefix_spec in E. destruct E as [b E]. exists [], b. split; [exact E|reflexivity].
    + intros i [a [b [E' _]]]. symmetry in E'. apply app_eq_nil in E'. destruct E' as [_ E']. apply app_eq_nil in E'. destruct E' as [-> _]. discriminate.
  - cbn [index_of]. destruct (has_prefix old (c :: s)) eqn:E.
    + split; [|lia]. apply has_prefix_spec in E. destruct E as [b E]. exists [], b. split; [exact E|reflexivity].
    + assert (K : forall i, occurs_at old (c :: s) i -> exists i', i = S i' /\ occurs_at old s i').
      { intros i [a [b [E' L]]]. destruct a as [|x a].
        - exfalso. assert (has_prefix old (c :: s) = true) by (apply has_prefix_spec; exists b; exact E'). congruence.
        - injection E' as -> E'. exists (length a). split; [symmetry; exact L|]. exists a, b. split; [exact E'|reflexivity]. }
      destruct (index_of old s) as [j|]; cbn [option_map].
      * destruct IH as [O M]. split.
        -- destruct O as [a [b [-> L]]]. exists (c :: a), b. split; [reflexivity|]. cbn. rewrite L. reflexivity.
        -- intros i O'. destruct (K i O') as [i' [-> O'']]. apply M in O''. lia.
      * intros i O. destruct (K i O) as [i' [_ O']]. exact (IH i' O').
Qed.

Lemma replace_loop_spec old new : old <> [] -> forall fuel s, length s < fuel -> replaced old new s (replace_loop fuel old new s).
Proof.
  intros Ho. induction fuel as [|f IH]; intros s H; [lia|]. cbn [replace_loop]. pose proof (index_of_spec old s) as X.
  destruct (index_of old s) as [j|]; [|apply repl_none; exact X]. destruct X as [[a [b [-> <-]]] M].
  rewrite firstn_app, Nat.sub_diag, firstn_all, app_nil_r.
  replace (skipn (length a + length old) (a ++ old ++ b)%list) with b.
  2:{ rewrite app_assoc, <- app_length, skipn_app, Nat.sub_diag, skipn_all. reflexivity. }
  apply repl_first; [exact M|]. apply IH. rewrite !app_length in H. destruct old; [congruence|]. cbn in H. lia.
Qed.

Lemma replaced_fun {A} (old new : list A) s r : replaced old new s r -> forall r', replaced old new s r' -> r = r'.
Proof.
  induction 1 as [s H|a b r H R IH]; intros r' R'.
  - inversion R' as [s' H' | a b r0 H' R0]; subst; [reflexivity|]. exfalso. apply (H (length a)). exists a, b. split; reflexivity.
  - inversion R' as [s' H' E | a' b' r0 H' R0 E]; subst.
    + exfalso. apply (H' (length a)). exists a, b. split; reflexivity.
    + assert (L : length a = length a').
      { apply Nat.le_antisymm.
        - apply H. exists a', b'. split; [symmetry; exact E|reflexivity].
        - apply H'. exists a, b. split; [exact E|reflexivity]. }
      assert (Ea : a = a' /\ (old ++ b)%list = (old ++ b')%list).
      { clear - L E. revert a' L E. induction a as [|x a IHa]; intros [|y a'] L E; cbn in L; try discriminate.
        - split; [reflexivity|symmetry; exact E].
        - injection E as <- E. destruct (IHa a' ltac:(lia) E) as [-> ->]. split; reflexivity. }
      destruct Ea as [<- Eb]. apply app_inv_head in Eb. subst b'. do 2 f_equal. apply IH. exact R0.
Qed.

Definition replace_args (s old new : string) : list ex := [EStr s; EExpr [sys "Rule"; EStr old; EStr new]].

(* StringReplace[s, old -> new], old non-empty: the one string obtained by
   replacing the occurrences of old, leftmost first and not overlapping; the
   inserted text is not searched again. *)
Theorem C63_replace : forall s old new, old <> EmptyString -> exists r,
  string_replace (replace_args s old new) = Some (EStr r) /\
  replaced (bytes old) (bytes new) (bytes s) (bytes r) /\
  forall r', replaced (bytes old) (bytes new) (bytes s) r' -> r' = bytes r.
Proof.
  intros s old new Ho. eexists. split; [reflexivity|]. rewrite bytes_of_bytes.
  assert (R : replaced (bytes old) (bytes new) (bytes s) (go_replace (bytes s) (bytes old) (bytes new))).
  { unfold go_replace. destruct old as [|c old]; [congruence|]. cbn [bytes list_ascii_of_string]. apply replace_loop_spec; [discriminate|lia]. }
  split; [exact R|]. intros r' R'. exact (replaced_fun _ _ _ _ R' _ R).
Qed.
Print Assumptions C63_replace.
Example C63_replace_nontrivial : "aa"%string <> EmptyString /\ string_replace (replace_args "aaaba" "aa" "xaa") = Some (EStr "xaaaba").
Proof. split; [discriminate|reflexivity]. Qed.

(* A string in which old does not occur is unchanged, and replacing a string
   by itself changes nothing. *)
Theorem C63_replace_absent : forall s old new, (forall i, ~ occurs_at (bytes old) (bytes s) i) ->
  string_replace (replace_args s old new) = Some (EStr s).
Proof.
  intros s old new H. destruct old as [|c old].
  - exfalso. apply (H 0). exists [], (bytes s). split; reflexivity.
  - destruct (C63_replace s (String c old) new ltac:(discriminate)) as [r [E [_ U]]]. rewrite E. do 2 f_equal. apply bytes_inj.
    symmetry. apply U. apply repl_none. exact H.
Qed.
Print Assumptions C63_replace_absent.

Lemma rune_width_pos c s : 1 <= rune_width (c :: s).
Proof. unfold rune_width. repeat match goal with |- context [if ?b then _ else _] => destruct b | |- context [match ?l with [] => _ | _ => _ end] => destruct l end; lia. Qed.

Lemma replaced_self {A} (old s r : list A) : replaced old old s r -> r = s.
Proof. induction 1 as [|a b r H R IH]; [reflexivity|]. rewrite IH. reflexivity. Qed.
Lemma intersperse_nil f : forall s, length s < f -> intersperse_loop f [] s = s.
Proof.
  induction f as [|f IH]; intros s H; [lia|]. cbn [intersperse_loop]. destruct s as [|c s]; [reflexivity|].
  rewrite IH; [cbn [app]; apply firstn_skipn|]. rewrite skipn_length. pose proof (rune_width_pos c s). cbn [length] in *. lia.
Qed.
Theorem C63_replace_self : forall s old, string_replace (replace_args s old old) = Some (EStr s).
Proof.
  intros s old. destruct old as [|c old].
  - unfold string_replace, replace_args, sys. rewrite String.eqb_refl. unfold go_replace. cbn [bytes list_ascii_of_string].
    rewrite intersperse_nil by lia. rewrite of_bytes_bytes. reflexivity.
  - destruct (C63_replace s (String c old) (String c old) ltac:(discriminate)) as [r [E [R _]]]. rewrite E. do 2 f_equal. apply bytes_inj.
    apply (replaced_self _ _ _ R).
Qed.
Print Assumptions C63_replace_self.

(* Characters: rune_width reads exactly one UTF-8 character. *)
Lemma between_spec lo hi c : between lo hi c = true <-> byte_in lo hi c.
Proof. unfold between, byte_in, byte. rewrite andb_true_iff, !N.leb_le. reflexivity. Qed.
Lemma between_false lo hi c : between lo hi c = false <-> ~ byte_in lo hi c.
Proof. rewrite <- between_spec. destruct (between lo hi c); split; congruence. Qed.
Lemma rune_width_char c : utf8_char c -> forall t, rune_width (c ++ t) = length c.
Proof.
  destruct 1; intro t; cbn [app length]; unfold rune_width;
  repeat match goal with
  | |- context [(?x <? ?y)%N] => destruct (N.ltb_spec x y); try (exfalso; unfold byte_in, byte in *; lia)
  | |- context [(?x =? ?y)%N] => destruct (N.eqb_spec x y); try (exfalso; unfold byte_in, byte in *; lia)
  | |- context [between ?x ?y ?z] => let E := fresh in destruct (between x y z) eqn:E; [apply between_spec in E|apply between_false in E]; cbn [andb];
       try (exfalso; unfold byte_in, byte in *; lia)
  end; reflexivity.
Qed.

Lemma intersperse_chars new cs : Forall utf8_char cs -> forall f, length (concat cs) < f ->
  intersperse_loop f new (concat cs) = (new ++ concat (map (fun c => c ++ new) cs))%list.
Proof.
  induction 1 as [|c cs Hc H IH]; intros f Hf.
  - destruct f as [|f]; [cbn in Hf; lia|]. cbn. rewrite app_nil_r. reflexivity.
  - cbn [concat map] in *. destruct f as [|f]; [lia|]. rewrite app_length in Hf. pose proof (utf8_char_length _ Hc).
    cbn [intersperse_loop]. destruct (c ++ concat cs)%list eqn:E; [apply (f_equal (@length _)) in E; rewrite app_length in E; cbn in E; lia|].
    rewrite <- E. clear E. rewrite rune_width_char by assumption. rewrite firstn_app, Nat.sub_diag, firstn_all. cbn [firstn]. rewrite app_nil_r.
    rewrite skipn_app, Nat.sub_diag, skipn_all. cbn [skipn app]. rewrite IH by lia. rewrite <- !app_assoc. reflexivity.
Qed.

(* With old = "" the new text is written before the first and after every
   character (not byte) of a UTF-8 text. *)
Theorem C63_replace_empty : forall s cs new, utf8_text (bytes s) cs -> exists r,
  string_replace (replace_args s EmptyString new) = Some (EStr r) /\
  bytes r = (bytes new ++ concat (map (fun c => c ++ bytes new) cs))%list.
Proof.
  intros s cs new [E F]. eexists. split; [reflexivity|]. rewrite bytes_of_bytes. unfold go_replace. cbn [bytes list_ascii_of_string].
  change (list_ascii_of_string s) with (bytes s). rewrite E. apply intersperse_chars; [exact F|lia].
Qed.
Print Assumptions C63_replace_empty.

(* the same for bytes that are not UTF-8: a stray byte counts as one character *)
Lemma rune_width_cases c t : utf8_char (firstn (rune_width (c :: t)) (c :: t)) \/ rune_width (c :: t) = 1.
Proof.
  unfold rune_width. destruct (N.ltb_spec (byte c) 128); [left; apply u1; unfold byte_in, byte in *; lia|].
  destruct (between 194 223 c) eqn:E1.
  { apply between_spec in E1. destruct t as [|c1 t]; [right; reflexivity|]. destruct (between 128 191 c1) eqn:E2; [|right; reflexivity].
    apply between_spec in E2. left. apply u2; assumption. }
  destruct (between 224 239 c) eqn:E2.
  { apply between_spec in E2. destruct t as [|c1 [|c2 t]]; [right; reflexivity..|].
    destruct (N.eqb_spec (byte c) 224) as [E3|E3]; destruct (N.eqb_spec (byte c) 237) as [E4|E4]; try (exfalso; lia); cbv zeta;
      match goal with |- context [if ?b then _ else _] => destruct b eqn:E5; [|right; reflexivity] end;
      apply andb_true_iff in E5; destruct E5 as [E5 E6]; apply between_spec in E5; apply between_spec in E6; left; cbn [firstn];
      unfold byte_in, byte in *; [apply u3a|apply u3c|apply u3b]; unfold byte_in; try assumption; lia. }
  destruct (between 240 244 c) eqn:E3; [|right; reflexivity].
  apply between_spec in E3. destruct t as [|c1 [|c2 [|c3 t]]]; [right; reflexivity..|].
  destruct (N.eqb_spec (byte c) 240) as [E4|E4]; destruct (N.eqb_spec (byte c) 244) as [E5|E5]; try (exfalso; lia); cbv zeta;
      match goal with |- context [if ?b then _ else _] => destruct b eqn:E6; [|right; reflexivity] end;
      apply andb_true_iff in E6; destruct E6 as [E6 E7]; apply andb_true_iff in E6; destruct E6 as [E6 E8];
      apply between_spec in E6; apply between_spec in E7; apply between_spec in E8; left; cbn [firstn];
      unfold byte_in, byte in *; [apply u4a|apply u4c|apply u4b]; unfold byte_in; try assumption; lia.
Qed.
Lemma intersperse_chunks new s cs : utf8_chunks s cs -> forall f, length s < f ->
  intersperse_loop f new s = (new ++ concat (map (fun c => c ++ new) cs))%list.
Proof.
  induction 1 as [|c t cs Hc H IH|b t cs Hb H IH]; intros f Hf.
  - destruct f as [|f]; [cbn in Hf; lia|]. cbn. rewrite app_nil_r. reflexivity.
  - cbn [concat map] in *. destruct f as [|f]; [lia|]. rewrite app_length in Hf. pose proof (utf8_char_length _ Hc).
    cbn [intersperse_loop]. destruct (c ++ t)%list eqn:E; [apply (f_equal (@length _)) in E; rewrite app_length in E; cbn in E; lia|].
    rewrite <- E. clear E. rewrite rune_width_char by assumption. rewrite firstn_app, Nat.sub_diag, firstn_all. cbn [firstn]. rewrite app_nil_r.
    rewrite skipn_app, Nat.sub_diag, skipn_all. cbn [skipn app]. rewrite IH by lia. rewrite <- !app_assoc. reflexivity.
  - destruct f as [|f]; [lia|]. cbn [length] in Hf. cbn [intersperse_loop concat map].
    assert (W : rune_width (b :: t) = 1).
    { destruct (rune_width_cases b t) as [K|K]; [|exact K]. exfalso. apply (Hb _ (skipn (rune_width (b :: t)) (b :: t)) K). symmetry. apply firstn_skipn. }
    rewrite W. cbn [firstn skipn app]. rewrite IH by lia. rewrite <- ?app_assoc. reflexivity.
Qed.
Lemma chunks_exist : forall n s, length s <= n -> exists cs, utf8_chunks s cs.
Proof.
  induction n as [|n IH]; intros s H; destruct s as [|c t]; try (exists []; constructor); [cbn in H; lia|].
  pose proof (rune_width_pos c t) as Wp.
  destruct (IH (skipn (rune_width (c :: t)) (c :: t))) as [cs Hcs]; [rewrite skipn_length; cbn [length] in *; lia|].
  destruct (rune_width_cases c t) as [K|K].
  - exists (firstn (rune_width (c :: t)) (c :: t) :: cs). rewrite <- (firstn_skipn (rune_width (c :: t)) (c :: t)) at 1. constructor; assumption.
  - rewrite K in Hcs. cbn [skipn] in Hcs.
    destruct (N.ltb_spec (byte c) 128) as [L|L].
    + exists ([c] :: cs). apply (chunk_char [c]); [apply u1; unfold byte_in, byte in *; lia|exact Hcs].
    + exists ([c] :: cs). apply chunk_stray; [|exact Hcs]. intros c' t' U E.
      pose proof (rune_width_char c' U t') as W. rewrite <- E, K in W. destruct U; try discriminate W. injection E as -> _.
      unfold byte_in, byte in *. lia.
Qed.
Theorem C63_replace_empty_bytes : forall s new, exists cs r, utf8_chunks (bytes s) cs /\ string_replace (replace_args s EmptyString new) = Some (EStr r) /\
  bytes r = (bytes new ++ concat (map (fun c => c ++ bytes new) cs))%list.
Proof.
  intros s new. destruct (chunks_exist _ (bytes s) (le_n _)) as [cs H]. exists cs. eexists. split; [exact H|]. split; [reflexivity|].
  rewrite bytes_of_bytes. unfold go_replace. cbn [bytes list_ascii_of_string].
  change (list_ascii_of_string s) with (bytes s). apply intersperse_chunks; [exact H|lia].
Qed.
Print Assumptions C63_replace_empty_bytes.
(* the split is the only one *)
Theorem C63_chunks_unique : forall s cs cs', utf8_chunks s cs -> utf8_chunks s cs' -> cs = cs'.
Proof.
  intros s cs cs' H. revert cs'. induction H as [|c t cs Hc H IH|b t cs Hb H IH]; intros cs' H'.
  - inversion H' as [|c' t' cs2 Hc' H2 E|]; [reflexivity|]. destruct Hc'; discriminate E.
  - inversion H' as [E|c' t' cs2 Hc' H2 E|b' t' cs2 Hb' H2 E].
    + destruct Hc; discriminate E.
    + assert (L : length c = length c').
      { rewrite <- (rune_width_char c Hc t), <- (rune_width_char c' Hc' t'), E. reflexivity. }
      assert (E1 : c' = c /\ t' = t). { symmetry in L. clear - E L. revert c E L. induction c' as [|x c' IH']; intros [|y c] E L; try discriminate L; [split; [reflexivity|exact E]|].
        injection E as -> E. injection L as L. destruct (IH' c E L) as [-> ->]. split; reflexivity. }
      destruct E1 as [-> ->]. rewrite (IH cs2 H2). reflexivity.
    + exfalso. apply (Hb' c t Hc). exact E.
  - inversion H' as [E|c' t' cs2 Hc' H2 E|b' t' cs2 Hb' H2 E].
    + exfalso. apply (Hb c' t' Hc'). symmetry. exact E.
    + rewrite (IH cs2 H2). reflexivity.
Qed.
Print Assumptions C63_chunks_unique.
(* C0 AF is an overlong encoding: two stray bytes *)
Example C63_stray : utf8_chunks [ascii_of_N 192; ascii_of_N 175] [[ascii_of_N 192]; [ascii_of_N 175]].
Proof.
  apply chunk_stray; [|apply chunk_stray; [|constructor]]; intros c t' U E; destruct U; injection E as <- _;
    unfold byte_in in *; cbn in *; lia.
Qed.
Example C63_replace_empty_nontrivial : utf8_text (bytes e_acute) [bytes e_acute] /\
  string_replace (replace_args e_acute "" "-") = Some (EStr (append "-" (append e_acute "-"))).
Proof. split; [|reflexivity]. split; [reflexivity|]. constructor; [|constructor]. apply u2; vm_compute; split; discriminate. Qed.

(* ---- C64 ---- *)
Lemma land63 v : (N.land v 63 < 64)%N.
Proof. change 63%N with (N.ones 6). rewrite N.land_ones. apply N.mod_lt. discriminate. Qed.
Lemma b64_in v : in_alphabet (b64_char v).
Proof.
  unfold in_alphabet, b64_char. change alphabet with b64_alphabet. apply nth_In. pose proof (land63 v). cbn [list_ascii_of_string length b64_alphabet]. lia.
Qed.
Lemma position_nth k : k < 64 -> position (nth k (list_ascii_of_string alphabet) "="%char) (list_ascii_of_string alphabet) = Some k.
Proof.
  intro H. assert (F : forallb (fun k => match position (nth k (list_ascii_of_string alphabet) "="%char) (list_ascii_of_string alphabet) with Some j => Nat.eqb j k | None => false end) (seq 0 64) = true) by (vm_compute; reflexivity).
  rewrite forallb_forall in F. specialize (F k ltac:(apply in_seq; lia)). destruct (position _ _) as [j|]; [|discriminate]. apply Nat.eqb_eq in F. rewrite F. reflexivity.
Qed.
Lemma char_bits v t : text_bits (b64_char v :: t) = (bits_of 6 v ++ text_bits t)%list.
Proof.
  unfold text_bits. cbn [flat_map]. unfold b64_char at 1. change b64_alphabet with alphabet.
  rewrite position_nth by (pose proof (land63 v); lia). rewrite N2Nat.id. f_equal.
  assert (K : forall k, (k < 6)%N -> N.testbit (N.land v 63) k = N.testbit v k).
  { intros k H. change 63%N with (N.ones 6). rewrite N.land_spec, N.ones_spec_low by exact H. apply andb_true_r. }
  unfold bits_of. rewrite !K by reflexivity. reflexivity.
Qed.
Lemma tb_shl x n k : N.testbit (N.shiftl x n) k = if (k <? n)%N then false else N.testbit x (k - n).
Proof.
  destruct (N.ltb_spec k n); [apply N.shiftl_spec_low; assumption|apply N.shiftl_spec_high'; assumption].
Qed.
Lemma tb_byte c k : (8 <= k)%N -> N.testbit (byte c) k = false.
Proof.
  intro H. destruct (N.eq_dec (byte c) 0) as [->|Hz]; [apply N.bits_0|]. apply N.bits_above_log2.
  pose proof (N_ascii_bounded c) as B. change 256%N with (2 ^ 8)%N in B. unfold byte in *. apply N.log2_lt_pow2 in B; lia.
Qed.
Lemma byte_bits a b c d e f g h t : bytes_of_bits (bits_of 8 (byte (Ascii a b c d e f g h)) ++ t) = Ascii a b c d e f g h :: bytes_of_bits t.
Proof. destruct a, b, c, d, e, f, g, h; reflexivity. Qed.
Lemma byte_bits' x t : bytes_of_bits (bits_of 8 (byte x) ++ t) = x :: bytes_of_bits t.
Proof. destruct x. apply byte_bits. Qed.

Ltac tb := rewrite ?N.shiftr_spec', ?N.lor_spec, ?tb_shl;
  repeat match goal with |- context [(?x <? ?y)%N] => let v := eval vm_compute in (x <? y)%N in change (x <? y)%N with v end;
  cbv iota; repeat match goal with |- context [N.testbit (byte ?x) ?k] => rewrite (tb_byte x k) by (vm_compute; discriminate) end;
  cbn [orb]; rewrite ?orb_false_r; try reflexivity.
Lemma group3 a b c t : text_bits (b64_encode (a :: b :: c :: t)) = (bits_of 8 (byte a) ++ bits_of 8 (byte b) ++ bits_of 8 (byte c) ++ text_bits (b64_encode t))%list.
Proof.
  cbn [b64_encode]. rewrite !char_bits. unfold bits_of. cbn [app]. repeat (apply f_equal2; [tb|]). reflexivity.
Qed.
Lemma group2 a b : exists l, text_bits (b64_encode [a; b]) = (bits_of 8 (byte a) ++ bits_of 8 (byte b) ++ l)%list /\ length l = 2.
Proof.
  cbn [b64_encode]. rewrite !char_bits. unfold bits_of. cbn [app]. eexists. split; [do 8 (apply f_equal2; [tb|]); do 8 (apply f_equal2; [tb|]); reflexivity|reflexivity].
Qed.
Lemma group1 a : exists l, text_bits (b64_encode [a]) = (bits_of 8 (byte a) ++ l)%list /\ length l = 4.
Proof.
  cbn [b64_encode]. rewrite !char_bits. unfold bits_of. cbn [app]. eexists. split; [do 8 (apply f_equal2; [tb|]); reflexivity|reflexivity].
Qed.
Lemma list_ind3 {A} (P : list A -> Prop) : P [] -> (forall a, P [a]) -> (forall a b, P [a; b]) -> (forall a b c t, P t -> P (a :: b :: c :: t)) -> forall l, P l.
Proof.
  intros H0 H1 H2 H3. fix rec 1. intros [|a [|b [|c t]]]; [exact H0|apply H1|apply H2|apply H3; apply rec].
Qed.
Lemma few_bits l : length l < 8 -> bytes_of_bits l = [].
Proof. intro H. do 8 (destruct l as [|? l]; [reflexivity|]). cbn in H. lia. Qed.
Lemma decode_encode s : b64_decode (b64_encode s) = s.
Proof.
  unfold b64_decode. induction s as [|a|a b|a b c t IH] using list_ind3.
  - reflexivity.
  - destruct (group1 a) as [l [-> L]]. rewrite byte_bits', few_bits by lia. reflexivity.
  - destruct (group2 a b) as [l [-> L]]. rewrite !byte_bits', few_bits by lia. reflexivity.
  - rewrite group3, !byte_bits', IH. reflexivity.
Qed.
Lemma text_bits_app a b : text_bits (a ++ b) = (text_bits a ++ text_bits b)%list.
Proof. unfold text_bits. rewrite !flat_map_concat_map, map_app, concat_app. reflexivity. Qed.
Lemma encode_shape s : b64_text (b64_encode s) /\ length (b64_encode s) = 4 * ((length s + 2) / 3).
Proof.
  induction s as [|a|a b|a b c t [IH L]] using list_ind3; cbn [b64_encode]; split; try reflexivity;
    try (apply bt_nil || (apply bt_two; apply b64_in) || (apply bt_three; apply b64_in) || (apply bt_four; solve [apply b64_in|exact IH])).
  cbn [length]. rewrite L. replace (S (S (S (length t))) + 2) with (length t + 2 + 1 * 3) by lia. rewrite Nat.div_add by discriminate. lia.
Qed.

Definition export_args (s format : string) : list ex := [EStr s; EStr format].
(* ExportString[s, "Base64"] is a Base64 text of the right shape and length,
   followed by one newline, and decoding it gives the bytes of s back. *)
Theorem C64_base64 : forall s format, to_lower format = "base64"%string -> exists r t,
  export_string (export_args s format) = Some (Some (EStr r)) /\ bytes r = (t ++ [ascii_of_nat 10])%list /\
  b64_text t /\ length t = 4 * ((length (bytes s) + 2) / 3) /\ b64_decode (bytes r) = bytes s.
Proof.
  intros s format H. exists (of_bytes (b64_encode (bytes s) ++ [ascii_of_nat 10])), (b64_encode (bytes s)).
  split; [|split; [apply bytes_of_bytes|]].
  - unfold export_string, export_args. rewrite H. reflexivity.
  - destruct (encode_shape (bytes s)) as [A B]. split; [exact A|]. split; [exact B|]. rewrite bytes_of_bytes. rewrite <- (decode_encode (bytes s)) at 2.
    unfold b64_decode. rewrite text_bits_app. replace (text_bits [ascii_of_nat 10]) with (@nil bool) by reflexivity. rewrite app_nil_r. reflexivity.
Qed.
Print Assumptions C64_base64.
Example C64_base64_nontrivial : to_lower "Base64" = "base64"%string /\
  export_string (export_args "Man" "Base64") = Some (Some (EStr (append "TWFu" (String (ascii_of_nat 10) EmptyString)))) /\
  export_string (export_args "Ma" "BASE64") = Some (Some (EStr (append "TWE=" (String (ascii_of_nat 10) EmptyString)))).
Proof. repeat split; reflexivity. Qed.

(* Different strings have different encodings. *)
Theorem C64_base64_injective : forall s s' f, to_lower f = "base64"%string -> export_string (export_args s f) = export_string (export_args s' f) -> s = s'.
Proof.
  intros s s' f H E. destruct (C64_base64 s f H) as [r [t [E1 [_ [_ [_ D1]]]]]]. destruct (C64_base64 s' f H) as [r' [t' [E2 [_ [_ [_ D2]]]]]].
  rewrite E1, E2 in E. injection E as ->. apply bytes_inj. rewrite <- D1, <- D2. reflexivity.
Qed.
Print Assumptions C64_base64_injective.

(* Any other format of a string gives $Failed (PNG aside), and a value that is
   not a string stays unevaluated. *)
Theorem C64_other : forall x f, to_lower f <> "png"%string ->
  (forall s, x = EStr s -> to_lower f <> "base64"%string -> export_string [x; EStr f] = Some (Some (sys "$Failed"))) /\
  ((forall s, x <> EStr s) -> export_string [x; EStr f] = Some None).
Proof.
  intros x f H. apply String.eqb_neq in H. split.
  - intros s -> H'. apply String.eqb_neq in H'. unfold export_string. rewrite H, H'. reflexivity.
  - intro N. unfold export_string. rewrite H. destruct x; try reflexivity. destruct (N val eq_refl).
Qed.
Print Assumptions C64_other.
Example C64_other_nontrivial : to_lower "csv" <> "png"%string /\ export_string [EStr "a"; EStr "csv"] = Some (Some (sys "$Failed")).
Proof. split; [discriminate|reflexivity]. Qed.
