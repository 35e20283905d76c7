(* Property theorems: canonical order (C05, C06, C07). *)
From Verif Require Import M_Syntax M_Float M_Order S_Syntax S_Order S_Num
  P_Float P_Order P_OrderTrans P_OrderZero P_OrderNum.
From Coq Require Import QArith.
Open Scope Z_scope.

(* C05: antisymmetry, reflexivity and range on well-formed expressions *)
Theorem C05_order_antisymmetric : forall a b,
  wf a = true -> wf b = true -> ex_order b a = - ex_order a b.
Proof. intros a b Ha Hb. exact (proj1 (order_anti_range a b Ha Hb)). Qed.
Print Assumptions C05_order_antisymmetric.

Theorem C05_order_range : forall a b, wf a = true -> wf b = true ->
  ex_order a b = -1 \/ ex_order a b = 0 \/ ex_order a b = 1.
Proof. intros a b Ha Hb. pose proof (proj2 (order_anti_range a b Ha Hb)). lia. Qed.
Print Assumptions C05_order_range.

Theorem C05_order_reflexive : forall a, wf a = true -> ex_order a a = 0.
Proof. intros a Ha. pose proof (proj1 (order_anti_range a a Ha Ha)). lia. Qed.
Print Assumptions C05_order_reflexive.

(* the part of C05 that fails: a Complex with a symbolic real part compared
   with a symbol gives -2 in both directions *)
Theorem C05_order_trichotomy_refuted : exists a b,
  ex_order a b = -2 /\ ex_order b a = -2.
Proof.
  exists (ECplx (ESym "Global`x") (EInt 1)), (ESym "Global`y"). split; vm_compute; reflexivity.
Qed.
Print Assumptions C05_order_trichotomy_refuted.

Example C05_nonvacuous :
  let a := EExpr [sys "Plus"; EInt 2; EExpr [sys "Power"; ESym "Global`x"; ERat 1 2]] in
  let b := EExpr [sys "Times"; EFlt (int_to_flt 3); ECplx (EInt 1) (ERat 2 3)] in
  wf a = true /\ wf b = true /\ ex_order a b = -1 /\ ex_order b a = 1.
Proof. repeat split; vm_compute; reflexivity. Qed.

(* C06: transitivity.  Full statement: for all well-formed a b c,
   0 <= Order[a,b] -> 0 <= Order[b,c] -> 0 <= Order[a,c].
   It is false in general (next theorem); it holds whenever the symbol Times
   occurs only as the head of a non-empty product. *)
Theorem C06_order_transitive_partial : forall a b c,
  wf a = true -> wf b = true -> wf c = true ->
  tidy a = true -> tidy b = true -> tidy c = true ->
  0 <= ex_order a b -> 0 <= ex_order b c ->
  0 <= ex_order a c /\ (ex_order a c = 0 -> ex_order a b = 0 /\ ex_order b c = 0).
Proof.
  intros a b c Wa Wb Wc Ta Tb Tc H1 H2. split.
  - exact (order_trans a b c Wa Wb Wc Ta Tb Tc H1 H2).
  - exact (order_trans_strict a b c Wa Wb Wc Ta Tb Tc H1 H2).
Qed.
Print Assumptions C06_order_transitive_partial.

Theorem C06_order_transitive_refuted : exists a b c,
  wf a = true /\ wf b = true /\ wf c = true /\
  ex_order a b = 1 /\ ex_order b c = 1 /\ ex_order c a = 1.
Proof.
  exists (EExpr [sys "Times"; EInt 5; ESym "Global`x"]),
    (EExpr [sys "Times"; ESym "Global`s"; sys "Times"; EInt 3; sys "Times"; EInt 7; ESym "Global`x"]),
    (EExpr [sys "Times"; EInt 3; sys "Times"; EInt 7; ESym "Global`x"]).
  repeat split; vm_compute; reflexivity.
Qed.
Print Assumptions C06_order_transitive_refuted.

Example C06_nonvacuous :
  let x := ESym "Global`x" in
  let a := EInt 3 in
  let b := EExpr [sys "Times"; EInt 3; x] in
  let c := EExpr [sys "Power"; x; EInt 2] in
  wf b = true /\ tidy b = true /\ tidy c = true /\ ex_order a b = 1 /\ ex_order b c = 1.
Proof. repeat split; vm_compute; reflexivity. Qed.

(* C07: order 0 iff identical, proved when all numbers are integers and no
   unevaluated Power[_,1] or Times[1,_] occurs *)
Theorem C07_order_zero_identical_partial : forall a b,
  settled a = true -> settled b = true -> (ex_order a b = 0 <-> a = b).
Proof.
  intros a b Ha Hb. split; [exact (order_zero_eq a b Ha Hb)|].
  intros ->. exact (C05_order_reflexive b (settled_wf b Hb)).
Qed.
Print Assumptions C07_order_zero_identical_partial.

(* integers of any size are ordered by value *)
Theorem C07_order_integers : forall x y,
  (ex_order (EInt x) (EInt y) = 1 <-> x < y) /\
  (ex_order (EInt x) (EInt y) = 0 <-> x = y) /\
  (ex_order (EInt x) (EInt y) = -1 <-> y < x).
Proof.
  intros x y. rewrite order_ints.
  destruct (Z.compare_spec y x) as [H|H|H]; cbn; repeat split; intro; (lia || congruence).
Qed.
Print Assumptions C07_order_integers.

(* rationals are never ordered against their values (they may tie) *)
Theorem C07_order_rationals_partial : forall n d n' d',
  d <> 0 -> d' <> 0 -> num_le (ERat n d) (ERat n' d') ->
  0 <= ex_order (ERat n d) (ERat n' d').
Proof. exact rat_le_order. Qed.
Print Assumptions C07_order_rationals_partial.

(* distinct numbers, even of different value, get order 0 *)
Theorem C07_order_zero_identical_refuted :
  (exists a b, wf a = true /\ wf b = true /\ num_lt a b /\ ex_order a b = 0) /\
  (exists re im im', im <> im' /\ ex_order (ECplx re (EInt im)) (ECplx re (EInt im')) = 0).
Proof.
  split.
  - exists (ERat (2^54+1) 3), (ERat (2^54+2) 3).
    repeat split; try (vm_compute; reflexivity).
    exists (inject_Z (2^54+1) / inject_Z 3)%Q, (inject_Z (2^54+2) / inject_Z 3)%Q.
    repeat split; reflexivity.
  - exists (EInt 1), 2, 3. split; [discriminate|vm_compute; reflexivity].
Qed.
Print Assumptions C07_order_zero_identical_refuted.

(* a rational and an integer ordered against their values, even for small
   numbers *)
Theorem C07_order_numeric_refuted :
  (exists a b, wf a = true /\ wf b = true /\ num_lt a b /\ ex_order a b = -1).
Proof.
  exists (ERat (2^100 - 1) (2^100)), (EInt 1). repeat split; try (vm_compute; reflexivity).
  exists (inject_Z (2^100-1) / inject_Z (2^100))%Q, (inject_Z 1).
  repeat split; reflexivity.
Qed.
Print Assumptions C07_order_numeric_refuted.

Example C07_nonvacuous :
  let x := ESym "Global`x" in
  settled (EExpr [sys "Plus"; EInt 2; EExpr [sys "Times"; EInt 3; EExpr [sys "Power"; x; EInt 2]]]) = true.
Proof. reflexivity. Qed.
