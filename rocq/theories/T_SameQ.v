(* Property theorems: SameQ (C09, C10). *)
From Verif Require Import M_Syntax M_Float M_Hash S_SameQ P_Hash.
Open Scope Z_scope.

(* C09 *)
Theorem C09_sameq_reflexive : forall e, is_sameq e e = true.
Proof. exact sameq_refl. Qed.
Print Assumptions C09_sameq_reflexive.

Theorem C09_sameq_symmetric : forall a b, is_sameq a b = is_sameq b a.
Proof. exact sameq_sym. Qed.
Print Assumptions C09_sameq_symmetric.

(* Full statement: is_sameq a b = true -> a = b on exact expressions.  False
   for Rationals (below).  Without Rationals and machine reals, a wrong True
   can only come from a genuine 64-bit FNV-1a collision between the byte
   streams of two subexpressions at the same position. *)
Theorem C09_sameq_identical_partial : forall a b,
  no_rat_flt a = true -> no_rat_flt b = true -> is_sameq a b = true ->
  a = b \/
  exists x y, same_position a b x y /\ stream x <> stream y /\ fnv (stream x) = fnv (stream y).
Proof. exact sameq_exact. Qed.
Print Assumptions C09_sameq_identical_partial.

(* 1/328199 === 66053/7 gives True: the two big integers are written one after
   the other with no length, so different rationals have the same stream. *)
Theorem C09_sameq_identical_refuted : exists n d n' d',
  Z.gcd n d = 1 /\ Z.gcd n' d' = 1 /\ 1 < d /\ 1 < d' /\ n * d' <> n' * d /\
  is_sameq (ERat n d) (ERat n' d') = true.
Proof.
  exists 1, 328199, 66053, 7. repeat split; try (vm_compute; reflexivity).
  vm_compute. discriminate.
Qed.
Print Assumptions C09_sameq_identical_refuted.

Example C09_nonvacuous :
  let a := EExpr [ESym "Global`f"; EInt (-70000); EStr "ab"; ECplx (EInt 1) (EInt 2)] in
  no_rat_flt a = true /\ is_sameq a a = true /\
  is_sameq a (EExpr [ESym "Global`f"; EInt 70000; EStr "ab"; ECplx (EInt 1) (EInt 2)]) = false.
Proof. repeat split; vm_compute; reflexivity. Qed.

(* C10 *)
Theorem C10_sameq_one_ulp : forall f g, normal_flt f -> normal_flt g ->
  (is_sameq (EFlt f) (EFlt g) = true <-> within_one_ulp f g).
Proof. exact sameq_normal. Qed.
Print Assumptions C10_sameq_one_ulp.

Theorem C10_sameq_not_transitive_refuted : exists f g h,
  normal_flt f /\ normal_flt g /\ normal_flt h /\
  is_sameq (EFlt f) (EFlt g) = true /\ is_sameq (EFlt g) (EFlt h) = true /\
  is_sameq (EFlt f) (EFlt h) = false.
Proof.
  exists (FFin false (2^52) (-52) 0), (FFin false (2^52 + 1) (-52) 0), (FFin false (2^52 + 2) (-52) 0).
  repeat split; try (vm_compute; congruence); vm_compute; reflexivity.
Qed.
Print Assumptions C10_sameq_not_transitive_refuted.

(* a === b but {a} === {b} fails *)
Theorem C10_sameq_congruence_refuted : exists f g,
  normal_flt f /\ normal_flt g /\ is_sameq (EFlt f) (EFlt g) = true /\
  is_sameq (mkList [EFlt f]) (mkList [EFlt g]) = false.
Proof.
  exists (FFin false (2^52) (-52) 0), (FFin false (2^52 + 1) (-52) 0).
  repeat split; try (vm_compute; congruence); vm_compute; reflexivity.
Qed.
Print Assumptions C10_sameq_congruence_refuted.

Example C10_nonvacuous :
  normal_flt (int_to_flt 3) /\ within_one_ulp (int_to_flt 3) (int_to_flt 3).
Proof. repeat split; try (vm_compute; congruence); left; split; [reflexivity|vm_compute; congruence]. Qed.
