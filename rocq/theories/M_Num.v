(* Number evaluation and the numeric part of Plus/Times.
   eval.go 20-45, 270-310; atoms/calculator.go; atoms/ex_integer.go 88-96;
   ex_rational.go 89-125; ex_real.go 100-122; ex_complex.go 79-142. *)
From Verif Require Import M_Syntax M_Float M_Hash.
Open Scope Z_scope.

(* eval.go 270-310.  The in-place update of this.Num/this.Den is modelled in
   M_Heap.v. *)
Definition eval_rational (n d : Z) : ex :=
  if (n =? 0) && (d =? 0) then sys "Indeterminate"
  else if d =? 0 then sys "ComplexInfinity"
  else if n =? 0 then EInt 0
  else
    let negate := xorb (n <? 0) (d <? 0) in
    let g := Z.gcd (Z.abs n) (Z.abs d) in
    let an := Z.abs n / g in
    let ad := Z.abs d / g in
    if ad =? 1 then EInt (if negate then - an else an)
    else ERat (if negate then - an else an) ad.

(* eval.go 20-45 on numbers: evalComplex evaluates both components and drops a
   zero imaginary part (IsSameQ with the Integer 0). *)
Definition eval_real (e : ex) : ex :=
  match e with ERat n d => eval_rational n d | _ => e end.
Definition eval_number (e : ex) : ex :=
  match e with
  | ERat n d => eval_rational n d
  | ECplx re im =>
      let re' := eval_real re in let im' := eval_real im in
      if is_sameq im' (EInt 0) then re' else ECplx re' im'
  | _ => e
  end.

(* n * 2^k rounded; [zneg] is the sign of an exact zero *)
Definition fscaled (n k : Z) (zneg : bool) : flt :=
  if n =? 0 then FFin zneg 0 0 0
  else if 0 <=? k then fround (n * 2 ^ k) 1 else fround n (2 ^ (- k)).

(* math/big Float.Add.  Inf + (-Inf) panics (ErrNaN) in Go; the model returns
   +Inf there. *)
Definition fadd (x y : flt) : flt :=
  match x, y with
  | FInf a, FInf b => if Bool.eqb a b then FInf a else FInf false
  | FInf a, _ => FInf a
  | _, FInf b => FInf b
  | FFin s m e _, FFin s' m' e' _ =>
      let k := Z.min e e' in
      fscaled (smant s m * 2 ^ (e - k) + smant s' m' * 2 ^ (e' - k)) k
        (s && s' && (m =? 0)%N && (m' =? 0)%N)
  end.

(* math/big Float.Mul.  0 * Inf panics in Go; the model returns +Inf. *)
Definition fmul (x y : flt) : flt :=
  match x, y with
  | FInf a, FInf b => FInf (xorb a b)
  | FInf a, FFin s m _ _ => if (m =? 0)%N then FInf false else FInf (xorb a s)
  | FFin s m _ _, FInf b => if (m =? 0)%N then FInf false else FInf (xorb s b)
  | FFin s m e _, FFin s' m' e' _ => fscaled (smant s m * smant s' m') (e + e') (xorb s s')
  end.

(* math/big Float.Quo for finite operands, x/0 = Inf (0/0 panics in Go) *)
Definition fquo (x y : flt) : flt :=
  match x, y with
  | FFin s m e _, FFin s' m' e' _ =>
      if (m' =? 0)%N then FInf (xorb s s')
      else if (m =? 0)%N then FFin (xorb s s') 0 0 0
      else fround (smant (xorb s s') m * 2 ^ (Z.max (e - e') 0)) (Z.of_N m' * 2 ^ (Z.max (e' - e) 0))
  | FInf a, FFin s _ _ _ => FInf (xorb a s)
  | FFin s _ _ _, FInf b => FFin (xorb s b) 0 0 0
  | FInf a, FInf b => FInf (xorb a b)
  end.

(* ex_rational.go 89-97 *)
Definition rat_big_float (n d : Z) : flt := fquo (int_to_flt n) (int_to_flt d).

(* atoms/calculator.go 5-12 *)
Inductive fold_fn := FoldAdd | FoldMul.

(* ex_integer.go 88-96 *)
Definition int_op (fn : fold_fn) (x y : Z) : Z := match fn with FoldAdd => x + y | FoldMul => x * y end.
(* ex_rational.go 99-103, 114-116: addI, mulI *)
Definition rat_int (fn : fold_fn) (r : Z * Z) (i : Z) : Z * Z :=
  let '(n, d) := r in
  match fn with FoldAdd => (n + i * d, d) | FoldMul => (n * i, d) end.
(* ex_rational.go 105-112, 122-125: addR, mulR *)
Definition rat_rat (fn : fold_fn) (r q : Z * Z) : Z * Z :=
  let '(n, d) := r in let '(n', d') := q in
  match fn with FoldAdd => (n * d' + d * n', d * d') | FoldMul => (n * n', d * d') end.
(* ex_real.go 100-122 *)
Definition flt_flt (fn : fold_fn) (f g : flt) : flt :=
  match fn with FoldAdd => fadd f g | FoldMul => fmul f g end.

(* accumulators of ComputeNumericPart *)
Record acc := { aI : option Z; aR : option (Z * Z); aF : option flt; aC : option (ex * ex) }.
Definition acc0 := {| aI := None; aR := None; aF := None; aC := None |}.

(* calculator.go 14-79 without the Complex accumulator (lines 50-78) *)
Definition real_part (fn : fold_fn) (a : acc) : option ex :=
  match aF a with
  | Some f =>
      let f1 := match aR a with Some (n, d) => flt_flt fn f (rat_big_float n d) | None => f end in
      let f2 := match aI a with Some i => flt_flt fn f1 (int_to_flt i) | None => f1 end in
      Some (EFlt f2)
  | None =>
      match aR a with
      | Some r =>
          let r1 := match aI a with Some i => rat_int fn r i | None => r end in
          Some (ERat (fst r1) (snd r1))
      | None => match aI a with Some i => Some (EInt i) | None => None end
      end
  end.

(* calculator.go 92-133 on one real number *)
Definition acc_real (fn : fold_fn) (a : acc) (e : ex) : option acc :=
  match e with
  | EInt i => Some {| aI := Some (match aI a with Some x => int_op fn x i | None => i end);
                      aR := aR a; aF := aF a; aC := aC a |}
  | ERat n d => Some {| aI := aI a;
                      aR := Some (match aR a with Some r => rat_rat fn r (n, d) | None => (n, d) end);
                      aF := aF a; aC := aC a |}
  | EFlt f => Some {| aI := aI a; aR := aR a;
                      aF := Some (match aF a with Some g => flt_flt fn g f | None => f end);
                      aC := aC a |}
  | _ => None
  end.

(* ComputeNumericPart on a list of real numbers, as called by the Complex
   methods on their components; None stands for Go's nil.  Simplification: a
   Complex inside a component (excluded by wf) stops the fold. *)
Fixpoint np_real (fn : fold_fn) (a : acc) (l : list ex) : option ex :=
  match l with
  | [] => real_part fn a
  | e :: t => match acc_real fn a e with Some a' => np_real fn a' t | None => real_part fn a end
  end.

Definition np2 (fn : fold_fn) (x y : ex) : ex :=
  match np_real fn acc0 [x; y] with Some e => e | None => ESym "nil" end.

(* ex_complex.go 79-83, 105-111: addReal, mulReal *)
Definition cplx_real (fn : fold_fn) (c : ex * ex) (e : ex) : ex * ex :=
  let '(re, im) := c in
  match fn with
  | FoldAdd => (np2 FoldAdd re e, im)
  | FoldMul => (np2 FoldMul re e, np2 FoldMul im e)
  end.

Definition np3 (fn : fold_fn) (x y z : ex) : ex :=
  match np_real fn acc0 [x; y; z] with Some e => e | None => ESym "nil" end.

(* ex_complex.go 97-103, 125-142: addC, mulC *)
Definition cplx_cplx (fn : fold_fn) (c c' : ex * ex) : ex * ex :=
  let '(re, im) := c in let '(re', im') := c' in
  match fn with
  | FoldAdd => (np2 FoldAdd re re', np2 FoldAdd im im')
  | FoldMul =>
      let a := np2 FoldMul re re' in
      let b := np3 FoldMul (EInt (-1)) im im' in
      let cc := np2 FoldMul re im' in
      let d := np2 FoldMul im re' in
      (np2 FoldAdd a b, np2 FoldAdd cc d)
  end.

(* calculator.go 14-79: typedRealPart *)
Definition typed_real_part (fn : fold_fn) (a : acc) : option ex :=
  match aC a with
  | Some c =>
      let c1 := match aF a with Some f => cplx_real fn c (EFlt f) | None => c end in
      let c2 := match aR a with Some (n, d) => cplx_real fn c1 (ERat n d) | None => c1 end in
      let c3 := match aI a with Some i => cplx_real fn c2 (EInt i) | None => c2 end in
      Some (ECplx (fst c3) (snd c3))
  | None => real_part fn a
  end.

Definition acc_num (fn : fold_fn) (a : acc) (e : ex) : option acc :=
  match e with
  | ECplx re im => Some {| aI := aI a; aR := aR a; aF := aF a;
        aC := Some (match aC a with Some c => cplx_cplx fn c (re, im) | None => (re, im) end) |}
  | _ => acc_real fn a e
  end.

(* calculator.go 81-150 on the arguments (Parts[1:]); the second component is
   the remaining non-numeric suffix Parts[symStart:], [] for symStart = -1 *)
Fixpoint np (fn : fold_fn) (a : acc) (l : list ex) : option ex * list ex :=
  match l with
  | [] => (typed_real_part fn a, [])
  | e :: t => match acc_num fn a e with
              | Some a' => np fn a' t
              | None => (typed_real_part fn a, l)
              end
  end.
Definition compute_numeric_part (fn : fold_fn) (args : list ex) : option ex * list ex := np fn acc0 args.
