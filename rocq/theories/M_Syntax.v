(* Expressions and atoms of expreduce.
   Models the data types of /repo/expreduce/atoms/*.go. *)
From Coq Require Export Ascii String ZArith NArith Bool List Lia.
Export ListNotations.
Open Scope list_scope.

(* atoms/ex_real.go 16-18: Flt{Val *big.Float}.  A big.Float of precision 53
   (big.NewFloat(0), parser/interp.go 207-212) is either an infinity or
   (-1)^neg * m * 2^e.  Finite non-zero values are normalised 2^52 <= m < 2^53,
   zero is m=0,e=0.  [acc] is the accuracy field of big.Float (-1 Below,
   0 Exact, +1 Above), kept because GobEncode (and hence Hash) writes it.
   Simplifications: precision fixed to 53, rounding mode fixed to
   ToNearestEven, exponent unbounded (Go: 32 bit). *)
Inductive flt : Type :=
| FInf (neg : bool)
| FFin (neg : bool) (m : N) (e : Z) (acc : Z).

(* atoms/ex_symbol.go 14-17, ex_string.go 10-12, ex_integer.go 12-15,
   ex_rational.go 12-16, ex_real.go 16-18, ex_complex.go 11-15,
   ex_expression.go 12-18.
   Pure-tree view: the mutable fields needsEval, EvaledHash, CachedHash,
   cachedHash and object identity are dropped here; they are modelled
   separately in M_Heap.v. *)
Inductive ex : Type :=
| ESym (name : string)
| EStr (val : string)
| EInt (val : Z)
| ERat (num den : Z)
| EFlt (val : flt)
| ECplx (re im : ex)
| EExpr (parts : list ex).

Section ex_ind_strong.
  Variable P : ex -> Prop.
  Hypothesis Hsym : forall s, P (ESym s).
  Hypothesis Hstr : forall s, P (EStr s).
  Hypothesis Hint : forall z, P (EInt z).
  Hypothesis Hrat : forall n d, P (ERat n d).
  Hypothesis Hflt : forall f, P (EFlt f).
  Hypothesis Hcplx : forall a b, P a -> P b -> P (ECplx a b).
  Hypothesis Hexpr : forall l, Forall P l -> P (EExpr l).
  Fixpoint ex_ind' (e : ex) : P e :=
    match e with
    | ESym s => Hsym s
    | EStr s => Hstr s
    | EInt z => Hint z
    | ERat n d => Hrat n d
    | EFlt f => Hflt f
    | ECplx a b => Hcplx a b (ex_ind' a) (ex_ind' b)
    | EExpr l => Hexpr l ((fix go (l : list ex) : Forall P l :=
        match l with
        | [] => Forall_nil P
        | x :: t => Forall_cons x (ex_ind' x) (go t)
        end) l)
    end.
End ex_ind_strong.

Definition flt_eq_dec (a b : flt) : {a = b} + {a <> b}.
Proof. decide equality; auto using Bool.bool_dec, N.eq_dec, Z.eq_dec. Defined.

(* Structural identity of two expressions (used by specifications). *)
Fixpoint ex_eqb (a b : ex) : bool :=
  match a, b with
  | ESym s, ESym t => String.eqb s t
  | EStr s, EStr t => String.eqb s t
  | EInt x, EInt y => Z.eqb x y
  | ERat n d, ERat n' d' => Z.eqb n n' && Z.eqb d d'
  | EFlt f, EFlt g => if flt_eq_dec f g then true else false
  | ECplx r i, ECplx r' i' => ex_eqb r r' && ex_eqb i i'
  | EExpr l, EExpr l' =>
      (fix go (l l' : list ex) : bool :=
         match l, l' with
         | [], [] => true
         | x :: t, y :: t' => ex_eqb x y && go t t'
         | _, _ => false
         end) l l'
  | _, _ => false
  end.

Lemma ex_eqb_eq : forall a b, ex_eqb a b = true <-> a = b.
Proof.
  induction a as [s|s|z|n d|f|r i IHr IHi|l IHl] using ex_ind';
    intros b; destruct b as [s'|s'|z'|n' d'|f'|r' i'|l']; cbn [ex_eqb];
    try (split; [discriminate | intro H; discriminate H]).
  - rewrite String.eqb_eq; split; [intros ->; reflexivity | intro H; injection H; auto].
  - rewrite String.eqb_eq; split; [intros ->; reflexivity | intro H; injection H; auto].
  - rewrite Z.eqb_eq; split; [intros ->; reflexivity | intro H; injection H; auto].
  - rewrite andb_true_iff, !Z.eqb_eq; split;
      [intros [-> ->]; reflexivity | intro H; injection H; auto].
  - destruct (flt_eq_dec f f') as [->|Hn]; split; auto; try discriminate.
    intro H; injection H; intro; contradiction.
  - rewrite andb_true_iff, IHr, IHi; split;
      [intros [-> ->]; reflexivity | intro H; injection H; auto].
  - transitivity (l = l').
    + revert l'. induction IHl as [|x t Hx Ht IH]; intros [|y t']; split; try discriminate; auto.
      * rewrite andb_true_iff, Hx, IH. intros [-> ->]; reflexivity.
      * intro H; injection H; intros <- <-. rewrite andb_true_iff, Hx, IH; auto.
    + split; [intros ->; reflexivity | intro H; injection H; auto].
Qed.

Definition ex_eq_dec (a b : ex) : {a = b} + {a <> b}.
Proof.
  destruct (ex_eqb a b) eqn:H.
  - left; apply ex_eqb_eq; exact H.
  - right; intro E; apply ex_eqb_eq in E; congruence.
Defined.

(* Number of nodes; only used as a measure / fuel. *)
Fixpoint ex_size (e : ex) : nat :=
  match e with
  | ECplx a b => S (ex_size a + ex_size b)
  | EExpr l => S ((fix go (l : list ex) : nat :=
      match l with [] => 0 | x :: t => ex_size x + go t end) l)
  | _ => 1
  end.

Definition list_size (l : list ex) : nat := fold_right (fun x n => ex_size x + n) 0 l.

Lemma ex_size_expr l : ex_size (EExpr l) = S (list_size l).
Proof. reflexivity. Qed.

Lemma ex_size_pos e : 1 <= ex_size e.
Proof. destruct e; cbn; lia. Qed.

Lemma list_size_in x l : In x l -> ex_size x <= list_size l.
Proof.
  induction l as [|y t IH]; cbn; [tauto|].
  intros [->|H]; [lia|]. specialize (IH H). unfold list_size in IH. lia.
Qed.

Lemma list_size_app l l' : list_size (l ++ l') = list_size l + list_size l'.
Proof.
  induction l as [|y t IH]; cbn; [reflexivity|].
  change (fold_right _ 0 (t ++ l')) with (list_size (t ++ l')). rewrite IH.
  change (fold_right _ 0 t) with (list_size t). lia.
Qed.

(* atoms/ex_symbol.go 283-285: S(name) *)
Definition sysname (n : string) : string := append "System`" n.
Definition sys (n : string) : ex := ESym (sysname n).

(* atoms/ex_expression.go 264-266: E(parts...) *)
Definition E (parts : list ex) : ex := EExpr parts.

(* atoms/ex_expression.go 22-33: HeadAssertion(ex, head).  The Go code indexes
   Parts[0] and panics on an expression without parts; the model returns None
   there (panics are discussed where a property depends on them). *)
Definition head_assertion (e : ex) (h : string) : option (list ex) :=
  match e with
  | EExpr (ESym s :: args) => if String.eqb s h then Some (ESym s :: args) else None
  | _ => None
  end.

Definition has_head (e : ex) (h : string) : bool :=
  match head_assertion e h with Some _ => true | None => false end.

(* arguments when the head is the symbol h *)
Definition args_of (e : ex) (h : string) : option (list ex) :=
  match head_assertion e h with Some (_ :: l) => Some l | _ => None end.

(* atoms/qfunctions.go 5-20: NumberQ *)
Definition numberQ (e : ex) : bool :=
  match e with
  | EInt _ | EFlt _ | ERat _ _ | ECplx _ _ => true
  | _ => false
  end.

(* ex is an Expression (Go type test) *)
Definition is_expr (e : ex) : bool := match e with EExpr _ => true | _ => false end.
Definition is_int (e : ex) : bool := match e with EInt _ => true | _ => false end.
Definition is_sym (e : ex) : bool := match e with ESym _ => true | _ => false end.
Definition is_str (e : ex) : bool := match e with EStr _ => true | _ => false end.

Definition parts_of (e : ex) : list ex := match e with EExpr l => l | _ => [] end.

(* common symbols *)
Definition sTrue := sys "True".
Definition sFalse := sys "False".
Definition sNull := sys "Null".
Definition sList := sys "List".
Definition nList := sysname "List".
Definition mkList (l : list ex) : ex := EExpr (sList :: l).
Definition trueQ (e : ex) : bool := match e with ESym s => String.eqb s (sysname "True") | _ => false end.
Definition falseQ (e : ex) : bool := match e with ESym s => String.eqb s (sysname "False") | _ => false end.
