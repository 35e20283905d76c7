(* What iterators should do: Table, Do, Sum, Product, Range. *)
From Verif Require Import M_Syntax M_Float M_Hash M_Order M_Match M_Defs S_Defs M_Eval S_Eval T_Eval T_Eval3.
Open Scope nat_scope.

Definition num_attrs : list string := ["Flat"; "Listable"; "NumericFunction"; "OneIdentity"; "Orderless"; "Protected"]%string.
(* Plus and Times are the builtin functions (whatever rules are stored for
   them), and no exception is pending *)
Definition usable (es : estate) (h : string) (names : list string) : Prop :=
  system_fn es (sysname h) names /\ no_value es (sysname h) /\ es_thrown es = None.
Definition arith_ready (es : estate) : Prop := usable es "Plus" num_attrs /\ usable es "Times" num_attrs.

(* vs is a, a+s, a+2s, ... : exactly the values up to b *)
Definition covers (a b s : Z) (vs : list ex) : Prop :=
  vs = map (fun j => EInt (a + Z.of_nat j * s)) (seq 0 (length vs)) /\
  forall j : nat, j < length vs <-> (a + Z.of_nat j * s <= b)%Z.

(* no accident of the 64 bit hashes when x op y = v is computed *)
Definition quiet (op : string) (x y v : Z) : Prop :=
  hash_ok (fn op [EInt x; EInt y]) /\ hash (EInt v) <> hash (fn op [EInt x; EInt y]) /\
  hash (EInt v) <> hash (fn op [EInt y; EInt x]).
(* ... in the n sums an iterator forms, and in its start value a + 0*s *)
Definition sums_ok (a s : Z) (n : nat) : Prop :=
  quiet "Times" 0 s 0 /\ quiet "Plus" a 0 a /\ hash_ok (fn "Plus" [EInt a; fn "Times" [EInt 0; EInt s]]) /\
  forall j, j < n -> quiet "Plus" (a + Z.of_nat j * s) s (a + Z.of_nat (S j) * s).

(* the parameters {b}, {a, b}, {a, b, s} with s > 0, or {list}, and the values
   they stand for *)
Inductive iter_values : list ex -> list ex -> Prop :=
| IV_max b vs : covers 1 b 1 vs -> sums_ok 1 1 (length vs) -> iter_values [EInt b] vs
| IV_range a b vs : covers a b 1 vs -> sums_ok a 1 (length vs) -> iter_values [EInt a; EInt b] vs
| IV_step a b s vs : (0 < s)%Z -> covers a b s vs -> sums_ok a s (length vs) -> iter_values [EInt a; EInt b; EInt s] vs
| IV_list l : iter_values [mkList l] l.

(* the iterators {x, ...} from left to right: their parameters are evaluated,
   the variable is not *)
Inductive iterators (c : cfg) : estate -> list ex -> list string -> list (list ex) -> estate -> Prop :=
| IT_nil es : iterators c es [] [] [] es
| IT_cons es x ps ps' es1 vs specs xs vss es2 :
    evals_list c es ps ps' es1 -> iter_values ps' vs -> arith_ready es1 ->
    iterators c es1 specs xs vss es2 -> iterators c es (mkList (ESym x :: ps) :: specs) (x :: xs) (vs :: vss) es2.

(* the cartesian product, the last iterator varying fastest *)
Fixpoint product (vss : list (list ex)) : list (list ex) :=
  match vss with
  | [] => [[]]
  | vs :: t => flat_map (fun v => map (cons v) (product t)) vs
  end.

(* x1 = v1; x2 = v2; ... *)
Inductive assigns (c : cfg) : estate -> list string -> list ex -> estate -> Prop :=
| AS_nil es : assigns c es [] [] es
| AS_cons es x v d xs vs es2 : define (c_fl c) (es_defs es) (ESym x) v = Some d ->
    assigns c (with_defs es d) xs vs es2 -> assigns c es (x :: xs) (v :: vs) es2.

(* each variable gets its old value back, or is cleared if it had none *)
Inductive restores (c : cfg) : estate -> list string -> list (option ex) -> estate -> Prop :=
| RS_nil es : restores c es [] [] es
| RS_value es x v d xs os es2 : define (c_fl c) (es_defs es) (ESym x) v = Some d ->
    restores c (with_defs es d) xs os es2 -> restores c es (x :: xs) (Some v :: os) es2
| RS_clear es x xs os es2 : restores c (with_defs es (clear (es_defs es) x)) xs os es2 ->
    restores c es (x :: xs) (None :: os) es2.

(* one round for every tuple: assign, then evaluate the body, collecting *)
Inductive table_rounds (c : cfg) (xs : list string) (body : ex) : estate -> list (list ex) -> list ex -> estate -> Prop :=
| TR_nil es : table_rounds c xs body es [] [] es
| TR_cons es t ts es1 r es2 rs es3 :
    assigns c es xs t es1 -> evals_to c es1 body r es2 -> arith_ready es2 ->
    table_rounds c xs body es2 ts rs es3 -> table_rounds c xs body es (t :: ts) (r :: rs) es3.

(* Sum and Product: the results are combined with op from left to right *)
Inductive fold_rounds (c : cfg) (op : string) (xs : list string) (body : ex) : estate -> list (list ex) -> ex -> ex -> estate -> Prop :=
| FR_nil es acc : fold_rounds c op xs body es [] acc acc es
| FR_cons es t ts es1 r es2 acc acc1 es3 res es4 :
    assigns c es xs t es1 -> evals_to c es1 body r es2 -> evals_to c es2 (fn op [acc; r]) acc1 es3 -> arith_ready es3 ->
    fold_rounds c op xs body es3 ts acc1 res es4 -> fold_rounds c op xs body es (t :: ts) acc res es4.

(* Do: the results are dropped; no exception, no Return *)
Inductive do_rounds (c : cfg) (xs : list string) (body : ex) : estate -> list (list ex) -> estate -> Prop :=
| DR_nil es : do_rounds c xs body es [] es
| DR_cons es t ts es1 r es2 es3 :
    assigns c es xs t es1 -> evals_to c es1 body r es2 -> arith_ready es2 -> ~ headed r (sysname "Return") ->
    do_rounds c xs body es2 ts es3 -> do_rounds c xs body es (t :: ts) es3.
(* Do left by Return[v] in one of the rounds *)
Inductive do_returns (c : cfg) (xs : list string) (body : ex) : estate -> list (list ex) -> ex -> estate -> Prop :=
| DX_here es t ts es1 v rest es2 :
    assigns c es xs t es1 -> evals_to c es1 body (fn "Return" (v :: rest)) es2 -> es_thrown es2 = None ->
    do_returns c xs body es (t :: ts) v es2
| DX_later es t ts es1 r es2 v es3 :
    assigns c es xs t es1 -> evals_to c es1 body r es2 -> arith_ready es2 -> ~ headed r (sysname "Return") ->
    do_returns c xs body es2 ts v es3 -> do_returns c xs body es (t :: ts) v es3.

(* ---- own values of the iteration variables ---- *)
(* v carries no condition *)
Definition unconditional (v : ex) : Prop :=
  ~ headed v (sysname "Condition") /\
  forall h x body, h = sysname "With" \/ h = sysname "Module" -> v = EExpr [ESym h; x; body] -> ~ headed body (sysname "Condition").
(* the values stored for x are plain ones (no x := v /; cond), and no other rule
   of x is mistaken for one because of its hash *)
Definition own_plain (st : state) (x : string) : Prop :=
  forall d, In d (rules_of st x) ->
    (is_sym_rule d = true \/ is_sameq (dv_lhs d) (held (ESym x)) = true -> dv_lhs d = held (ESym x)) /\
    (is_sym_rule d = true -> unconditional (dv_rhs d)).
