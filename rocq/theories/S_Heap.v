(* What a session with variables should do, and invariants of object graphs. *)
From Verif Require Import M_Syntax M_Heap.
Open Scope nat_scope.

(* -------- sessions as they should be: values of variables are trees -------- *)
Definition store : Type := string -> option ex.
Definition upd (s : store) (x : string) (e : ex) : store := fun n => if String.eqb n x then Some e else s n.

(* the value of an expression: variables are replaced by the value of their
   definition *)
Inductive norm (s : store) : ex -> ex -> Prop :=
| norm_free n : s n = None -> norm s (ESym n) (ESym n)
| norm_var n b v : s n = Some b -> norm s b v -> norm s (ESym n) v
| norm_atom e : is_expr e = false -> is_sym e = false -> norm s e e
| norm_expr l vs : Forall2 (norm s) l vs -> norm s (EExpr l) (EExpr vs).

(* x = e stores and shows the value of e, x := e stores e, e shows its value *)
Inductive shows : store -> list cmd -> list ex -> store -> Prop :=
| sh_nil s : shows s [] [] s
| sh_set s x e v t os s' : norm s e v -> shows (upd s x v) t os s' -> shows s (CSet x e :: t) (v :: os) s'
| sh_delay s x e t os s' : shows (upd s x e) t os s' -> shows s (CDelay x e :: t) (sys "Null" :: os) s'
| sh_read s e v t os s' : norm s e v -> shows s t os s' -> shows s (CRead e :: t) (v :: os) s'.

(* the symbols of an expression *)
Inductive occurs (n : string) : ex -> Prop :=
| oc_sym : occurs n (ESym n)
| oc_part l x : In x l -> occurs n x -> occurs n (EExpr l).

Definition active (n : string) : Prop := n = sFactorial \/ n = sRational.
Definition quiet (e : ex) : Prop := forall n, occurs n e -> ~ active n.

(* Only x = e and e; a variable is given a value before it is used: x = e does
   not come after an expression that mentions x while x had no value. *)
Inductive assigned_before_use : (string -> Prop) -> store -> list cmd -> Prop :=
| ab_nil f s : assigned_before_use f s []
| ab_read f s e t : quiet e ->
    assigned_before_use (fun n => f n \/ occurs n e /\ s n = None) s t -> assigned_before_use f s (CRead e :: t)
| ab_set f s x e v t : quiet e -> ~ active x -> norm s e v -> ~ f x -> ~ (occurs x e /\ s x = None) ->
    assigned_before_use (fun n => f n \/ occurs n e /\ s n = None) (upd s x v) t ->
    assigned_before_use f s (CSet x e :: t).

(* -------- object graphs -------- *)
(* the value of the object at a, with the definitions r: every variable in it
   stands for the value of its definition *)
Inductive means (r : vars) (h : heap) : addr -> ex -> Prop :=
| me_free a n : hget h a = Some (OSym n) -> vget r n = None -> means r h a (ESym n)
| me_var a n d v : hget h a = Some (OSym n) -> vget r n = Some d -> means r h d v -> means r h a v
| me_atom a e : hget h a = Some (OAtom e) -> means r h a e
| me_int a b c : hget h a = Some (OInt b c) -> means r h a (EInt (bget h b))
| me_expr a ps e c vs : hget h a = Some (OExpr ps e c) -> Forall2 (means r h) ps vs -> means r h a (EExpr vs).

(* the objects in L refer only to objects in L, without cycles (also not through
   definitions), and contain neither Factorial nor Rational *)
Definition ranked (rk : addr -> nat) (L : addr -> Prop) (r : vars) (h : heap) : Prop :=
  forall a, L a ->
    match hget h a with
    | None => False
    | Some (OSym n) => ~ active n /\ forall d, vget r n = Some d -> L d /\ rk d < rk a
    | Some (OAtom e) => is_expr e = false /\ is_sym e = false
    | Some (OInt b _) => b < length (h_bigs h)
    | Some (ORat _ _) => False
    | Some (OExpr ps _ _) => forall p, In p ps -> L p /\ rk p < rk a
    end.
(* an object marked as evaluated *)
Definition final (r : vars) (h : heap) (a : addr) : Prop :=
  match hget h a with
  | Some (OSym n) => vget r n = None
  | Some (OAtom _) | Some (OInt _ _) => True
  | Some (OExpr _ e _) => e <> 0%N
  | _ => False
  end.
(* an expression marked as evaluated has only evaluated parts *)
Definition marked (L : addr -> Prop) (r : vars) (h : heap) : Prop :=
  forall a ps e c, L a -> hget h a = Some (OExpr ps e c) -> e <> 0%N -> c = e /\ forall p, In p ps -> final r h p.
