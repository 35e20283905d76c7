(* Expressions as mutable objects: the in-place updates of evalExpression, the
   EvaledHash and CachedHash fields, and builtins that change the number inside
   an Integer object.  M_Eval.v models the evaluator without these effects.
   Fragment: heads without attributes, downvalues or LegacyEvalFn (their
   evaluation only evaluates the parts), Factorial and Rational; variables are
   set with Set and SetDelayed of a symbol.  Not modelled here: holding
   attributes, Sequence, Evaluate, Unevaluated, Return, tracing, exceptions. *)
From Verif Require Import M_Syntax M_Float M_Hash.
Open Scope nat_scope.

Definition addr : Type := nat.
(* The objects behind the interface Ex.
   atoms/ex_symbol.go 14-17 (the hash cached in a symbol is always right, the
   name never changes), ex_integer.go 12-15: Val is a pointer to a big.Int,
   ex_rational.go 10-14: two pointers, ex_expression.go 12-18.
   OAtom: strings and reals, never changed. *)
Inductive obj : Type :=
| OSym (n : string)
| OAtom (e : ex)
| OInt (b : addr) (cached : N)
| ORat (bn bd : addr)
| OExpr (parts : list addr) (evaled cached : N).
Record heap : Type := Heap { h_objs : list obj; h_bigs : list Z }.
Definition hget (h : heap) (a : addr) : option obj := nth_error (h_objs h) a.
Fixpoint lset {A} (l : list A) (i : nat) (x : A) : list A :=
  match l, i with
  | [], _ => []
  | _ :: t, O => x :: t
  | y :: t, S j => y :: lset t j x
  end.
Definition hset (h : heap) (a : addr) (o : obj) : heap := Heap (lset (h_objs h) a o) (h_bigs h).
Definition hnew (h : heap) (o : obj) : addr * heap := (length (h_objs h), Heap (h_objs h ++ [o]) (h_bigs h)).
Definition bget (h : heap) (b : addr) : Z := nth b (h_bigs h) 0%Z.
Definition bset (h : heap) (b : addr) (z : Z) : heap := Heap (h_objs h) (lset (h_bigs h) b z).
Definition bnew (h : heap) (z : Z) : addr * heap := (length (h_bigs h), Heap (h_objs h) (h_bigs h ++ [z])).

(* Outcome of running code: a value; the model's fuel is used up; or a computed
   hash was 0, which the caches cannot represent (not modelled further); or an
   address outside the heap (cannot happen in Go). *)
Inductive res (A : Type) : Type := Done (x : A) | Fuel | ZeroHash | BadAddr.
Arguments Done {A}. Arguments Fuel {A}. Arguments ZeroHash {A}. Arguments BadAddr {A}.
Definition rbind {A B} (r : res A) (f : A -> res B) : res B :=
  match r with Done x => f x | Fuel => Fuel | ZeroHash => ZeroHash | BadAddr => BadAddr end.

Definition nonzero (x : N) (h : heap) : res (N * heap) := if (x =? 0)%N then ZeroHash else Done (x, h).

Fixpoint hash_list (hsh : heap -> addr -> res (N * heap)) (h : heap) (l : list addr) : res (list N * heap) :=
  match l with
  | [] => Done ([], h)
  | a :: t => rbind (hsh h a) (fun '(x, h1) => rbind (hash_list hsh h1 t) (fun '(xs, h2) => Done (x :: xs, h2)))
  end.
(* the Hash methods with their caches: ex_symbol.go 252-261, ex_integer.go 70-80,
   ex_rational.go 79-87, ex_expression.go 233-246; builtin_system.go 38-40: hashEx *)
Fixpoint ohash (k : nat) (h : heap) (a : addr) : res (N * heap) :=
  match k with
  | O => Fuel
  | S k' =>
      match hget h a with
      | None => BadAddr
      | Some (OSym n) => nonzero (hash (ESym n)) h
      | Some (OAtom e) => nonzero (hash e) h
      | Some (OInt b c) => if (0 <? c)%N then Done (c, h)
                           else let x := hash (EInt (bget h b)) in nonzero x (hset h a (OInt b x))
      | Some (ORat bn bd) => nonzero (hash (ERat (bget h bn) (bget h bd))) h
      | Some (OExpr ps ev c) =>
          if (0 <? c)%N then Done (c, h)
          else rbind (hash_list (ohash k') h ps) (fun '(xs, h1) =>
                 let x := fnv ([72; 5; 244; 86; 5; 210; 69; 30]%N ++ flat_map le64 xs) in
                 nonzero x (hset h1 a (OExpr ps ev x)))
      end
  end.

(* the definitions of symbols: evalstate.go 314-327, 471-560 restricted to
   rules HoldPattern[x] :> rhs; the rhs is the object itself, not a copy *)
Definition vars : Type := list (string * addr).
Fixpoint vget (r : vars) (n : string) : option addr :=
  match r with
  | [] => None
  | (m, a) :: t => if String.eqb m n then Some a else vget t n
  end.
Definition vset (r : vars) (n : string) (a : addr) : vars := (n, a) :: r.

Definition sFactorial : string := sysname "Factorial".
Definition sRational : string := sysname "Rational".

(* builtin_combinatorics.go 91-104: factorial; n.Sub(n, &one) changes n itself.
   The number k is n as a natural number. *)
Fixpoint go_factorial (k : nat) (h : heap) (b : addr) : Z * heap :=
  match k with
  | O => (1%Z, h)
  | S k' =>
      let result := bget h b in
      let h1 := bset h b (bget h b - 1)%Z in
      let (r, h2) := go_factorial k' h1 b in
      ((result * r)%Z, h2)
  end.

Definition hnew_int (h : heap) (z : Z) : addr * heap :=
  let (b, h1) := bnew h z in hnew h1 (OInt b 0%N).

(* eval.go 269-310: evalRational *)
Definition eval_rational (h : heap) (a : addr) (bn bd : addr) : addr * heap :=
  let n := bget h bn in let d := bget h bd in
  if (n =? 0)%Z && (d =? 0)%Z then hnew h (OSym (sysname "Indeterminate"))
  else if (d =? 0)%Z then hnew h (OSym (sysname "ComplexInfinity"))
  else if (n =? 0)%Z then hnew_int h 0%Z
  else
    let neg := negb (Bool.eqb (n <? 0)%Z (d <? 0)%Z) in
    let g := Z.gcd (Z.abs n) (Z.abs d) in
    let an := (Z.abs n / g)%Z in
    let ad := (Z.abs d / g)%Z in
    let sn := if neg then (- an)%Z else an in
    if (ad =? 1)%Z then hnew_int h sn
    else (a, bset (bset h bn sn) bd ad).

(* LegacyEvalFn of Factorial (builtin_combinatorics.go 197-211) and Rational
   (builtin_atoms.go 11-21); None: returned unchanged *)
Definition apply_fn (h : heap) (head : string) (args : list addr) : option (addr * heap) :=
  if String.eqb head sFactorial then
    match args with
    | [x] => match hget h x with
             | Some (OInt b _) =>
                 if (bget h b <? 0)%Z then Some (hnew h (OSym (sysname "ComplexInfinity")))
                 else let (r, h1) := go_factorial (Z.to_nat (bget h b)) h b in Some (hnew_int h1 r)
             | _ => None
             end
    | _ => None
    end
  else if String.eqb head sRational then
    match args with
    | [x; y] => match hget h x, hget h y with
                | Some (OInt bn _), Some (OInt bd _) =>
                    let (a, h1) := hnew h (ORat bn bd) in Some (eval_rational h1 a bn bd)
                | _, _ => None
                end
    | _ => None
    end
  else None.

Section Eval.
Variable ev : heap -> addr -> res (addr * heap).   (* es.Eval *)
Variable hsh : heap -> addr -> res (N * heap).     (* Hash() *)

(* eval.go 136-151: one part; the slice is written after the call *)
Definition eval_part (h : heap) (a : addr) (i : nat) : res heap :=
  match hget h a with
  | Some (OExpr ps _ _) =>
      match nth_error ps i with
      | None => BadAddr
      | Some p =>
          rbind (hsh h p) (fun '(old, h1) =>
          rbind (ev h1 p) (fun '(p', h2) =>
          match hget h2 a with
          | Some (OExpr ps2 e2 c2) =>
              let h3 := hset h2 a (OExpr (lset ps2 i p') e2 c2) in
              rbind (hsh h3 p') (fun '(new, h4) =>
              if (old =? new)%N then Done h4
              else match hget h4 a with
                   | Some (OExpr ps4 e4 _) => Done (hset h4 a (OExpr ps4 e4 0%N))
                   | _ => BadAddr
                   end)
          | _ => BadAddr
          end))
      end
  | _ => BadAddr
  end.
(* eval.go 122-162 *)
Fixpoint eval_parts (h : heap) (a : addr) (is : list nat) : res heap :=
  match is with
  | [] => Done h
  | i :: t => rbind (eval_part h a i) (fun h1 => eval_parts h1 a t)
  end.

(* eval.go 57-267, the loop: [last] and [curr] are lastExHash and currExHash *)
Fixpoint eval_loop (j : nat) (h : heap) (a : addr) (last curr : N) : res (addr * heap) :=
  match j with
  | O => Fuel
  | S j' =>
      match hget h a with
      | None => BadAddr
      | Some (OExpr ps e c) =>
          if (curr =? last)%N then Done (a, hset h a (OExpr ps curr c))
          else if (curr =? e)%N then Done (a, h)
          else
            let head := match ps with p :: _ => match hget h p with Some (OSym n) => Some n | _ => None end | [] => None end in
            rbind (eval_parts h a (seq 0 (length ps))) (fun h1 =>
            match hget h1 a with
            | Some (OExpr ps1 _ _) =>
                let next := match head with
                            | Some n => match apply_fn h1 n (tl ps1) with Some r => r | None => (a, h1) end
                            | None => (a, h1)
                            end in
                rbind (hsh (snd next) (fst next)) (fun '(x, h2) => eval_loop j' h2 (fst next) curr x)
            | _ => BadAddr
            end)
      | Some _ => if (curr =? last)%N then Done (a, h) else ev h a
      end
  end.
End Eval.

(* eval.go 20-35: Eval; 46-56: the start of evalExpression; 312-333: evalSymbol *)
Fixpoint heval (k : nat) (r : vars) (h : heap) (a : addr) : res (addr * heap) :=
  match k with
  | O => Fuel
  | S k' =>
      match hget h a with
      | None => BadAddr
      | Some (OSym n) =>
          match vget r n with
          | None => Done (a, h)
          | Some d => match hget h d with
                      | Some (OSym m) => if String.eqb m n then Done (d, h) else heval k' r h d
                      | _ => heval k' r h d
                      end
          end
      | Some (OAtom _) | Some (OInt _ _) => Done (a, h)
      | Some (ORat bn bd) => Done (eval_rational h a bn bd)
      | Some (OExpr _ e _) =>
          rbind (ohash k' h a) (fun '(x, h1) =>
          if (x =? e)%N then Done (a, h1) else eval_loop (heval k' r) (ohash k') k' h1 a 0%N x)
      end
  end.

(* what the parser builds (parser/interp.go): fresh objects for every input *)
Fixpoint alloc (h : heap) (e : ex) : addr * heap :=
  match e with
  | ESym n => hnew h (OSym n)
  | EInt z => hnew_int h z
  | EExpr l =>
      let '(ps, h1) := (fix go (h : heap) (l : list ex) : list addr * heap :=
                          match l with
                          | [] => ([], h)
                          | x :: t => let (p, h1) := alloc h x in let (ps, h2) := go h1 t in (p :: ps, h2)
                          end) h l in
      hnew h1 (OExpr ps 0%N 0%N)
  | _ => hnew h (OAtom e)
  end.

(* reading an object back as a tree (printing it, comparing it, ...) *)
Fixpoint tree (k : nat) (h : heap) (a : addr) : option ex :=
  match k with
  | O => None
  | S k' =>
      match hget h a with
      | None => None
      | Some (OSym n) => Some (ESym n)
      | Some (OAtom e) => Some e
      | Some (OInt b _) => Some (EInt (bget h b))
      | Some (ORat bn bd) => Some (ERat (bget h bn) (bget h bd))
      | Some (OExpr ps _ _) =>
          match (fix go l := match l with
                             | [] => Some []
                             | p :: t => match tree k' h p, go t with Some x, Some y => Some (x :: y) | _, _ => None end
                             end) ps with
          | Some l => Some (EExpr l)
          | None => None
          end
      end
  end.

(* a session: x = e, x := e, and e *)
Inductive cmd : Type := CSet (x : string) (e : ex) | CDelay (x : string) (e : ex) | CRead (e : ex).
Record session : Type := Sess { s_heap : heap; s_vars : vars }.

(* builtin_system.go 490-500: Set evaluates the right-hand side (HoldFirst),
   defines x as that object and returns it; the result is evaluated once more
   (eval.go 57-95).  570-605: SetDelayed stores the unevaluated object and
   returns Null. *)
Definition exec (k : nat) (s : session) (c : cmd) : res (option ex * session) :=
  match c with
  | CSet x e =>
      let (a, h1) := alloc (s_heap s) e in
      rbind (heval k (s_vars s) h1 a) (fun '(a1, h2) =>
      let r := vset (s_vars s) x a1 in
      rbind (heval k r h2 a1) (fun '(a2, h3) => Done (tree k h3 a2, Sess h3 r)))
  | CDelay x e => let (a, h1) := alloc (s_heap s) e in Done (Some (sys "Null"), Sess h1 (vset (s_vars s) x a))
  | CRead e =>
      let (a, h1) := alloc (s_heap s) e in
      rbind (heval k (s_vars s) h1 a) (fun '(a1, h2) => Done (tree k h2 a1, Sess h2 (s_vars s)))
  end.
Fixpoint exec_all (k : nat) (s : session) (l : list cmd) : res (list (option ex) * session) :=
  match l with
  | [] => Done ([], s)
  | c :: t => rbind (exec k s c) (fun '(o, s1) => rbind (exec_all k s1 t) (fun '(os, s2) => Done (o :: os, s2)))
  end.
Definition start : session := Sess (Heap [] []) [].
