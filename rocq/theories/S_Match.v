(* Declarative semantics of patterns, independent of the matching algorithm:
   when is an expression an instance of a pattern under given bindings? *)
From Verif Require Import M_Syntax M_Hash M_Match S_Alloc.
From Coq Require Import Permutation Relations.
Open Scope nat_scope.

(* bindings of the pattern names *)
Definition bindings : Type := string -> option ex.

(* the equivalence relation generated by SameQ *)
Definition same : ex -> ex -> Prop := clos_refl_sym_trans ex (fun a b => is_sameq a b = true).

(* _h, __h, ___h *)
Definition is_blank (p : ex) (args : list ex) : Prop :=
  exists s, (s = nBlank \/ s = nBS \/ s = nBNS) /\ p = EExpr (ESym s :: args).
(* Integer for 3, f for f[x], ... *)
Definition head_is (e h : ex) : Prop := is_sameq (head_ex e) h = true.
Definition head_fits (args : list ex) (e : ex) : Prop := match args with [] => True | h :: _ => head_is e h end.

(* How a pattern in an argument position is built: Optional[...] around a test
   around a name around the core *)
Record cview : Type := CView { cv_opt : option (option ex); cv_test : option ex; cv_name : option string; cv_core : ex }.
Definition view (p : ex) : cview :=
  let '(p1, o) := match p with EExpr (ESym h :: q :: r) => if String.eqb h nOptional then (q, Some (hd_error r)) else (p, None) | _ => (p, None) end in
  let '(p2, t) := match p1 with EExpr (ESym h :: q :: t :: _) => if String.eqb h nPatTest then (q, Some t) else (p1, None) | _ => (p1, None) end in
  let '(p3, n) := match p2 with EExpr (ESym h :: ESym x :: q :: _) => if String.eqb h nPattern then (q, Some x) else (p2, None) | _ => (p2, None) end in
  CView o t n p3.

(* How many arguments the core may take, and the pattern each of them has to
   match.  In a Flat function f a blank _ takes one or more arguments (which
   are then wrapped in f), and _f takes at least two. *)
Definition core_spec (flat : bool) (f : string) (core : ex) : nat * option nat * ex :=
  let blank l := EExpr (sys "Blank" :: firstn 1 l) in
  match core with
  | EExpr (ESym h :: l) =>
      if String.eqb h nBNS then (0, None, blank l)
      else if String.eqb h nBS then (1, None, blank l)
      else if String.eqb h nBlank then
        if flat then
          match l with
          | ESym g :: _ => if String.eqb g f then (2, None, blank []) else (1, Some 1, core)
          | _ => (1, None, core)
          end
        else (1, Some 1, core)
      else if String.eqb h nRepeated then
        match l with
        | [q] => (1, None, q)
        | q :: EExpr [ESym lst; EInt k] :: _ =>
            if String.eqb lst nList then
              if Z.eqb k (-1)%Z then (1, None, q)
              else if Z.ltb k 0%Z then (1, Some 0, q) else (Z.to_nat k, Some (Z.to_nat k), q)
            else (1, Some 1, core)
        | _ => (1, Some 1, core)
        end
      else if String.eqb h nRepeatedNull then
        match l with [q] => (0, None, q) | _ => (1, Some 1, core) end
      else (1, Some 1, core)
  | _ => (1, Some 1, core)
  end.

Definition flat_blank (flat : bool) (core : ex) : bool :=
  match core with EExpr (ESym h :: _) => String.eqb h nBlank && flat | _ => false end.
Definition single_blank (flat : bool) (core : ex) : bool :=
  match core with EExpr (ESym h :: _) => String.eqb h nBlank && negb flat | _ => false end.

(* the default an Optional stands for, if any *)
Definition opt_default (env : menv) (f : string) (v : cview) : option ex :=
  match cv_opt v with Some (Some d) => Some d | Some None => me_default env f | None => None end.

Definition bounds (env : menv) (flat : bool) (f : string) (v : cview) : nat * option nat :=
  match cv_opt v with
  | Some _ =>
      ((match opt_default env f v with Some _ => 0 | None => 1 end),
       (if flat_blank flat (cv_core v) then match cv_test v with None => None | Some _ => Some 1 end else Some 1))
  | None => fst (core_spec flat f (cv_core v))
  end.
Definition within (b : nat * option nat) (n : nat) : Prop :=
  fst b <= n /\ match snd b with None => True | Some m => n <= m end.

Definition element_pattern (flat : bool) (f : string) (v : cview) : ex :=
  let c := match cv_opt v with Some _ => cv_core v | None => snd (core_spec flat f (cv_core v)) end in
  match cv_test v with Some t => EExpr [sys "PatternTest"; c; t] | None => c end.

(* The value a name gets: the expression itself for a single blank, otherwise
   the block wrapped in Sequence (or in f, for a blank in a Flat function f).
   expreduce's convention wraps a single argument too, unless f has the
   attribute OneIdentity or the pattern is optional. *)
Definition name_value (env : menv) (flat : bool) (f : string) (v : cview) (block : list ex) : ex :=
  let is_opt := match cv_opt v with Some _ => true | None => false end in
  let wrapped := EExpr ((if flat_blank flat (cv_core v) then ESym f else sys "Sequence") :: block) in
  match block with
  | [e] => if single_blank flat (cv_core v) || me_oneid env f || is_opt then e else wrapped
  | [] => match opt_default env f v with Some d => d | None => wrapped end
  | _ => wrapped
  end.

(* One argument pattern p of a function f against a block of arguments, given
   what it means for one expression to be an instance of a pattern. *)
Definition takes (inst1 : ex -> ex -> Prop) (R : ex -> ex -> Prop) (env : menv) (flat : bool) (f : string)
    (sg : bindings) (block : list ex) (p : ex) : Prop :=
  within (bounds env flat f (view p)) (length block) /\
  Forall (fun e => inst1 e (element_pattern flat f (view p))) block /\
  match cv_name (view p) with
  | None => True
  | Some x => exists v, sg x = Some v /\ R (name_value env flat f (view p) block) v
  end.

(* The blocks are a division of the arguments: consecutive in general, any
   distribution keeping the order inside each block for an Orderless function. *)
Definition divided (orderless : bool) (args : list ex) (blocks : list (list ex)) : Prop :=
  if orderless then
    exists ix, Permutation (concat ix) (seq 0 (length args)) /\ Forall strictly_increasing ix /\
               blocks = map (map (fun i => nth i args (sys "Null"))) ix
  else concat blocks = args.

Definition passes (env : menv) (t e : ex) : Prop :=
  if ex_eqb t (sys "NumberQ") then numberQ e = true else me_true env (EExpr [t; e]) = true.

(* heads with a meaning of their own *)
Definition special (s : string) (args : list ex) : Prop :=
  s = nBlank \/ s = nBS \/ s = nBNS \/ s = nAlt \/
  (s = nExcept /\ (length args = 1 \/ length args = 2)) \/ (s = nPatTest /\ length args = 2) \/
  (s = nHoldPattern /\ length args = 1) \/
  (s = nPattern /\ exists x q l r, args = x :: q :: r /\ is_blank q l).
Definition plain (p : ex) : Prop := match p with EExpr (ESym s :: args) => ~ special s args | _ => True end.

Definition pd_bindings (pm : pdm) : bindings := pd_get pm.
Definition covers (R : ex -> ex -> Prop) (sg : bindings) (pm : pdm) : Prop :=
  forall x v, pd_get pm x = Some v -> exists w, sg x = Some w /\ R v w.

Section inst.
  (* neg e p: e is not an instance of p (used for Except) *)
  Variable neg : ex -> ex -> Prop.
  (* how the value of a name may differ from what it is matched against *)
  Variable R : ex -> ex -> Prop.
  Variable env : menv.

  Inductive inst (sg : bindings) : ex -> ex -> Prop :=
  (* _, _h *)
  | I_blank e p args : is_blank p args -> head_fits args e -> inst sg e p
  (* x_, x_h *)
  | I_named e x q r args v : is_blank q args -> head_fits args e -> sg x = Some v -> R e v ->
      inst sg e (EExpr (sys "Pattern" :: ESym x :: q :: r))
  | I_unnamed e x q r args : is_blank q args -> head_fits args e -> is_sym x = false ->
      inst sg e (EExpr (sys "Pattern" :: x :: q :: r))
  (* p | q | ... *)
  | I_alt e ps p : In p ps -> inst sg e p -> inst sg e (EExpr (sys "Alternatives" :: ps))
  | I_except e p : neg e p -> inst sg e (EExpr [sys "Except"; p])
  | I_except2 e p q : neg e p -> inst sg e q -> inst sg e (EExpr [sys "Except"; p; q])
  (* p?t *)
  | I_test e p t : inst sg e p -> passes env t e -> inst sg e (EExpr [sys "PatternTest"; p; t])
  (* p /; c: c holds under bindings that make e an instance of p *)
  | I_cond e p c pm : covers R sg pm -> inst (pd_bindings pm) e p -> inst sg e p -> me_true env (replace_pd pm c) = true ->
      inst sg e (EExpr [sys "Condition"; p; c])
  | I_opt e p : inst sg e p -> inst sg e (EExpr [sys "Optional"; p])
  | I_hold e p : inst sg e p -> inst sg e (EExpr [sys "HoldPattern"; p])
  (* left open: Condition (Optional) expressions as the subject of Condition
     (Optional) patterns *)
  | I_open s h l l' : s = nCondition \/ s = nOptional -> inst sg h (ESym s) -> inst sg (EExpr (h :: l)) (EExpr (ESym s :: l'))
  (* numbers seen as Rational[n, d] and Complex[re, im] *)
  | I_rat n d p : plain p -> is_expr p = true -> inst sg (EExpr [sys "Rational"; EInt n; EInt d]) p -> inst sg (ERat n d) p
  | I_cplx r i p : plain p -> is_expr p = true -> inst sg (EExpr [sys "Complex"; r; i]) p -> inst sg (ECplx r i) p
  (* e seen as f[e] when f has OneIdentity and a default and some argument of
     the pattern is optional *)
  | I_assume e f ps : me_oneid env f = true -> me_default env f <> None -> existsb (fun p => has_head p nOptional) ps = true ->
      has_head e f = false -> plain (EExpr (ESym f :: ps)) ->
      inst sg (EExpr [ESym f; e]) (EExpr (ESym f :: ps)) -> inst sg e (EExpr (ESym f :: ps))
  (* atoms *)
  | I_atom e p : is_expr e = false -> is_num_atom e && is_expr p = false -> plain p -> is_sameq e p = true -> inst sg e p
  (* f[...] against f[...] *)
  | I_args f args ps blocks : plain (EExpr (ESym f :: ps)) -> divided (me_orderless env f) args blocks ->
      Forall2 (fun b p => takes (inst sg) R env (me_flat env f) f sg b p) blocks ps ->
      inst sg (EExpr (ESym f :: args)) (EExpr (ESym f :: ps))
  (* h[...] against p[...] *)
  | I_head h args hp ps blocks : plain (EExpr (hp :: ps)) ->
      (forall f, h = ESym f -> hp <> ESym f) ->
      takes (inst sg) R env false "Sequence"%string sg [h] hp ->
      concat blocks = args ->
      Forall2 (fun b p => takes (inst sg) R env false "Sequence"%string sg b p) blocks ps ->
      inst sg (EExpr (h :: args)) (EExpr (hp :: ps)).
End inst.

(* ---- patterns for which matching is claimed to be sound ---- *)
Definition blank_name (s : string) : bool := String.eqb s nBlank || String.eqb s nBS || String.eqb s nBNS.
(* a head pattern stands for exactly one expression, and is not Verbatim[h] *)
Definition single_head (h : ex) : bool :=
  match cv_opt (view h) with
  | Some _ => false
  | None => match fst (core_spec false "Sequence"%string (cv_core (view h))) with
            | (1, Some 1) => true
            | _ => false
            end
  end &&
  match h with EExpr [ESym s; _] => negb (String.eqb s nVerbatim) | _ => true end.
(* every f[...] has an argument, heads are single expressions, and what is
   excluded by Except satisfies neg_ok *)
Fixpoint supported (neg_ok : ex -> bool) (p : ex) : bool :=
  match p with
  | EExpr (ESym s :: args) =>
      if blank_name s then true
      else if String.eqb s nExcept then
        match args with
        | [q] => neg_ok q
        | [q; r] => neg_ok q && supported neg_ok r
        | [] => false
        | _ => forallb (supported neg_ok) args
        end
      else if String.eqb s nCondition || String.eqb s nOptional then
        match args with q :: _ => supported neg_ok q | [] => true end
      else if String.eqb s nPatTest then
        match args with [q; _] => supported neg_ok q | [] => false | _ => forallb (supported neg_ok) args end
      else match args with [] => false | _ => forallb (supported neg_ok) args end
  | EExpr (h :: args) => single_head h && supported neg_ok h && forallb (supported neg_ok) args
  | EExpr [] => false
  | _ => true
  end.
(* Condition and Optional have no attributes and no default *)
Definition env_ok (env : menv) : Prop := me_oneid env nCondition = false /\ me_oneid env nOptional = false.

(* ---- patterns for which matching is claimed to be complete ---- *)
(* contains no named pattern *)
Fixpoint name_free (p : ex) : bool :=
  match p with
  | EExpr (ESym s :: args) => negb (String.eqb s nPattern) && forallb name_free args
  | EExpr l => forallb name_free l
  | _ => true
  end.
Definition is_blankb (p : ex) : bool := match p with EExpr (ESym s :: _) => blank_name s | _ => false end.
Definition named_blank (p : ex) : bool :=
  match p with EExpr [ESym s; ESym _; q] => String.eqb s nPattern && is_blankb q | _ => false end.

(* position of a pattern: an argument of a function, under a name in such a
   position, or anywhere else *)
Inductive pmode : Type := MTop | MCore | MElem.
(* Names are given to blanks (x_, x_h) anywhere, and to other patterns only
   directly in argument positions; patterns under Alternatives, Except, tests
   of compound patterns contain no names; no Optional, no Condition; Except of
   patterns satisfying neg_ok. *)
Fixpoint frag (neg_ok : ex -> bool) (m : pmode) (p : ex) : bool :=
  match p with
  | EExpr (ESym s :: args) =>
      if blank_name s then true
      else if String.eqb s nPattern then
        match args with
        | [ESym _; q] => match m with MTop => frag neg_ok MCore q | _ => is_blankb q end
        | _ => false
        end
      else if String.eqb s nPatTest then
        match args with
        | [q; _] =>
            match m with
            | MTop => match q with
                      | EExpr [ESym s'; ESym _; c] =>
                          if String.eqb s' nPattern then frag neg_ok MCore c && name_free c
                          else frag neg_ok MCore q && name_free q
                      | _ => frag neg_ok MCore q && name_free q
                      end
            | _ => frag neg_ok MElem q && (name_free q || named_blank q)
            end
        | _ => false
        end
      else if String.eqb s nRepeated then
        match m, args with
        | MElem, _ => false
        | _, [q] => frag neg_ok MElem q
        | _, [q; EExpr [ESym l; EInt _]] => frag neg_ok MElem q && String.eqb l nList
        | _, _ => false
        end
      else if String.eqb s nRepeatedNull then
        match m, args with MElem, _ => false | _, [q] => frag neg_ok MElem q | _, _ => false end
      else if String.eqb s nAlt then forallb (fun q => frag neg_ok MElem q && name_free q) args
      else if String.eqb s nExcept then
        match args with
        | [q] => neg_ok q
        | [q; r] => neg_ok q && frag neg_ok MElem r && name_free r
        | _ => false
        end
      else if String.eqb s nHoldPattern then
        match args with [q] => frag neg_ok MElem q | _ => false end
      else if String.eqb s nCondition || String.eqb s nOptional then false
      else match args with [] => false | _ => forallb (frag neg_ok MTop) args end
  | EExpr (h :: args) => single_head h && frag neg_ok MTop h && forallb (frag neg_ok MTop) args
  | EExpr [] => false
  | _ => true
  end.
(* no Rational or Complex atom inside *)
Fixpoint no_pairs (e : ex) : bool :=
  match e with
  | ERat _ _ | ECplx _ _ => false
  | EExpr l => forallb no_pairs l
  | _ => true
  end.
(* every compound pattern has a symbol, not taken for Rational or Complex, as head *)
Fixpoint sym_heads (p : ex) : bool :=
  match p with
  | EExpr (ESym s :: args) => negb (is_sameq (sys "Rational") (ESym s)) && negb (is_sameq (sys "Complex") (ESym s)) && forallb sym_heads args
  | EExpr _ => false
  | _ => true
  end.
Definition pairs_ok (a b : ex) : bool := name_free b || no_pairs a || sym_heads b.

(* Except may be nested n deep *)
Fixpoint neg_n (env : menv) (n : nat) : ex -> ex -> Prop :=
  match n with
  | O => fun _ _ => False
  | S k => fun e p => ~ exists sg, inst (neg_n env k) same env sg e p
  end.
Fixpoint neg_ok_n (n : nat) : ex -> bool :=
  match n with
  | O => fun _ => false
  | S k => fun q => frag (neg_ok_n k) MElem q && name_free q && supported (neg_ok_n k) q
  end.

(* the names of a pattern: x in x:q, also written Verbatim[Pattern][x, q] *)
Definition is_pattern_head (h : ex) : bool :=
  ex_eqb h (sys "Pattern") || ex_eqb h (EExpr [sys "Verbatim"; sys "Pattern"]).
Fixpoint pattern_names (p : ex) : list string :=
  match p with
  | EExpr l => match l with h :: ESym x :: _ => if is_pattern_head h then [x] else [] | _ => [] end ++ flat_map pattern_names l
  | _ => []
  end.

(* ---- substitution of bindings ---- *)
(* e' is e with every bound symbol replaced by its value, simultaneously *)
Inductive subst (pm : pdm) : ex -> ex -> Prop :=
| S_bound x v : pd_get pm x = Some v -> subst pm (ESym x) v
| S_free x : pd_get pm x = None -> subst pm (ESym x) (ESym x)
| S_other e : is_sym e = false -> is_expr e = false -> subst pm e e
| S_parts l l' : Forall2 (subst pm) l l' -> subst pm (EExpr l) (EExpr l').
(* x occurs as a symbol in e *)
Inductive occurs (x : string) : ex -> Prop :=
| Oc_sym : occurs x (ESym x)
| Oc_part l e : In e l -> occurs x e -> occurs x (EExpr l).
