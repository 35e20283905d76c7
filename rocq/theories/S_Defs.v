(* Specification vocabulary for the definition store.  Nothing here depends on
   how Define searches or inserts. *)
From Verif Require Import M_Syntax M_Hash M_Defs.
From Coq Require Import Sorted.
Open Scope nat_scope.

(* The symbol whose entry an assignment lhs = rhs changes. *)
Inductive target : ex -> string -> Prop :=
| T_sym s : s <> ""%string -> target (ESym s) s
| T_fun s args : s <> ""%string -> s <> sysname "Attributes" -> s <> sysname "DownValues" ->
    target (EExpr (ESym s :: args)) s
| T_attr s : target (EExpr [sys "Attributes"; ESym s]) s
| T_dv s : target (EExpr [sys "DownValues"; ESym s]) s
| T_verb s a b : s <> ""%string -> target (EExpr (EExpr (sys "Verbatim" :: ESym s :: a) :: b)) s.

(* Left-hand sides that add a rule for symbol s (x, f[...], Verbatim[f][...]). *)
Definition rule_lhs (lhs : ex) (s : string) : Prop :=
  target lhs s /\ (forall t, lhs <> EExpr [sys "Attributes"; ESym t]) /\
  (forall t, lhs <> EExpr [sys "DownValues"; ESym t]).

(* The rules stored for a symbol. *)
Definition rules_of (st : state) (s : string) : list dval :=
  match lookup st s with Some d => d_dvs d | None => [] end.

(* Two rules compete for the same left-hand side and condition. *)
Definition same_key (l1 r1 l2 r2 : ex) : Prop :=
  is_sameq l1 l2 = true /\ is_sameq (mask_non_conditional r1) (mask_non_conditional r2) = true.

(* One change of the definition store, by any operation except an assignment to
   DownValues[...] (which installs an arbitrary rule list).  St_local is the
   creation of an initialised Module variable. *)
Inductive step (fl : ex -> Z) : state -> state -> Prop :=
| St_define st lhs rhs st' :
    (forall t, lhs <> EExpr [sys "DownValues"; ESym t]) ->
    define fl st lhs rhs = Some st' -> step fl st st'
| St_clear st s : step fl st (clear st s)
| St_seen st s : step fl st (mark_seen st s)
| St_freeze st b : step fl st (State (st_defs st) b)
| St_local st s r : lookup st s = None ->
    step fl st (set_def st s (Def [DVal (held (ESym s)) r 0] no_attrs None false)).

Definition empty_state : state := State [] false.
(* Starting point: any set of symbols with attributes, defaults and builtin code
   (builtin_*.go), but no rules yet. *)
Inductive reachable (fl : ex -> Z) : state -> Prop :=
| R_init st : (forall s, rules_of st s = []) -> reachable fl st
| R_step st st' : reachable fl st -> step fl st st' -> reachable fl st'.

(* ---- C29: the definitions of one symbol as a user remembers them: in order of
   first definition, each with its latest right-hand side. *)
Definition keyb (l1 r1 l2 r2 : ex) : bool :=
  is_sameq l1 l2 && is_sameq (mask_non_conditional r1) (mask_non_conditional r2).
Fixpoint remember (h : list (ex * ex)) (lhs rhs : ex) : list (ex * ex) :=
  match h with
  | [] => [(lhs, rhs)]
  | (l, r) :: t => if keyb (held l) r (held lhs) rhs then (l, rhs) :: t else (l, r) :: remember t lhs rhs
  end.
Definition replay (h : list (ex * ex)) : list (ex * ex) :=
  fold_left (fun m '(l, r) => remember m l r) h [].

(* run the definitions one after another *)
Fixpoint run (fl : ex -> Z) (st : state) (h : list (ex * ex)) : option state :=
  match h with
  | [] => Some st
  | (l, r) :: t => match define fl st l r with Some st' => run fl st' t | None => None end
  end.

Definition is_cond (rhs : ex) : Prop := exists args, rhs = EExpr (sys "Condition" :: args).

(* Documented specificity (evalstate.go comment): Rubi`Int rules and conditional
   rules are ranked 100, a single integer argument 110, otherwise the length of
   the printed left-hand side. *)
Definition specificity (fl : ex -> Z) (name : string) (lhs rhs : ex) (z : Z) : Prop :=
  if String.eqb name "Rubi`Int" then z = 100%Z
  else match lhs with
       | EExpr [_; EInt _] => z = 110%Z
       | _ => (is_cond rhs -> z = 100%Z) /\ (~ is_cond rhs -> z = fl (held lhs))
       end.

(* ---- C31: the documented attribute names *)
Definition known_attributes : list string :=
  ["Constant"; "Flat"; "HoldAll"; "HoldAllComplete"; "HoldFirst"; "HoldRest"; "Listable";
   "Locked"; "NHoldAll"; "NHoldFirst"; "NHoldRest"; "NumericFunction"; "OneIdentity";
   "Orderless"; "Protected"; "ReadProtected"; "SequenceHold"; "Stub"; "Temporary"]%string.
Definition str_lt (a b : string) : Prop := String.compare a b = Lt.

(* ---- C52: a session.  Between two inputs the evaluator may change anything
   except the entries of In, Out and $Line. *)
Definition same_history (st st' : state) : Prop :=
  st_frozen st' = st_frozen st /\ lookup st' (sysname "In") = lookup st (sysname "In") /\
  lookup st' (sysname "Out") = lookup st (sysname "Out") /\ lookup st' (sysname "$Line") = lookup st (sysname "$Line").
Inductive session (fl : ex -> Z) : state -> list (ex * ex) -> state -> Prop :=
| Se_nil st : session fl st [] st
| Se_snoc st h st1 st2 inp out st3 : session fl st h st1 -> same_history st1 st2 ->
    process_top_level fl st2 inp out = Some st3 -> session fl st (h ++ [(inp, out)]) st3.
(* the rule for the literal expression e *)
Definition literal (e : ex) (d : dval) : option ex := if is_sameq (dv_lhs d) (held e) then Some (dv_rhs d) else None.
(* a state at the start of a session *)
Definition session_start (st : state) : Prop :=
  st_frozen st = false /\ rules_of st (sysname "In") = [] /\ rules_of st (sysname "Out") = [] /\
  exists sp, rules_of st (sysname "$Line") = [DVal (held (ESym (sysname "$Line"))) (EInt 1) sp].
