(* Specification of replacement and of pure functions. *)
From Verif Require Import M_Syntax M_Hash M_Match M_Defs M_Eval S_Eval S_Match.
Open Scope nat_scope.

(* all subexpressions; no two different expressions of a list share a hash *)
Fixpoint subterms (e : ex) : list ex :=
  e :: match e with EExpr l => flat_map subterms l | _ => [] end.
Definition collision_free (l : list ex) : Prop :=
  forall a b, In a l -> In b l -> hash a = hash b -> a = b.

(* top-down rewriting with the rule lhs -> rhs: an expression with the head
   [stop] is left alone; an expression that matches becomes the right-hand side
   with the bound names filled in; otherwise the parts are rewritten *)
Inductive rewrites (env : menv) (lhs rhs : ex) (stop : string) : ex -> ex -> Prop :=
| RW_stop e : headed e stop -> rewrites env lhs rhs stop e e
| RW_match e m e' : ~ headed e stop -> is_match_q env e lhs [] = Some m -> subst m rhs e' -> rewrites env lhs rhs stop e e'
| RW_parts l l' : ~ headed (EExpr l) stop -> is_match_q env (EExpr l) lhs [] = None ->
    Forall2 (rewrites env lhs rhs stop) l l' -> rewrites env lhs rhs stop (EExpr l) (EExpr l')
| RW_atom e : is_expr e = false -> is_match_q env e lhs [] = None -> rewrites env lhs rhs stop e e.

(* the expression e with every occurrence of the atom p replaced by v, except
   inside expressions with the head [stop] *)
Fixpoint atom_subst (stop : string) (p v e : ex) : ex :=
  match e with
  | EExpr l => if has_head e stop then e else EExpr (map (atom_subst stop p v) l)
  | _ => if ex_eqb e p then v else e
  end.
(* symbols, integers and strings *)
Definition constant (p : ex) : Prop := match p with ESym _ | EInt _ | EStr _ => True | _ => False end.
(* simultaneous replacement: the first rule for the atom decides *)
Fixpoint first_rule (rules : list (ex * ex)) (e : ex) : ex :=
  match rules with
  | [] => e
  | (p, v) :: t => if ex_eqb e p then v else first_rule t e
  end.
Fixpoint simult (rules : list (ex * ex)) (e : ex) : ex :=
  match e with
  | EExpr l => EExpr (map (simult rules) l)
  | _ => first_rule rules e
  end.

(* #i *)
Definition slot (i : Z) : ex := EExpr [sys "Slot"; EInt i].
(* simultaneous substitution of the arguments for the slots #1, #2, ..., not
   inside nested functions *)
Fixpoint slot_subst (args : list ex) (e : ex) : ex :=
  match e with
  | EExpr l =>
      if has_head e (sysname "Function") then e
      else match l with
           | [ESym s; EInt i] =>
               if String.eqb s (sysname "Slot") && (1 <=? i)%Z && (i <=? Z.of_nat (length args))%Z
               then nth (Z.to_nat i - 1) args sNull
               else e
           | _ => EExpr (map (slot_subst args) l)
           end
  | _ => e
  end.
(* Slot occurs only as the head of Slot[n] *)
Definition slots_proper (e : ex) : Prop := forall l, In (EExpr (sys "Slot" :: l)) (subterms e) -> exists i, l = [EInt i].
(* Slot does not have the attributes Flat and Orderless, nor Condition and
   Optional the attribute OneIdentity *)
Definition slot_env (env : menv) : Prop :=
  env_ok env /\ me_orderless env (sysname "Slot") = false /\ me_flat env (sysname "Slot") = false.
(* every expression met while the slots #1, #2, ... are filled one by one *)
Definition slot_run_terms (args : list ex) (body : ex) : list ex :=
  sys "Slot" :: flat_map (fun k => EInt (Z.of_nat k) :: slot (Z.of_nat k) :: subterms (slot_subst (firstn k args) body))
                         (seq 0 (S (length args))).
