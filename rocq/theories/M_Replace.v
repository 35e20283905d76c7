(* ReplaceList (builtin_pattern.go) and ReplacePart (builtin_replacement.go). *)
From Verif Require Import M_Syntax M_Float M_Hash M_Order M_Sort M_Compare M_Match.
Open Scope nat_scope.

(* builtin_pattern.go 112-145: ReplaceList; arguments to result, None: the call
   is left unchanged.  A Rule with fewer than two arguments, on which the Go code
   panics, is left alone. *)
Definition replace_list_eval (env : menv) (args : list ex) : option ex :=
  match args with
  | [e; r] => match args_of r (sysname "Rule") with
              | Some (lhs :: rhs :: _) => Some (mkList (map (fun m => replace_pd_go m rhs) (fst (match_iter env e lhs []))))
              | _ => None
              end
  | _ => None
  end.

(* a position as the expression the rules are matched against *)
Definition position (p : list nat) : ex := mkList (map (fun i => EInt (Z.of_nat i)) p).
(* builtin_replacement.go 69-104 mutates one List object while it walks through
   the expression, and has emptied it at the end.  A name bound to the position
   as a whole refers to that object, so in the final result it stands for {}. *)
Definition emptied (v : ex) : ex := match v with EExpr (ESym h :: _) => if String.eqb h nList then mkList [] else v | _ => v end.
Definition shared (m : pdm) : pdm := map (fun '(x, v) => (x, emptied v)) m.
(* builtin_replacement.go 55-67 (rulesReplace) and replace.go 138-161.
   Simplification: right hand sides that are Conditions are not opened. *)
Fixpoint rules_replace (env : menv) (e : ex) (rules : list (ex * ex)) : option ex :=
  match rules with
  | [] => None
  | (lhs, rhs) :: t => match is_match_q env e lhs [] with
                       | Some m => Some (replace_pd_go (shared m) rhs)
                       | None => rules_replace env e t
                       end
  end.
(* builtin_replacement.go 81-88: the rule for a position, if any *)
Definition part_rule (env : menv) (rules : list (ex * ex)) (p : list nat) : option ex :=
  match rules_replace env (position p) rules with
  | Some v => Some v
  | None => match p with [i] => rules_replace env (EInt (Z.of_nat i)) rules | _ => None end
  end.
(* builtin_replacement.go 69-104: replaceParts; [p] is the position of e *)
Fixpoint replace_parts (env : menv) (rules : list (ex * ex)) (p : list nat) (e : ex) : ex :=
  match e with
  | EExpr (h :: l) =>
      let fix go (i : nat) (l : list ex) : list ex :=
        match l with
        | [] => []
        | x :: t => match part_rule env rules (p ++ [i]) with
                    | Some v => v
                    | None => replace_parts env rules (p ++ [i]) x
                    end :: go (S i) t
        end in
      EExpr (h :: go 1 l)
  | _ => e
  end.
(* builtin_replacement.go 244-253: the rules *)
Fixpoint part_rules (l : list ex) : option (list (ex * ex)) :=
  match l with
  | [] => Some []
  | r :: t => match args_of r (sysname "Rule") with
              | Some (lhs :: rhs :: _) => option_map (cons (lhs, rhs)) (part_rules t)
              | _ => None
              end
  end.
(* builtin_replacement.go 237-265: ReplacePart *)
Definition replace_part_eval (env : menv) (args : list ex) : option ex :=
  match args with
  | [e; r] => match args_of r nList with
              | Some l => match part_rules l with Some rules => Some (replace_parts env rules [] e) | None => None end
              | None => None
              end
  | _ => None
  end.
