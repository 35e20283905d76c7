(* Module as a builtin of the evaluator: builtin_system.go, resources/system.m. *)
From Verif Require Import M_Syntax M_Float M_Hash M_Match M_Defs M_Eval.
Open Scope nat_scope.

(* builtin_system.go 197-230: one element of the list of locals; None: the call
   of Module is left as it is *)
Definition parse_local (e : ex) : option mlocal :=
  match e with
  | ESym s => Some (LPlain s)
  | _ =>
      match args_of e (sysname "Set"), args_of e (sysname "SetDelayed") with
      | Some [ESym s; v], _ => Some (LSet s v)
      | _, Some [ESym s; v] => Some (LDelayed s v)
      | _, _ => None
      end
  end.
Fixpoint parse_locals (l : list ex) : option (list mlocal) :=
  match l with
  | [] => Some []
  | e :: t =>
      match parse_local e, parse_locals t with
      | Some p, Some ps => Some (p :: ps)
      | _, _ => None
      end
  end.

(* builtin_system.go 243-260: the definition stored for a local whose value is
   r: one rule, no attributes *)
Definition local_def (u : string) (r : ex) : def := Def [DVal (held (ESym u)) r 0] no_attrs None false.
Definition set_local (es : estate) (u : string) (d : def) : estate := with_defs es (set_def (es_defs es) u d).
(* builtin_system.go 240-262: the loop over the locals.  A pending exception is
   not looked at. *)
Fixpoint start_locals (ev : evaluator) (es : estate) (ls : list (mlocal * string)) : outcome estate :=
  match ls with
  | [] => Ret es
  | (LPlain _, u) :: t => start_locals ev (set_local es u def0) t
  | (LSet _ v, u) :: t => obind (ev es v) (fun '(r, es1) => start_locals ev (set_local es1 u (local_def u r)) t)
  | (LDelayed _ v, u) :: t => start_locals ev (set_local es u (local_def u v)) t
  end.

(* builtin_system.go 181-265: applyModuleFn, called with the arguments
   unevaluated (resources/system.m 134-135: HoldAll); 235: log.Fatal *)
Definition module_fn (fl : ex -> Z) : builtin := fun k ev es parts =>
  match parts with
  | [_; locals; body] =>
      match args_of locals nList with
      | Some l =>
          match parse_locals l with
          | Some ls =>
              match snag_all fl k (es_defs es) ls with
              | None => More
              | Some None => Crash
              | Some (Some (us, st)) =>
                  obind (start_locals ev (with_defs es st) (combine ls us)) (fun es2 =>
                  let pm := fold_left (fun pm '(x, u) => pd_set pm (local_sym x) (ESym u)) (combine ls us) [] in
                  returning (replace_pd_go pm body) parts es2)
              end
          | None => returning (EExpr parts) parts es
          end
      | None => returning (EExpr parts) parts es
      end
  | _ => returning (EExpr parts) parts es
  end.
Definition module_attrs : list string := ["HoldAll"; "Protected"]%string.

(* resources/system.m 148-149: Block[args___] := Module[args], with the
   attributes of Module *)
Definition block_rules : list dval :=
  let args := ESym "Private`args" in
  [DVal (held (EExpr [sys "Block"; EExpr [sys "Pattern"; args; EExpr [sys "BlankNullSequence"]]])) (EExpr [sys "Module"; args]) 0].
