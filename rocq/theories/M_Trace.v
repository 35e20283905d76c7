(* Trace: builtin_system.go 683-712 and the tracing code of the evaluation loop,
   eval.go 20-180, 255-260.  What an iteration of the loop does besides
   evaluating the arguments is a parameter: a program that may evaluate
   expressions, call Trace, and leave the loop or go on (M_Eval is the model of
   what it is). *)
From Verif Require Import M_Syntax M_Hash.
From Coq Require Import String List.
Import ListNotations.
Open Scope nat_scope.

Inductive prog (St Cx : Type) :=
| Leave (s : St) (r : ex)                                   (* return from Eval *)
| Go (c : Cx) (s : St) (e : ex)                             (* go on with e *)
| CallEval (s : St) (e : ex) (k : St -> ex -> prog St Cx)   (* es.Eval(e) *)
| CallTrace (s : St) (e : ex) (k : St -> ex -> prog St Cx). (* Trace[e] *)
Arguments Leave {St Cx}. Arguments Go {St Cx}. Arguments CallEval {St Cx}. Arguments CallTrace {St Cx}.

Record machine := {
  mst : Type;                            (* the evaluation state without es.trace *)
  mcx : Type;                            (* the locals of the loop *)
  thrown : mst -> option ex;             (* es.Thrown() if es.HasThrown() *)
  frozen : mst -> bool;                  (* es.IsFrozen() *)
  held_part : mst -> list ex -> nat -> bool;   (* eval.go 103-115 *)
  start : ex -> mcx;
  pre : mcx -> mst -> list ex -> prog mst mcx;   (* eval.go 47-101 but the tracing *)
  post : mcx -> mst -> list ex -> prog mst mcx;  (* eval.go 169-254 *)
  atom : mst -> ex -> prog mst mcx       (* eval.go 24-34: complex, rational, symbol *)
}.

(* es.trace without its head List; None: nil *)
Definition trace := option (list ex).
Definition hold_form (e : ex) : ex := EExpr [sys "HoldForm"; e].
Definition tracing (m : machine) (s : mst m) (tr : trace) : bool :=
  match tr with Some _ => negb (frozen m s) | None => false end.
Definition append_to (tr : trace) (x : ex) : trace := match tr with Some t => Some (t ++ [x]) | None => None end.
(* eval.go 66-76: the value of something that is no longer an expression *)
Definition log_value (m : machine) (s : mst m) (tr : trace) (e : ex) : trace :=
  if tracing m s tr then append_to tr (hold_form e) else tr.
(* eval.go 152-166: the expression with its arguments evaluated, unless it is the
   last entry already *)
Definition log_expr (m : machine) (s : mst m) (tr : trace) (e : ex) : trace :=
  match tr with
  | Some t => if frozen m s then tr
              else if is_sameq (last (sys "List" :: t) (sys "List")) (hold_form e) then tr
              else Some (t ++ [hold_form e])
  | None => None
  end.
(* eval.go 141-149: the trace of an argument becomes one entry.  [bak] is the
   trace before the argument; frozen at that time, es.trace was not replaced, and
   is the same object as traceBak *)
Definition close_arg (m : machine) (s : mst m) (bak tr : trace) : trace :=
  match tr with
  | Some u => if frozen m s then tr else if 2 <=? List.length u then append_to bak (mkList u) else bak
  | None => None
  end.
(* builtin_system.go 699-711: the value of Trace *)
Definition trace_value (tr : trace) : ex :=
  match tr with Some u => if 2 <=? List.length u then mkList u else mkList [] | None => mkList [] end.

(* interpretation of a program; builtin_system.go 683-712 is the last case *)
Fixpoint run_prog {St Cx : Type} (ev : St -> trace -> ex -> option (St * trace * ex)) (tr : trace) (p : prog St Cx)
  : option (St * trace * (ex + Cx * ex)) :=
  match p with
  | Leave s r => Some (s, tr, inl r)
  | Go c s e => Some (s, tr, inr (c, e))
  | CallEval s e k => match ev s tr e with Some (s1, tr1, r) => run_prog ev tr1 (k s1 r) | None => None end
  | CallTrace s e k => match ev s (Some []) e with Some (s1, tr1, _) => run_prog ev None (k s1 (trace_value tr1)) | None => None end
  end.

(* eval.go 102-150: the arguments; inl: an exception is pending *)
Fixpoint eval_args (m : machine) (ev : mst m -> trace -> ex -> option (mst m * trace * ex)) (held : nat -> bool)
  (i : nat) (s : mst m) (tr : trace) (l : list ex) : option (mst m * trace * (ex + list ex)) :=
  match l with
  | [] => Some (s, tr, inr [])
  | x :: t =>
      if held i then
        match eval_args m ev held (S i) s tr t with
        | Some (s2, tr2, inr t') => Some (s2, tr2, inr (x :: t'))
        | o => o
        end
      else
        match ev s (if tracing m s tr then Some [] else tr) x with
        | None => None
        | Some (s1, tr1, r) =>
            match thrown m s1 with
            | Some v => Some (s1, tr1, inl v)
            | None =>
                match eval_args m ev held (S i) s1 (close_arg m s1 (if tracing m s tr then tr else tr1) tr1) t with
                | Some (s2, tr2, inr t') => Some (s2, tr2, inr (r :: t'))
                | o => o
                end
            end
        end
  end.

(* eval.go 47-260: the loop.  [lst] is lastExHash *)
Fixpoint trace_loop (m : machine) (ev : mst m -> trace -> ex -> option (mst m * trace * ex)) (j : nat)
  (c : mcx m) (lst : option N) (s : mst m) (tr : trace) (e : ex) : option (mst m * trace * ex) :=
  match j with
  | O => None
  | S j' =>
      if match lst with Some h => N.eqb (hash e) h | None => false end then Some (s, tr, e)
      else match e with
      | EExpr l =>
          match run_prog ev tr (pre m c s l) with
          | Some (s1, tr1, inr (c1, _)) =>
              match eval_args m ev (held_part m s1 l) 0 s1 tr1 l with
              | Some (s2, tr2, inr l') =>
                  match run_prog ev (log_expr m s2 tr2 (EExpr l')) (post m c1 s2 l') with
                  | Some (s3, tr3, inr (c3, e3)) => trace_loop m ev j' c3 (Some (hash e)) s3 tr3 e3
                  | Some (s3, tr3, inl r) => Some (s3, tr3, r)
                  | None => None
                  end
              | Some (s2, tr2, inl v) => Some (s2, tr2, v)
              | None => None
              end
          | Some (s1, tr1, inl r) => Some (s1, tr1, r)
          | None => None
          end
      | _ => match ev s tr e with
             | Some (s1, tr1, r) => Some (s1, log_value m s1 tr1 r, r)
             | None => None
             end
      end
  end.
(* eval.go 20-36: Eval *)
Fixpoint trace_eval (n : nat) (m : machine) (s : mst m) (tr : trace) (e : ex) : option (mst m * trace * ex) :=
  match n with
  | O => None
  | S k =>
      match e with
      | EExpr _ => trace_loop m (trace_eval k m) k (start m e) None s tr e
      | _ => match run_prog (trace_eval k m) tr (atom m s e) with
             | Some (s1, tr1, inl r) => Some (s1, tr1, r)
             | Some (s1, tr1, inr (_, r)) => Some (s1, tr1, r)
             | None => None
             end
      end
  end.
(* builtin_system.go 683-712: Trace[e] *)
Definition trace_of (n : nat) (m : machine) (s : mst m) (e : ex) : option (mst m * ex) :=
  match trace_eval n m s (Some []) e with Some (s1, tr1, _) => Some (s1, trace_value tr1) | None => None end.
