(* ParallelTable: /repo/expreduce/builtin_list.go 289-330.  The bodies are
   prepared one after the other; then every body is evaluated in a goroutine of
   its own, and all goroutines share the EvalState. *)
From Verif Require Import M_Syntax M_Hash M_Match M_Defs M_Eval.
Open Scope nat_scope.

(* iterspec.go 241-247: CurrentPDManager *)
Definition current_pd (its : list iter) : pdm :=
  fold_left (fun pm it => pd_set pm (iter_name it) (iter_curr it)) its [].
(* builtin_list.go 301-310: the loop that collects the substituted bodies *)
Fixpoint parallel_loop (c : cfg) (fuel : nat) (ev : evaluator) (body : ex) (es : estate) (its : list iter) (go : bool) : outcome (list ex * estate) :=
  match fuel with
  | O => More
  | S k =>
      if go then
        obind (multi_next ev es its) (fun '(its1, go1, es1) =>
        obind (parallel_loop c k ev body es1 its1 go1) (fun '(l, es2) =>
        Ret (replace_pd_go (current_pd its) body :: l, es2)))
      else Ret ([], es)
  end.
(* builtin_list.go 290-311: what the goroutines will evaluate; None: the call is
   left alone.  Nothing is assigned to the iteration variables. *)
Definition parallel_tasks (c : cfg) (k : nat) (ev : evaluator) (es : estate) (parts : list ex) : outcome (option (list ex) * estate) :=
  match parts with
  | _ :: body :: ((_ :: _) as lists) =>
      obind (specs_from_lists ev es lists) (fun '(o, es1) =>
      match o with
      | None => Ret (None, es1)
      | Some its => obind (parallel_loop c k ev body es1 its (forallb iter_cont its)) (fun '(l, es2) => Ret (Some l, es2))
      end)
  | _ => Ret (None, es)
  end.

(* A goroutine: es.Eval(toReturn.GetParts()[idx]), lines 315-321.  The loop of
   evalExpression (eval.go 47-268) is cut into its iterations: each iteration is
   one atomic step on the shared state, between them the other goroutines may
   run.  (In the Go code goroutines are also interleaved inside an iteration;
   M_Conc.v and [lstep] below do this for Define and for the loop of Table.) *)
Inductive thread : Type :=
| TEval (e : ex)                                (* before Eval, or at eval.go 82-83 *)
| TLoop (last : N) (inside : bool) (e : ex)     (* at the head of the loop, eval.go 57-80 *)
| TDone (v : ex).                               (* wg.Done(): v is stored in its place *)
Definition advance (c : cfg) (k : nat) (es : estate) (t : thread) : outcome (thread * estate) :=
  match t with
  | TEval (EExpr l) => Ret (TLoop 0 false (EExpr l), es)
  | TEval e => obind (run c (S k) None es e) (fun '(v, es1) => Ret (TDone v, es1))
  | TLoop last inside e =>
      if N.eqb (hash e) last then Ret (TDone e, es)
      else
        match e with
        | EExpr parts =>
            match (if inside then return_value e else None) with
            | Some v => Ret (TDone v, es)
            | None =>
                obind (pass c k (run c k None) es parts) (fun '(o, es1) =>
                match o with
                | inl v => Ret (TDone v, es1)
                | inr (e', b) => Ret (TLoop (hash e) (inside || b) e', es1)
                end)
            end
        | _ => Ret (TEval e, es)
        end
  | TDone v => Ret (TDone v, es)
  end.
Definition finished_thread (t : thread) : bool := match t with TDone _ => true | _ => false end.
(* the Go scheduler lets any goroutine that has not ended take its next step *)
Inductive pstep (c : cfg) : estate * list thread -> estate * list thread -> Prop :=
| PStep k es ts1 t ts2 es' t' : finished_thread t = false -> advance c k es t = Ret (t', es') ->
    pstep c (es, ts1 ++ t :: ts2) (es', ts1 ++ t' :: ts2).
Inductive psteps (c : cfg) : estate * list thread -> estate * list thread -> Prop :=
| PS_refl s : psteps c s s
| PS_step s1 s2 s3 : pstep c s1 s2 -> psteps c s2 s3 -> psteps c s1 s3.
(* builtin_list.go 312-325: wg.Wait() returns when all goroutines have ended *)
Definition parallel_gives (c : cfg) (es : estate) (parts : list ex) (r : ex) (es' : estate) : Prop :=
  exists k tasks es1 vs, parallel_tasks c k (run c k None) es parts = Ret (Some tasks, es1) /\
    psteps c (es1, map TEval tasks) (es', map TDone vs) /\ r = mkList vs.

(* The loop of Table (builtin_list.go 274-278) inside a goroutine, cut into its
   three statements: DefineCurrent, Eval of the body, Next. *)
Inductive lthread : Type :=
| LDefine (its : list iter) (acc : list ex) | LEval (its : list iter) (acc : list ex) | LNext (its : list iter) (acc : list ex)
| LDone (acc : list ex).
Definition ladvance (c : cfg) (k : nat) (body : ex) (es : estate) (t : lthread) : outcome (lthread * estate) :=
  match t with
  | LDefine its acc => obind (define_current c es its) (fun es1 => Ret (LEval its acc, es1))
  | LEval its acc => obind (run c k None es body) (fun '(r, es1) => Ret (LNext its (acc ++ [r]), es1))
  | LNext its acc => obind (multi_next (run c k None) es its) (fun '(its1, go, es1) =>
      Ret (if go then LDefine its1 acc else LDone acc, es1))
  | LDone acc => Ret (LDone acc, es)
  end.
Inductive lstep (c : cfg) (body : ex) : estate * list lthread -> estate * list lthread -> Prop :=
| LStep k es ts1 t ts2 es' t' : (forall acc, t <> LDone acc) -> ladvance c k body es t = Ret (t', es') ->
    lstep c body (es, ts1 ++ t :: ts2) (es', ts1 ++ t' :: ts2).
Inductive lsteps (c : cfg) (body : ex) : estate * list lthread -> estate * list lthread -> Prop :=
| LS_refl s : lsteps c body s s
| LS_step s1 s2 s3 : lstep c body s1 s2 -> lsteps c body s2 s3 -> lsteps c body s1 s3.
