(* Concurrent Define: ParallelTable (/repo/expreduce/builtin_list.go 289-340)
   evaluates its body in several goroutines that share one EvalState.  Define
   (evalstate.go 471-599) reads and writes the shared map in separate steps; the
   concurrent map only makes each single Get/Set atomic.
   Simplifications: one thread performs one Define with an ordinary left-hand
   side; the several reads of the insertion loop are one atomic read (more
   interleavings exist in the Go code); aliasing of the backing array of
   Downvalues between threads is not modelled. *)
From Verif Require Import M_Syntax M_Hash M_Defs.
Open Scope nat_scope.

Record task := Task { tk_name : string; tk_lhs : ex; tk_rhs : ex }.

(* program counter of one Define call *)
Inductive pc :=
| PStart                  (* before evalstate.go 526 *)
| PNew                    (* IsDef was false: about to Set a new Def, 527-537 *)
| PRead                   (* no identical rule found in 541-555 *)
| PWrite (snap : def)     (* holds tmp := GetDef(name), 559; about to Set *)
| PDone.

Definition conc := (state * list (task * pc))%type.

(* evalstate.go 590-599 (and 575-586): the Def written from the snapshot *)
Definition write_def (fl : ex -> Z) (t : task) (snap : def) : def :=
  Def (insert_rule fl (tk_name t) (held (tk_lhs t)) (tk_rhs t) (d_dvs snap))
      (d_attrs snap) (d_default snap) (d_builtin snap).

(* one atomic step of one thread *)
Definition tstep (fl : ex -> Z) (st : state) (t : task) (p : pc) : state * pc :=
  match p with
  | PStart =>
      match lookup st (tk_name t) with
      | None => (st, PNew)
      | Some d =>
          match overwrite (held (tk_lhs t)) (tk_rhs t) (d_dvs d) with
          | Some l' => (set_def st (tk_name t) (Def l' (d_attrs d) (d_default d) (d_builtin d)), PDone)
          | None => (st, PRead)
          end
      end
  | PNew => (set_def st (tk_name t) (Def [DVal (held (tk_lhs t)) (tk_rhs t) 0] no_attrs None false), PDone)
  | PRead => match lookup st (tk_name t) with
             | Some d => (st, PWrite d)
             | None => (st, PRead) (* GetDef would panic; entries are never removed *)
             end
  | PWrite snap => (set_def st (tk_name t) (write_def fl t snap), PDone)
  | PDone => (st, PDone)
  end.

(* the scheduler picks any thread *)
Inductive cstep (fl : ex -> Z) : conc -> conc -> Prop :=
| CStep st ts1 t p ts2 st' p' : tstep fl st t p = (st', p') -> p <> PDone ->
    cstep fl (st, ts1 ++ (t, p) :: ts2) (st', ts1 ++ (t, p') :: ts2).
Inductive csteps (fl : ex -> Z) : conc -> conc -> Prop :=
| Cs_refl c : csteps fl c c
| Cs_step c1 c2 c3 : cstep fl c1 c2 -> csteps fl c2 c3 -> csteps fl c1 c3.

Definition start (st : state) (ts : list task) : conc := (st, map (fun t => (t, PStart)) ts).
Definition finished (c : conc) : Prop := Forall (fun tp => snd tp = PDone) (snd c).
