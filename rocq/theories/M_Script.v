(* Running a text as a program: EvalInterpMany (script files, Get, -initfile),
   ReadList, and the interactive loop.
   Models /repo/expreduce/easyrun.go 33-76, /repo/expreduce/parser/interp.go
   520-576, /repo/expreduce.go 103-199.
   The grammar (third-party package wl) and the evaluator are parameters:
   [parse s doc] is InterpBuf on the remaining text in evaluator state s (it may
   record new symbols), [ev] is es.Eval (None: it does not return). *)
From Verif Require Import M_Syntax M_Float M_Hash M_Match M_Defs M_String.
Open Scope nat_scope.

(* parser/interp.go 528-565: InterpBuf: a statement, the state with its symbols
   recorded, and the rest of the buffer; or the end of the input; or a syntax
   error with what is left in the buffer (the state is then unchanged) *)
Inductive parsed (St : Type) :=
| PExpr (e : ex) (s : St) (rest : string)
| PEof
| PErr (rest : string).
Arguments PExpr {St}. Arguments PEof {St}. Arguments PErr {St}.

(* How running a text ends: normally, with the slice-bounds panic of
   easyrun.go 51 / 73 (buf.String()[:100]), or never. *)
Inductive outcome (St : Type) := Finished (v : ex) (s : St) | Crashed (s : St) | NoEnd.
Arguments Finished {St}. Arguments Crashed {St}. Arguments NoEnd {St}.

(* parser/interp.go 520-526: ReplaceSyms (the replacement characters in UTF-8) *)
Definition utf2 (a b : nat) : list ascii := [ascii_of_nat a; ascii_of_nat b].
Definition replace_syms (s : string) : string :=
  let r (s : list ascii) (old : string) (new : list ascii) := go_replace s (bytes old) new in
  of_bytes (r (r (r (r (bytes s) "\[Omega]"%string (utf2 207 137)) "\[CapitalOmega]"%string (utf2 206 169))
                 "\[Alpha]"%string (utf2 206 177)) "\[Theta]"%string (utf2 206 184)).

Section Script.
Variable St : Type.
Variable parse : St -> string -> parsed St.
Variable ev : St -> ex -> option (ex * St).

(* easyrun.go 41-53: the loop of EvalInterpMany; [last] is lastExpr.  [fuel]
   bounds the number of statements (each consumes some text). *)
Fixpoint eval_loop (fuel : nat) (s : St) (doc : string) (last : ex) : outcome St :=
  match fuel with
  | O => NoEnd
  | S k =>
      match parse s doc with
      | PExpr e s1 rest =>
          match ev s1 e with
          | Some (v, s2) => eval_loop k s2 rest v
          | None => NoEnd
          end
      | PEof => Finished last s
      | PErr rest => if String.length rest <? 100 then Crashed s else Finished last s
      end
  end.
(* easyrun.go 33-55: EvalInterpMany *)
Definition eval_interp_many (s : St) (doc : string) : outcome St :=
  let doc := replace_syms doc in eval_loop (S (String.length doc)) s doc sNull.

(* easyrun.go 57-76: ReadList; [acc] is the list built so far *)
Fixpoint read_loop (fuel : nat) (s : St) (doc : string) (acc : list ex) : outcome St :=
  match fuel with
  | O => NoEnd
  | S k =>
      match parse s doc with
      | PExpr e s1 rest =>
          match ev s1 e with
          | Some (v, s2) => read_loop k s2 rest (acc ++ [v])
          | None => NoEnd
          end
      | PEof => Finished (mkList acc) s
      | PErr rest => if String.length rest <? 100 then Crashed s else Finished (mkList acc) s
      end
  end.
Definition read_list (s : St) (doc : string) : outcome St := read_loop (S (String.length doc)) s doc [].
End Script.

(* expreduce.go 109-151 (interactiveSession) with 153-165 (a Null result prints
   nothing): what is printed, as pairs of the number in the label Out[..] and the
   result.  [interp] is parser.Interp (interp.go 567-576, Null after a syntax
   error), [ev] is es.Eval.  Simplifications: no $PrePrint, no uncaught Throw;
   the text of the printed form is not modelled. *)
Section Repl.
Variable fl : ex -> Z.
Variable interp : state -> string -> ex * state.
Variable ev : state -> ex -> ex * state.
Fixpoint repl (s : state) (prompt : Z) (lines : list string) : option (list (Z * ex) * state) :=
  match lines with
  | [] => Some ([], s)
  | l :: t =>
      if String.eqb l "" then repl s prompt t
      else
        let '(e, s1) := interp s l in
        let '(r, s2) := ev s1 e in
        match process_top_level fl s2 e r with
        | None => None
        | Some s3 =>
            match repl s3 (prompt + 1) t with
            | None => None
            | Some (outs, s') =>
                Some ((match r with
                       | ESym n => if String.eqb n (sysname "Null") then [] else [(prompt, r)]
                       | _ => [(prompt, r)]
                       end) ++ outs, s')
            end
        end
  end.
End Repl.
