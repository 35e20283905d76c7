(* Packages and contexts: the definitions of BeginPackage, EndPackage, Begin and
   End (resources/system.m 155-194) acting on the variables $Context,
   $ContextPath and the variables in which these functions remember the old
   values, together with the reading of names (M_Parse.v).

   Simplified: a statement is one of these commands or an input that only
   mentions names; a variable whose value is not a string (not a list) is None -
   evalstate.go 637-665 then uses the empty context (the empty path). *)
From Verif Require Import M_Syntax M_Parse.
Open Scope nat_scope.

Record session := Session {
  s_ctx : option string;              (* $Context *)
  s_path : option (list string);      (* $ContextPath *)
  s_old : option string;              (* $ExpreduceOldContext *)
  s_oldpath : option (list string);   (* $ExpreduceOldContextPath *)
  s_pkg : option string;              (* $ExpreducePkgContext *)
  s_old2 : option string;             (* $ExpreduceOldContext2 *)
  s_known : names }.                  (* the symbols the evaluator knows *)

(* evalstate.go 637-648 and 650-665: GetStringDef, GetListDef *)
Definition cur (s : session) : string := match s_ctx s with Some c => c | None => "" end.
Definition cpath (s : session) : list string := match s_path s with Some l => l | None => [] end.

(* a name of an input is read: interp.go 96-120, 557-563 *)
Definition read1 (s : session) (n : string) : string * session :=
  let (r, d) := resolve_sym (cur s) (cpath s) (s_known s) n in
  (r, Session (s_ctx s) (s_path s) (s_old s) (s_oldpath s) (s_pkg s) (s_old2 s) d).
Fixpoint read (s : session) (l : list string) : list string * session :=
  match l with
  | [] => ([], s)
  | n :: t => let (r, s1) := read1 s n in let (rs, s2) := read s1 t in (r :: rs, s2)
  end.

Inductive cmd := CBeginPackage (c : string) | CEndPackage | CBegin (c : string) | CEnd.
Definition cmd_name (k : cmd) : string :=
  match k with CBeginPackage _ => "BeginPackage" | CEndPackage => "EndPackage" | CBegin _ => "Begin" | CEnd => "End" end.
(* the rules; Begin with an argument that starts with ` takes it relative to
   the current context *)
Definition effect (s : session) (k : cmd) : session :=
  match k with
  | CBeginPackage c => (* system.m 157-164 *)
      Session (Some c) (Some [c; sysname ""]) (s_ctx s) (s_path s) (Some c) (s_old2 s) (s_known s)
  | CEndPackage => (* system.m 168-175 *)
      Session (s_old s) (match s_oldpath s, s_pkg s with Some l, Some p => Some (p :: l) | _, _ => None end)
        None None None (s_old2 s) (s_known s)
  | CBegin c => (* system.m 179-186 *)
      let c' := match c with String "`" t => match s_ctx s with Some c0 => Some (append c0 t) | None => None end | _ => Some c end in
      Session c' (s_path s) (s_old s) (s_oldpath s) (s_pkg s) (s_ctx s) (s_known s)
  | CEnd => (* system.m 190-194 *)
      Session (s_old2 s) (s_path s) (s_old s) (s_oldpath s) (s_pkg s) (s_old2 s) (s_known s)
  end.
(* the command takes effect if its name is read as the System` symbol *)
Definition command (s : session) (k : cmd) : session :=
  let (r, s1) := read1 s (cmd_name k) in if String.eqb r (sysname (cmd_name k)) then effect s1 k else s1.

Inductive stmt := Do (k : cmd) | Use (l : list string).
Definition step (s : session) (t : stmt) : session := match t with Do k => command s k | Use l => snd (read s l) end.
Definition script (s : session) (l : list stmt) : session := fold_left step l s.
