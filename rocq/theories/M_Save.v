(* Saving definitions to a file and reading them back: Save and Get.
   Models /repo/expreduce/builtin_system.go 97-150 (tryReadFile), 781-812 (Get),
   813-867 (Save).  Simplifications: a file that Save wrote is kept as the list
   of definitions it encodes (the gob and zlib encodings of the Go standard
   library are taken to be lossless for exported fields; gob sends no function
   values); needsEval, correctlyInstantiated and the hash caches of expressions
   are not part of the model's expressions. *)
From Verif Require Import M_Syntax M_Float M_Hash M_Match M_Defs.
Open Scope nat_scope.

(* What a file holds: the header of line 31 followed by an encoded list of
   definitions (lines 33-36: encodedDef), the header followed by bytes that do
   not decode, or any other text. *)
Inductive content := CSaved (l : list (string * def)) | CBroken | CText (s : string).

(* The operating system: [resolve] says which file a path denotes, [creatable]
   whether os.Create succeeds, [asset] and [rubi] are the files built into the
   program (lines 116-128). *)
Record os := Os {
  resolve : string -> string; creatable : string -> bool;
  asset : string -> option content; rubi : string -> option content }.
Definition files : Type := string -> option content.
Definition write (fs : files) (f : string) (c : content) : files :=
  fun g => if String.eqb g f then Some c else fs g.
Definition read_file (o : os) (fs : files) (p : string) : option content := fs (resolve o p).

(* pkg/expreduceapi/cas.go 126-133: what gob sends of a Def: every exported
   field that is not a function, so all but LegacyEvalFn *)
Definition encode_def (d : def) : def := Def (d_dvs d) (d_attrs d) (d_default d) false.

(* builtin_system.go 831-845: the loop over the symbol names; None is one of its
   "return this" *)
Fixpoint save_list (st : state) (l : list ex) : option (list (string * def)) :=
  match l with
  | [] => Some []
  | EStr n :: t =>
      match lookup st n with
      | Some d => match save_list st t with Some r => Some ((n, encode_def d) :: r) | None => None end
      | None => None
      end
  | _ :: _ => None
  end.

(* builtin_system.go 813-867: Save[args]: the result (None: the call is
   returned unevaluated) and the files afterwards *)
Definition save (o : os) (fs : files) (st : state) (args : list ex) : option ex * files :=
  match args with
  | [EStr f; l] =>
      match head_assertion l nList with
      | Some (_ :: ns) =>
          match save_list st ns with
          | Some [] | None => (None, fs)
          | Some (d :: ds) =>
              (Some sNull, if creatable o f then write fs (resolve o f) (CSaved (d :: ds)) else fs)
          end
      | _ => (None, fs)
      end
  | _ => (None, fs)
  end.

(* builtin_system.go 130-141: the paths tried, in order *)
Definition paths_to_try (path : list ex) (f : string) : list string :=
  flat_map (fun e => match e with EStr d => [append d (append "/" f)] | _ => [] end) path ++ [f].

(* builtin_system.go 142-149 *)
Fixpoint read_first (o : os) (fs : files) (ps : list string) : option (content * string) :=
  match ps with
  | [] => None
  | p :: t => match read_file o fs p with Some c => Some (c, p) | None => read_first o fs t end
  end.

(* builtin_system.go 97-150: tryReadFile *)
Definition try_read_file (o : os) (fs : files) (st : state) (fn : ex) : option (content * string) :=
  match get_sym_def st (sysname "$Path") with
  | None => None
  | Some p =>
      match head_assertion p nList, fn with
      | Some (_ :: path), EStr f =>
          match (if String.prefix "__res__/" f
                 then asset o (append "resources/" (substring 8 (String.length f - 8) f)) else None) with
          | Some c => Some (c, f)
          | None =>
              match (if String.prefix "__rubi_snapshot__/" f
                     then rubi o (substring 18 (String.length f - 18) f) else None) with
              | Some c => Some (c, f)
              | None => read_first o fs (paths_to_try path f)
              end
          end
      | _, _ => None
      end
  end.

(* builtin_system.go 781-812: Get[args].  GText: the text is handed to
   EvalInterpMany; GPanic: the panic of line 801. *)
Inductive get_result :=
| GSame | GFailed | GLoaded (st : state) | GText (text path : string) | GPanic.
Definition get (o : os) (fs : files) (st : state) (args : list ex) : get_result :=
  match args with
  | [f] =>
      match try_read_file o fs st f with
      | None => GFailed
      | Some (CSaved l, _) => GLoaded (fold_left (fun st '(n, d) => set_def st n d) l st)
      | Some (CBroken, _) => GPanic
      | Some (CText s, p) => GText s p
      end
  | _ => GSame
  end.
