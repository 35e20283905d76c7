(* Output streams (streammanager/streammanager.go, WriteString, Streams) and
   Names (builtin_system.go). *)
From Coq Require Import String List ZArith Ascii Bool.
From Verif Require Import M_Syntax M_Float M_Defs.
Import ListNotations.
Open Scope nat_scope.

(* streammanager.go 13-21: a stream is known by its index and name; with each
   one the text written to it so far *)
Definition stream_key : Type := Z * string.
Definition streams : Type := list (stream_key * string).
(* streammanager.go 23-30: the two streams of a new interpreter *)
Definition new_streams : streams := [((1%Z, "stdout"%string), ""%string); ((2%Z, "stderr"%string), ""%string)].
Definition key_eqb (a b : stream_key) : bool := (Z.eqb (fst a) (fst b) && String.eqb (snd a) (snd b))%bool.

(* streammanager.go 32-40 *)
Definition fill_missing_index (k : stream_key) : stream_key :=
  if Z.eqb (fst k) (-1) then
    if String.eqb (snd k) "stdout" then (1%Z, snd k)
    else if String.eqb (snd k) "stdin" then (2%Z, snd k)
    else k
  else k.
(* streammanager.go 42-56; writing itself does not fail in the model *)
Fixpoint write_key (k : stream_key) (s : string) (m : streams) : streams * bool :=
  match m with
  | [] => ([], false)
  | (k', w) :: t => if key_eqb k k' then ((k', append w s) :: t, true) else let '(t', b) := write_key k s t in ((k', w) :: t', b)
  end.
Definition write_string (m : streams) (name : string) (idx : Z) (s : string) : streams * bool :=
  write_key (fill_missing_index (idx, name)) s m.

(* builtin_system.go 270-297; Int64() keeps the low 64 bits *)
Definition parse_output_stream (e : ex) : option (string * Z) :=
  match e with
  | EStr n => Some (n, (-1)%Z)
  | _ => match args_of e "System`OutputStream" with
         | Some [EStr n; EInt i] => Some (n, wrap64 i)
         | _ => None
         end
  end.
(* builtin_system.go 1041-1064: the arguments, the result (None: unchanged) *)
Definition write_string_fn (m : streams) (args : list ex) : option ex * streams :=
  match args with
  | [o; EStr s] =>
      match parse_output_stream o with
      | Some (n, i) => (Some (ESym "System`Null"), fst (write_string m n i s))
      | None => (None, m)
      end
  | _ => (None, m)
  end.
(* streammanager.go 58-80: sorted by index; insertion sort stands for sort.Slice,
   which agrees with it when the indices are distinct *)
Fixpoint insert_key (k : stream_key) (l : list stream_key) : list stream_key :=
  match l with
  | [] => [k]
  | k' :: t => if (fst k <? fst k')%Z then k :: l else k' :: insert_key k t
  end.
Definition streams_expr (m : streams) : ex :=
  mkList (map (fun k => EExpr [ESym "System`OutputStream"; EStr (snd k); EInt (fst k)]) (fold_right insert_key [] (map fst m))).

(* ---- Names ---- *)
(* builtin_system.go 1083-1096: the regular expressions that arise from filters.
   Only those built from plain characters, ".", "^", "$" and "*" are modelled;
   "*" has become ".*". *)
Inductive tok := TLit (c : ascii) | TAny | TStar | TBegin | TEnd.
Definition special (c : ascii) : bool := existsb (Ascii.eqb c) (list_ascii_of_string "+?[](){}|\").
Definition token (c : ascii) : option tok :=
  if Ascii.eqb c "*" then Some TStar
  else if Ascii.eqb c "." then Some TAny
  else if Ascii.eqb c "^" then Some TBegin
  else if Ascii.eqb c "$" then Some TEnd
  else if special c then None else Some (TLit c).
Fixpoint tokens (s : string) : option (list tok) :=
  match s with
  | EmptyString => Some []
  | String c t => match token c, tokens t with Some k, Some ks => Some (k :: ks) | _, _ => None end
  end.
Definition newline : ascii := "010"%char.
(* regexp.MatchString for such expressions, from a position on; [start]: at the
   beginning of the text *)
Fixpoint re_match (ts : list tok) (start : bool) (s : string) : bool :=
  match ts with
  | [] => true
  | TLit c :: r => match s with String c' t => (Ascii.eqb c c' && re_match r false t)%bool | _ => false end
  | TAny :: r => match s with String c t => (negb (Ascii.eqb c newline) && re_match r false t)%bool | _ => false end
  | TBegin :: r => (start && re_match r start s)%bool
  | TEnd :: r => match s with EmptyString => re_match r start s | _ => false end
  | TStar :: r =>
      (fix star (st : bool) (s : string) : bool :=
         (re_match r st s || match s with String c t => negb (Ascii.eqb c newline) && star false t | _ => false end)%bool) start s
  end.
(* builtin_system.go 1076-1110: the names listed; None: call not supported (or
   the filter is outside the modelled expressions) *)
Definition names_fn (keys : list string) (args : list ex) : option (list string) :=
  match args with
  | [] => Some (sort_strings keys)
  | [EStr f] =>
      match tokens f with
      | Some ts => Some (sort_strings (filter (re_match (TBegin :: ts ++ [TEnd]) true) keys))
      | None => None
      end
  | _ => None
  end.
