(* String builtins: /repo/expreduce/builtin_string.go.
   A Go string is a sequence of bytes; a Coq [ascii] is a byte and [EStr]
   carries the bytes.  [None] stands for "return this" (unevaluated). *)
From Verif Require Import M_Syntax M_Float.
Open Scope nat_scope.

(* bytes of a Go string *)
Definition bytes (s : string) : list ascii := list_ascii_of_string s.
Definition of_bytes (l : list ascii) : string := string_of_list_ascii l.

(* builtin_string.go 50-60: StringJoin.  toReturn += asStr.Val for every
   argument, giving up at the first non-string. *)
Fixpoint join_loop (acc : string) (args : list ex) : option string :=
  match args with
  | [] => Some acc
  | EStr s :: t => join_loop (append acc s) t
  | _ :: _ => None
  end.
Definition string_join (args : list ex) : option ex := option_map EStr (join_loop EmptyString args).

(* builtin_string.go 67-78: StringLength is len(Val), the number of bytes *)
Definition string_length (args : list ex) : option ex :=
  match args with [EStr s] => Some (EInt (Z.of_nat (String.length s))) | _ => None end.

(* builtin_string.go 79-111: StringTake[s, {i, j}].  Int64() of a big.Int is
   reduction modulo 2^64 (undefined by the documentation for larger values,
   low 64 bits in the implementation), as is the subtraction. *)
Definition string_take (args : list ex) : option ex :=
  match args with
  | [EStr v; EExpr [ESym l; EInt i; EInt j]] =>
      if String.eqb l (sysname "List") then
        let s := wrap64 (wrap64 i - 1) in
        let e := wrap64 (wrap64 j - 1) in
        if (s <? 0)%Z || (Z.of_nat (String.length v) <=? e)%Z then None
        else if (e <? s)%Z then Some (EStr EmptyString)
        else Some (EStr (of_bytes (firstn (Z.to_nat (e + 1 - s)) (skipn (Z.to_nat s) (bytes v)))))
      else None
  | _ => None
  end.

(* strings.HasPrefix *)
Fixpoint has_prefix (p s : list ascii) : bool :=
  match p, s with
  | [], _ => true
  | a :: p', b :: s' => Ascii.eqb a b && has_prefix p' s'
  | _, [] => false
  end.

(* strings.Index(s, old): offset of the first occurrence *)
Fixpoint index_of (old s : list ascii) : option nat :=
  if has_prefix old s then Some 0
  else match s with [] => None | _ :: t => option_map S (index_of old t) end.

(* The loop of strings.Replace(s, old, new, -1) for a non-empty old: copy up to
   the next occurrence, write new, continue after the occurrence; at the end
   copy the rest.  [fuel] bounds the number of rounds: each consumes at least
   len(old) >= 1 bytes, so S (length s) rounds always suffice. *)
Fixpoint replace_loop (fuel : nat) (old new s : list ascii) : list ascii :=
  match fuel with
  | O => s
  | S f => match index_of old s with
           | None => s
           | Some j => firstn j s ++ new ++ replace_loop f old new (skipn (j + length old) s)
           end
  end.

(* utf8.DecodeRuneInString: width of the first rune; an invalid sequence is
   one byte wide (unicode/utf8). *)
Definition byte (c : ascii) : N := N_of_ascii c.
Definition between (lo hi : N) (c : ascii) : bool := (lo <=? byte c)%N && (byte c <=? hi)%N.
Definition rune_width (s : list ascii) : nat :=
  match s with
  | [] => 0
  | c :: t =>
      if (byte c <? 128)%N then 1
      else if between 194 223 c then
        match t with c1 :: _ => if between 128 191 c1 then 2 else 1 | _ => 1 end
      else if between 224 239 c then
        match t with
        | c1 :: c2 :: _ =>
            let lo := if (byte c =? 224)%N then 160%N else 128%N in
            let hi := if (byte c =? 237)%N then 159%N else 191%N in
            if between lo hi c1 && between 128 191 c2 then 3 else 1
        | _ => 1
        end
      else if between 240 244 c then
        match t with
        | c1 :: c2 :: c3 :: _ =>
            let lo := if (byte c =? 240)%N then 144%N else 128%N in
            let hi := if (byte c =? 244)%N then 143%N else 191%N in
            if between lo hi c1 && between 128 191 c2 && between 128 191 c3 then 4 else 1
        | _ => 1
        end
      else 1
  end.

(* strings.Replace with an empty old: new is written at the start and after
   every rune.  [fuel] as above (every rune has at least one byte). *)
Fixpoint intersperse_loop (fuel : nat) (new s : list ascii) : list ascii :=
  match fuel with
  | O => new ++ s
  | S f => match s with
           | [] => new
           | _ => new ++ firstn (rune_width s) s ++ intersperse_loop f new (skipn (rune_width s) s)
           end
  end.

(* strings.Replace(s, old, new, -1) *)
Definition go_replace (s old new : list ascii) : list ascii :=
  match old with
  | [] => intersperse_loop (S (length s)) new s
  | _ => replace_loop (S (length s)) old new s
  end.

(* builtin_string.go 112-139: StringReplace[s, old -> new].  (Go's shortcut
   old == new => s gives the same result; the loop is modelled.) *)
Definition string_replace (args : list ex) : option ex :=
  match args with
  | [EStr s; EExpr [ESym r; EStr old; EStr new]] =>
      if String.eqb r (sysname "Rule") then Some (EStr (of_bytes (go_replace (bytes s) (bytes old) (bytes new))))
      else None
  | _ => None
  end.

(* encoding/base64 StdEncoding: the alphabet *)
Definition b64_alphabet : string := "ABCDEFGHIJKLMNOPQRSTUVWXYZabcdefghijklmnopqrstuvwxyz0123456789+/".
Definition b64_char (v : N) : ascii :=
  nth (N.to_nat (N.land v 63)) (list_ascii_of_string b64_alphabet) "="%char.
Definition pad_char : ascii := "="%char.

(* encoding/base64 Encoding.Encode: three input bytes become four output
   characters; one or two remaining bytes are padded with '='. *)
Fixpoint b64_encode (s : list ascii) : list ascii :=
  match s with
  | a :: b :: c :: t =>
      let val := N.lor (N.shiftl (byte a) 16) (N.lor (N.shiftl (byte b) 8) (byte c)) in
      b64_char (N.shiftr val 18) :: b64_char (N.shiftr val 12) :: b64_char (N.shiftr val 6) :: b64_char val :: b64_encode t
  | [a; b] =>
      let val := N.lor (N.shiftl (byte a) 16) (N.shiftl (byte b) 8) in
      [b64_char (N.shiftr val 18); b64_char (N.shiftr val 12); b64_char (N.shiftr val 6); pad_char]
  | [a] =>
      let val := N.shiftl (byte a) 16 in
      [b64_char (N.shiftr val 18); b64_char (N.shiftr val 12); pad_char; pad_char]
  | [] => []
  end.

(* strings.ToLower on the format name.  Simplification: ASCII letters only
   (non-ASCII format names select no branch except through U+212A, which does
   not occur in "base64" or "png"). *)
Definition lower_byte (c : ascii) : ascii := if between 65 90 c then ascii_of_N (byte c + 32) else c.
Definition to_lower (s : string) : string := of_bytes (map lower_byte (bytes s)).

(* builtin_string.go 140-171: ExportString.  The "png" branch is not modelled:
   [None] in the outer option marks it. *)
Definition export_string (args : list ex) : option (option ex) :=
  let go x format :=
    if String.eqb (to_lower format) "png" then None
    else match x with
         | EStr s => if String.eqb (to_lower format) "base64"
                     then Some (Some (EStr (of_bytes (b64_encode (bytes s) ++ [ascii_of_nat 10]))))
                     else Some (Some (sys "$Failed"))
         | _ => Some None
         end in
  match args with
  | [x; EStr format] | [x; EStr format; _] => go x format
  | _ => Some None
  end.
