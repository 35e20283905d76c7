(* Specification of the string functions, on sequences of bytes. *)
From Coq Require Import Ascii String NArith Bool List.
Import ListNotations.
Open Scope list_scope.
Open Scope nat_scope.

(* old occurs in s at offset i *)
Definition occurs_at {A} (old s : list A) (i : nat) : Prop := exists a b, s = a ++ old ++ b /\ length a = i.

(* r is s with every occurrence of old replaced by new, scanning from the left
   and never looking inside replaced text *)
Inductive replaced {A} (old new : list A) : list A -> list A -> Prop :=
| repl_none s : (forall i, ~ occurs_at old s i) -> replaced old new s s
| repl_first a b r : (forall i, occurs_at old (a ++ old ++ b) i -> length a <= i) ->
    replaced old new b r -> replaced old new (a ++ old ++ b) (a ++ new ++ r).

(* UTF-8 (RFC 3629): the well-formed encodings of one character *)
Definition byte_in (lo hi : N) (c : ascii) : Prop := (lo <= N_of_ascii c /\ N_of_ascii c <= hi)%N.
Inductive utf8_char : list ascii -> Prop :=
| u1 a : byte_in 0 127 a -> utf8_char [a]
| u2 a b : byte_in 194 223 a -> byte_in 128 191 b -> utf8_char [a; b]
| u3a a b c : byte_in 224 224 a -> byte_in 160 191 b -> byte_in 128 191 c -> utf8_char [a; b; c]
| u3b a b c : byte_in 225 236 a \/ byte_in 238 239 a -> byte_in 128 191 b -> byte_in 128 191 c -> utf8_char [a; b; c]
| u3c a b c : byte_in 237 237 a -> byte_in 128 159 b -> byte_in 128 191 c -> utf8_char [a; b; c]
| u4a a b c d : byte_in 240 240 a -> byte_in 144 191 b -> byte_in 128 191 c -> byte_in 128 191 d -> utf8_char [a; b; c; d]
| u4b a b c d : byte_in 241 243 a -> byte_in 128 191 b -> byte_in 128 191 c -> byte_in 128 191 d -> utf8_char [a; b; c; d]
| u4c a b c d : byte_in 244 244 a -> byte_in 128 143 b -> byte_in 128 191 c -> byte_in 128 191 d -> utf8_char [a; b; c; d].

(* s is the UTF-8 text consisting of the characters cs *)
Definition utf8_text (s : list ascii) (cs : list (list ascii)) : Prop := s = concat cs /\ Forall utf8_char cs.

(* any byte string split into UTF-8 characters and stray bytes, from the left *)
Inductive utf8_chunks : list ascii -> list (list ascii) -> Prop :=
| chunk_end : utf8_chunks [] []
| chunk_char c t cs : utf8_char c -> utf8_chunks t cs -> utf8_chunks (c ++ t) (c :: cs)
| chunk_stray b t cs : (forall c t', utf8_char c -> b :: t <> (c ++ t')%list) -> utf8_chunks t cs -> utf8_chunks (b :: t) ([b] :: cs).

(* Base64 (RFC 4648 section 4), read backwards: the bits of the text are the
   6-bit values of its characters, most significant bit first; '=' and line
   ends carry none; complete bytes are taken and left-over bits dropped. *)
Definition alphabet : string := "ABCDEFGHIJKLMNOPQRSTUVWXYZabcdefghijklmnopqrstuvwxyz0123456789+/".
Fixpoint position (c : ascii) (l : list ascii) : option nat :=
  match l with
  | [] => None
  | d :: t => if Ascii.eqb c d then Some 0 else option_map S (position c t)
  end.
(* the [k] lowest bits of n, most significant first *)
Fixpoint bits_of (k : nat) (n : N) : list bool :=
  match k with O => [] | S k' => N.testbit n (N.of_nat k') :: bits_of k' n end.
Definition text_bits (t : list ascii) : list bool :=
  flat_map (fun c => match position c (list_ascii_of_string alphabet) with Some v => bits_of 6 (N.of_nat v) | None => [] end) t.
Fixpoint bytes_of_bits (l : list bool) : list ascii :=
  match l with
  | b7 :: b6 :: b5 :: b4 :: b3 :: b2 :: b1 :: b0 :: t => Ascii b0 b1 b2 b3 b4 b5 b6 b7 :: bytes_of_bits t
  | _ => []
  end.
Definition b64_decode (t : list ascii) : list ascii := bytes_of_bits (text_bits t).
(* the shape of a Base64 text: groups of four, with one or two '=' at the very end *)
Definition in_alphabet (c : ascii) : Prop := In c (list_ascii_of_string alphabet).
Inductive b64_text : list ascii -> Prop :=
| bt_nil : b64_text []
| bt_four a b c d t : in_alphabet a -> in_alphabet b -> in_alphabet c -> in_alphabet d -> b64_text t -> b64_text (a :: b :: c :: d :: t)
| bt_three a b c : in_alphabet a -> in_alphabet b -> in_alphabet c -> b64_text [a; b; c; "="%char]
| bt_two a b : in_alphabet a -> in_alphabet b -> b64_text [a; b; "="%char; "="%char].
