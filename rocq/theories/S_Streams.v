(* Output streams and name filters, in words of the user. *)
From Coq Require Import String List ZArith Ascii.
From Verif Require Import M_Syntax.
Import ListNotations.

(* which of the two streams an argument of WriteString denotes *)
Inductive stream := Stdout | Stderr.
Definition stream_name (s : stream) : string := match s with Stdout => "stdout" | Stderr => "stderr" end.
Definition stream_index (s : stream) : Z := match s with Stdout => 1 | Stderr => 2 end.
(* OutputStream["stdout", 1] and OutputStream["stderr", 2]; "stdout" or index -1
   for the first *)
Inductive denotes : ex -> stream -> Prop :=
| DN_full s : denotes (EExpr [ESym "System`OutputStream"; EStr (stream_name s); EInt (stream_index s)]) s
| DN_name : denotes (EStr "stdout") Stdout
| DN_minus : denotes (EExpr [ESym "System`OutputStream"; EStr "stdout"; EInt (-1)]) Stdout.

(* a filter: "*" stands for any text on one line, other characters for themselves *)
Inductive glob : string -> string -> Prop :=
| GL_end : glob "" ""
| GL_char c p s : c <> "*"%char -> glob p s -> glob (String c p) (String c s)
| GL_none p s : glob p s -> glob (String "*" p) s
| GL_more c p s : c <> "010"%char -> glob (String "*" p) s -> glob (String "*" p) (String c s).
(* characters without a special meaning in regular expressions *)
Definition plain (c : ascii) : Prop := ~ In c (list_ascii_of_string ".^$+?[](){}|\").
