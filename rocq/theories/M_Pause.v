(* Pause (builtin_time.go 24-48) for Integer arguments.  Left out: machine reals,
   whose conversion to a 64 bit integer Go does not define when it overflows, and the
   accuracy of the operating system's timer. *)
From Verif Require Import M_Syntax M_Float.
Open Scope Z_scope.

(* builtin_time.go 37: time.Duration(nInt.Val.Int64() * 1000000000).  big.Int.Int64
   takes the low 64 bits, the product wraps *)
Definition pause_duration (n : Z) : Z := wrap64 (wrap64 n * 1000000000).
(* time.Sleep: a negative or zero duration returns immediately *)
Definition slept (d : Z) : Z := Z.max 0 d.
(* builtin_time.go 26-46: None for the cases that are left out, else the value and the
   nanoseconds slept *)
Definition pause_fn (args : list ex) : option (ex * Z) :=
  match args with
  | [EInt n] => Some (sys "Null", slept (pause_duration n))
  | [EFlt _] => None
  | _ => Some (EExpr (sys "Pause" :: args), 0)
  end.
