(* Printing in FullForm: StringForm of the atoms and of expressions with
   Form = "FullForm"; ToString[e, FullForm] (builtin_string.go 17-45).
   The toString functions of the builtin heads all decline when the form is
   FullForm (string.go 17-19, 75-78; builtin_list.go 22-24, 53-55;
   builtin_pattern.go 16-18, 50-52, 154-156; builtin_expression.go 163-165;
   builtin_arithmetic.go 175-178, 345-347, 350-359; builtin_power.go 128-180;
   builtin_specialsyms.go 27-39; builtin_system.go 419-421), so the default
   format of ex_expression.go applies. *)
From Verif Require Import M_Syntax.
From Coq Require Import DecimalString.
Open Scope nat_scope.

(* name[len(c):] *)
Fixpoint drop (c n : string) : string :=
  match c, n with
  | String _ c', String _ n' => drop c' n'
  | _, _ => n
  end.
(* atoms/ex_symbol.go 53-57 *)
Fixpoint path_text (path : list string) (n : string) : string :=
  match path with
  | [] => n
  | c :: t => if String.prefix c n then drop c n else path_text t n
  end.
(* atoms/ex_symbol.go 46-60, and formatSymName 19-44 for a form other than TeXForm *)
Definition sym_text (ctx : string) (path : list string) (n : string) : string :=
  match n with
  | EmptyString => "<EMPTYSYM>"
  | _ => if String.prefix ctx n then drop ctx n else path_text path n
  end.

(* atoms/ex_integer.go 21-23: %d *)
Definition int_text (z : Z) : string := NilEmpty.string_of_int (Z.to_int z).

(* atoms/ex_complex.go 36: %v of a component prints it in InputForm without a
   previous head, where parens.NeedsParens asks for parentheses *)
Definition component_text (ftext : flt -> string) (e : ex) : string :=
  match e with
  | EInt z => int_text z
  | ERat n d => append "(" (append (int_text n) (append "/" (append (int_text d) ")")))
  | EFlt f => ftext f
  | _ => ""
  end.

(* ex_expression.go 113-119 *)
Definition forms : list string :=
  map sysname ["InputForm"; "FullForm"; "TraditionalForm"; "TeXForm"; "StandardForm"; "OutputForm"]%string.

Fixpoint join (l : list string) : string :=
  match l with
  | [] => ""
  | [x] => x
  | x :: t => append x (append ", " (join t))
  end.

(* ex_expression.go 96-141, ex_string.go 14-21, ex_rational.go 18-27,
   ex_complex.go 34-39.  Parameters: the text of a real ("%.6g", ex_real.go
   20-44), the text of a real inside a Complex, and the text of x in the other
   form for f[x] with f another form (not modelled).  On an expression without
   parts the Go code panics; the model prints nothing. *)
Fixpoint fullform (ftext ctext : flt -> string) (oform : string -> ex -> string)
    (ctx : string) (path : list string) (e : ex) : string :=
  let ff := fullform ftext ctext oform ctx path in
  match e with
  | ESym n => sym_text ctx path n
  | EStr s => append """" (append s """")
  | EInt z => int_text z
  | ERat n d => append "Rational[" (append (int_text n) (append ", " (append (int_text d) "]")))
  | EFlt f => ftext f
  | ECplx r i => append "Complex[" (append (component_text ctext r) (append ", " (append (component_text ctext i) "]")))
  | EExpr parts =>
      let default := match parts with
                     | [] => EmptyString
                     | h :: args => append (ff h) (append "[" (append (join (map ff args)) "]"))
                     end in
      match parts with
      | [ESym w; x] => if existsb (String.eqb w) forms
                       then if String.eqb w (sysname "FullForm") then ff x else oform w x
                       else default
      | _ => default
      end
  end.
