(* Unique (builtin_system.go 980-1001, 152-179), Hash (898-908), Default
   (381-399). *)
From Verif Require Import M_Syntax M_Float M_Hash M_Match M_Defs.
From Coq Require Import String.
Open Scope nat_scope.

(* builtin_system.go 167-178 with the prefix Unique passes: the number follows
   it directly.  [fuel] as in M_Defs.snag_loop. *)
Fixpoint unique_loop (fuel : nat) (st : state) (pre : string) (mn : Z) : option Z :=
  match fuel with
  | O => None
  | S k => if is_def st (append pre (dec mn)) then unique_loop k st pre (mn + 1) else Some mn
  end.
Inductive unique_out := UUneval | UFatal | UOutOfFuel | UName (s : string) (st : state).
(* builtin_system.go 985-994: the prefix *)
Definition unique_prefix (args : list ex) : option string :=
  match args with
  | [] => Some "$"%string
  | [EStr s] => Some s
  | [_] => None
  | [_; _] => Some "$"%string
  | _ => None
  end.
(* builtin_system.go 982-1000, with 157-165 *)
Definition unique_fn (fl : ex -> Z) (fuel : nat) (st : state) (args : list ex) : unique_out :=
  match unique_prefix args with
  | None => UUneval
  | Some p =>
      match get_sym_def st nModuleNumber with
      | Some (EInt z) =>
          match unique_loop fuel st (append "Global`" p) (wrap64 z) with
          | None => UOutOfFuel
          | Some mn =>
              match define fl st (ESym nModuleNumber) (EInt (mn + 1)) with
              | Some st' => UName (append (append "Global`" p) (dec mn)) st'
              | None => UFatal
              end
          end
      | _ => UFatal
      end
  end.

(* builtin_system.go 898-908: Hash.  None: unevaluated *)
Definition hash_fn (args : list ex) : option ex :=
  match args with [e] => Some (EInt (Z.of_N (hash e))) | _ => None end.

(* builtin_system.go 381-399, atoms/ex_symbol.go 102-108: the stored default *)
Definition default_fn (st : state) (args : list ex) : option ex :=
  match args with
  | [ESym s] => match lookup st s with Some d => d_default d | None => None end
  | _ => None
  end.
