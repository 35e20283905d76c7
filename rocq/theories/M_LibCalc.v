(* D as written in the language itself: resources/calculus.m 2-16.
   The relation [deriv v e d] holds when the rules can turn D[e, v] into d.
   Every choice the matcher has is allowed: a_+b_ and a_ b_ match any split of
   the arguments into two groups (Plus and Times are Flat and Orderless), and
   where several rules match any of them may be used.  The results are not
   simplified (the arithmetic that simplifies them is modelled elsewhere). *)
From Verif Require Import M_Syntax.
From Coq Require Import List Permutation.
Import ListNotations.

Definition cPlus (l : list ex) : ex := EExpr (sys "Plus" :: l).
Definition cTimes (l : list ex) : ex := EExpr (sys "Times" :: l).
Definition cPower (a b : ex) : ex := EExpr [sys "Power"; a; b].
Definition app1 (f : string) (a : ex) : ex := EExpr [sys f; a].
(* a group of arguments of a Flat, OneIdentity function *)
Definition grouped (h : string) (l : list ex) : ex := match l with [a] => a | _ => EExpr (sys h :: l) end.
(* Derivative[1][Abs][a] *)
Definition dAbs (a : ex) : ex := EExpr [EExpr [EExpr [sys "Derivative"; EInt 1]; sys "Abs"]; a].
Definition slot1 : ex := EExpr [sys "Slot"; EInt 1].

(* FreeQ[e, v] for a v without patterns: v is no part of e at any depth.
   Simplification: equality of expressions instead of equal hashes. *)
Fixpoint occurs (v e : ex) : bool :=
  ex_eqb v e ||
  match e with
  | EExpr l => existsb (occurs v) l
  | _ => false
  end.
Definition freeq (v e : ex) : Prop := occurs v e = false.

(* (body &)[a]: replace every Slot[1] (no Function inside body) *)
Fixpoint apply_slot (a body : ex) : ex :=
  if ex_eqb slot1 body then a
  else match body with
       | EExpr l => EExpr (List.map (apply_slot a) l)
       | _ => body
       end.

Inductive deriv : ex -> ex -> ex -> Prop :=
| d_same v : deriv v v (EInt 1)                                                       (* calculus.m 3 *)
| d_free v e : freeq v e -> deriv v e (EInt 0)                                        (* 4 *)
| d_plus v args l1 l2 d1 d2 : Permutation args (l1 ++ l2) -> l1 <> [] -> l2 <> [] ->  (* 5 *)
    deriv v (grouped "Plus" l1) d1 -> deriv v (grouped "Plus" l2) d2 ->
    deriv v (cPlus args) (cPlus [d1; d2])
| d_times v args l1 l2 d1 d2 : Permutation args (l1 ++ l2) -> l1 <> [] -> l2 <> [] -> (* 6 *)
    deriv v (grouped "Times" l1) d1 -> deriv v (grouped "Times" l2) d2 ->
    deriv v (cTimes args) (cPlus [cTimes [d1; grouped "Times" l2]; cTimes [grouped "Times" l1; d2]])
| d_chain f g x df dg :                                                               (* 9 *)
    deriv slot1 (EExpr [ESym f; slot1]) df -> deriv (ESym x) (EExpr [ESym g; ESym x]) dg ->
    deriv (ESym x) (EExpr [ESym f; EExpr [ESym g; ESym x]]) (cTimes [apply_slot (EExpr [ESym g; ESym x]) df; dg])
| d_power v a b da db : deriv v a da -> deriv v b db ->                               (* 11 *)
    deriv v (cPower a b)
      (cTimes [cPower a b; cPlus [cTimes [db; app1 "Log" a]; cTimes [da; cPower a (EInt (-1)); b]]])
| d_abs_free v a : freeq v a -> deriv v (app1 "Abs" a) (EInt 0)                       (* 12 *)
| d_abs v a : ~ freeq v a -> deriv v (app1 "Abs" a) (dAbs v)
| d_log v a da : deriv v a da -> deriv v (app1 "Log" a) (cTimes [da; cPower a (EInt (-1))])  (* 13 *)
| d_sin v a da : deriv v a da -> deriv v (app1 "Sin" a) (cTimes [da; app1 "Cos" a])          (* 14 *)
| d_cos v a da : deriv v a da -> deriv v (app1 "Cos" a) (cTimes [EInt (-1); da; app1 "Sin" a]). (* 15 *)
(* calculus.m 16 (D of E^x) is an instance of 11, because Exp[x] evaluates to E^x;
   2 (Indeterminate) has no value. *)

(* calculus.m 17 and 44: D of a List, Grad *)
Definition deriv_list (v : ex) (l ds : list ex) : Prop := Forall2 (deriv v) l ds.
Definition grad (e : ex) (vars ds : list ex) : Prop := Forall2 (fun v d => deriv v e d) vars ds.
