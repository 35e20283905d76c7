(* Canonical order of expressions: atoms/order.go. *)
From Verif Require Import M_Syntax M_Float.
Open Scope Z_scope.

(* atoms/order.go 14-29: compareStrings; 1 when a sorts before b *)
Fixpoint compare_strings (a b : string) : Z :=
  match a, b with
  | String x s, String y t =>
      if (N_of_ascii y <? N_of_ascii x)%N then -1
      else if (N_of_ascii x <? N_of_ascii y)%N then 1
      else compare_strings s t
  | String _ _, EmptyString => -1
  | EmptyString, String _ _ => 1
  | EmptyString, EmptyString => 0
  end.

(* atoms/order.go 31-43: exprToN, restricted to what ExOrder needs: the Flt a
   component converts to, if any *)
Definition expr_to_n_flt (e : ex) : option flt :=
  match e with
  | EInt i => Some (int_to_flt i)
  | ERat n d => Some (rat_to_flt n d)
  | EFlt f => Some f
  | _ => None
  end.

(* atoms/order.go 70-87: the aAsFlt/aIsFlt values after merging *)
Definition as_flt (e : ex) : option flt :=
  match e with
  | EInt i => Some (int_to_flt i)
  | ERat n d => Some (rat_to_flt n d)
  | EFlt f => Some f
  | ECplx re _ => expr_to_n_flt re
  | _ => None
  end.

Definition nTimes := sysname "Times".
Definition nPower := sysname "Power".
Definition nPlus := sysname "Plus".
Definition is_times (l : list ex) : bool := has_head (EExpr l) nTimes.
Definition is_power (l : list ex) : bool := has_head (EExpr l) nPower.
Definition wrap_times (e : ex) : list ex := [ESym nTimes; EInt 1; e].
Definition wrap_power (e : ex) : list ex := [ESym nPower; e; EInt 1].

Section Lists.
  Variable rec : ex -> ex -> Z.

  (* order.go 141-148 *)
  Fixpoint lex (la lb : list ex) : Z :=
    match la, lb with
    | x :: ta, y :: tb => let o := rec x y in if o =? 0 then lex ta tb else o
    | _, _ => 0
    end.

  (* order.go 135-149: length first, then lexicographic *)
  Definition cmp_plain (la lb : list ex) : Z :=
    if (length la <? length lb)%nat then 1
    else if (length lb <? length la)%nat then -1
    else lex la lb.

  (* order.go 150-162, on reversed lists: pairs of numbers are skipped *)
  Fixpoint lex_back (ra rb : list ex) : Z :=
    match ra, rb with
    | x :: ta, y :: tb =>
        if numberQ x && numberQ y then lex_back ta tb
        else let o := rec x y in if o =? 0 then lex_back ta tb else o
    | _, _ => 0
    end.

  (* order.go 163-171: pairs of numbers from the front *)
  Fixpoint lex_nums (la lb : list ex) : Z :=
    match la, lb with
    | x :: ta, y :: tb =>
        if numberQ x && numberQ y
        then let o := rec x y in if o =? 0 then lex_nums ta tb else o
        else lex_nums ta tb
    | _, _ => 0
    end.

  (* order.go 150-178 *)
  Definition cmp_times (la lb : list ex) : Z :=
    let o := lex_back (rev la) (rev lb) in
    if negb (o =? 0) then o
    else let o2 := lex_nums la lb in
    if negb (o2 =? 0) then o2
    else if (length la <? length lb)%nat then 1
    else if (length lb <? length la)%nat then -1
    else 0.

  (* order.go 101-179.  The recursive calls of lines 107-111, 114-118, 121-125
     and 128-132 are on a pair with equal Times/Power status, which goes
     straight to lines 134-178; the model calls those directly. *)
  Definition cmp_exprs (la lb : list ex) : Z :=
    if negb (is_times la) && is_times lb then cmp_times (wrap_times (EExpr la)) lb
    else if is_power la && negb (is_power lb) then cmp_plain la (wrap_power (EExpr lb))
    else if negb (is_times lb) && is_times la then cmp_times la (wrap_times (EExpr lb))
    else if negb (is_power la) && is_power lb then cmp_plain (wrap_power (EExpr la)) lb
    else if is_times la && is_times lb then cmp_times la lb
    else cmp_plain la lb.

  (* order.go 89-98 *)
  Definition cmp_flts (f g : flt) (aint bint : bool) : Z :=
    let c := cmp2z (fcmp g f) in
    if (c =? 0) && (aint && negb bint) then 1
    else if (c =? 0) && (negb aint && bint) then -1
    else c.

  (* order.go 45-264 *)
  Definition order_step (a b : ex) : Z :=
    match a, b with
    | EInt x, EInt y => cmp2z (Z.compare y x)
    | _, _ =>
      match as_flt a, as_flt b with
      | Some f, Some g => cmp_flts f g (is_int a) (is_int b)
      | fa, fb =>
        match a, b with
        | EExpr la, EExpr lb => cmp_exprs la lb
        | ESym s, ESym t => compare_strings s t
        | EStr s, EStr t => compare_strings s t
        | EStr _, ESym _ => 1
        | EStr _, EExpr _ => 1
        | ESym _, EStr _ => -1
        | ESym s, EExpr lb =>
            if is_power lb then cmp_plain (wrap_power a) lb
            else if is_times lb then cmp_times (wrap_times a) lb
            else 1
        | EExpr _, EStr _ => -1
        | EExpr la, ESym t =>
            if is_power la then cmp_plain la (wrap_power b)
            else if is_times la then cmp_times la (wrap_times b)
            else -1
        | _, _ =>
          match fa, fb with
          | Some _, None => match b with EStr _ | ESym _ | EExpr _ => 1 | _ => -2 end
          | None, Some _ => match a with EStr _ | ESym _ | EExpr _ => -1 | _ => -2 end
          | _, _ => -2
          end
        end
      end
    end.
End Lists.

(* Fuel: the sum of the sizes decreases at every recursive call
   (P_Order.order_fuel_enough); 99 marks exhaustion and is unreachable. *)
Fixpoint order_fuel (n : nat) (a b : ex) : Z :=
  match n with
  | O => 99
  | S k => order_step (order_fuel k) a b
  end.

(* ExOrder(a, b): 1 in order, -1 out of order, 0 equal, -2 not comparable *)
Definition ex_order (a b : ex) : Z := order_fuel (ex_size a + ex_size b) a b.
