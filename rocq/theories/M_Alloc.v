(* The two enumerators of the pattern matcher: allocIter and assnIter.
   matcher/allocations.go 10-204. *)
From Verif Require Import M_Syntax.

(* matcher/parse_form.go 8-19: parsedForm without origForm (unused).
   pf_end = None is maxInt.  Simplification: Repeated[p,{k}] with k < 0 is not
   represented (startI is an int in Go). *)
Record pform : Type := PForm {
  pf_start : nat; pf_end : option nat; pf_form : ex;
  pf_isblank : bool; pf_impliedbs : bool; pf_optional : bool;
  pf_default : option ex; pf_pat : option string }.

Definition le_end (n : nat) (e : option nat) : bool := match e with None => true | Some m => n <=? m end.
Definition min_end (e : option nat) (n : nat) : nat := match e with None => n | Some m => Nat.min m n end.

Fixpoint upd {A} (l : list A) (i : nat) (v : A) : list A :=
  match l, i with
  | [], _ => []
  | _ :: t, O => v :: t
  | x :: t, S j => x :: upd t j v
  end.

(* allocations.go 10-14: (currForm, remaining, currFormI) *)
Record aframe : Type := AFrame { af_form : nat; af_rem : nat; af_i : nat }.
(* allocations.go 16-20 *)
Record astate : Type := AState { as_alloc : list nat; as_stack : list aframe }.

(* start, start+1, ..., min(end, remaining): allocations.go 47, 54 *)
Definition arange (f : pform) (r : nat) : list nat :=
  seq (pf_start f) (S (min_end (pf_end f) r) - pf_start f).

(* allocations.go 24-62, one pass through the loop of next(): None when the
   stack is empty (next returns false), Some (true, _) when next returns true.
   Head of the list = top of the stack. *)
Definition astep (forms : list pform) (s : astate) : option (bool * astate) :=
  match as_stack s with
  | [] => None
  | p :: stk =>
      let al := match af_form p with O => as_alloc s | S k => upd (as_alloc s) k (af_i p) end in
      match nth_error forms (af_form p) with
      | None => Some (true, AState al stk)
      | Some f =>
          if length forms <=? af_form p + 1 then
            Some (false, AState al
              (if (pf_start f <=? af_rem p) && le_end (af_rem p) (pf_end f)
               then AFrame (af_form p + 1) 0 (af_rem p) :: stk else stk))
          else
            let fr := map (fun i => AFrame (af_form p + 1) (af_rem p - i) i) (arange f (af_rem p)) in
            Some (false, AState al ((if pf_optional f then rev fr else fr) ++ stk))
      end
  end.

(* allocations.go 65-73 *)
Definition ainit (l : nat) (forms : list pform) : astate :=
  AState (repeat 0 (length forms)) [AFrame 0 l 0].

(* allocations.go 75-84: assnIterState.  OFree i is the frame with toFree = i,
   OTake last d crossed the others (last is meaningless when d = 0). *)
Inductive oframe : Type :=
| OFree (i : nat)
| OTake (last d : nat) (crossed : bool).

(* allocations.go 86-97: assnIter.  os_assn is what asi.assns holds: the
   lengths of the slices of assnData *)
Record ostate : Type := OState {
  os_alloc : astate; os_data : list nat; os_indices : list nat; os_assn : list nat;
  os_taken : list bool; os_stack : list oframe; os_iter : bool }.

Definition flip_at (l : list bool) (i : nat) (b : bool) : list bool := upd l i b.

(* allocations.go 99-146, one pass through the loop of nextOrderless().
   [fm] is formMatches.  None: returns false. *)
Definition ostep (fm : nat -> nat -> bool) (s : ostate) : option (bool * ostate) :=
  match os_stack s with
  | [] => None
  | OFree i :: stk =>
      Some (false, OState (os_alloc s) (os_data s) (os_indices s) (os_assn s)
                          (flip_at (os_taken s) i false) stk (os_iter s))
  | OTake last d crossed :: stk =>
      let taken := match d with O => os_taken s | S _ => flip_at (os_taken s) last true end in
      let data := match d with O => os_data s | S k => upd (os_data s) k last end in
      let stk1 := match d with O => stk | S _ => OFree last :: stk end in
      match nth_error (os_indices s) d with
      | None => Some (true, OState (os_alloc s) data (os_indices s) (os_assn s) taken stk1 (os_iter s))
      | Some formI =>
          let cross := match nth_error (os_indices s) (d + 1) with
                       | None => false | Some g => negb (formI =? g) end in
          let start := if crossed then 0 else last + 1 in
          let cand := filter (fun i => negb (nth i taken false) && fm formI i)
                             (seq start (length taken - start)) in
          Some (false, OState (os_alloc s) data (os_indices s) (os_assn s) taken
                  (map (fun i => OTake i (d + 1) cross) cand ++ stk1) (os_iter s))
      end
  end.

(* allocations.go 155-162: assnIndices: form i, repeated alloc[i] times *)
Fixpoint indices_from (i : nat) (alloc : list nat) : list nat :=
  match alloc with [] => [] | n :: t => repeat i n ++ indices_from (S i) t end.

(* allocations.go 148-180, one pass through the loops of next() and, while
   os_iter is set, of nextOrderless() *)
Definition nstep (forms : list pform) (fm : nat -> nat -> bool) (orderless : bool) (s : ostate)
  : option (bool * ostate) :=
  if os_iter s then
    match ostep fm s with
    | Some r => Some r
    | None => Some (false, OState (os_alloc s) (os_data s) (os_indices s) (os_assn s) (os_taken s) [] false)
    end
  else
    match astep forms (os_alloc s) with
    | None => None
    | Some (false, a) =>
        Some (false, OState a (os_data s) (os_indices s) (os_assn s) (os_taken s) (os_stack s) false)
    | Some (true, a) =>
        let al := as_alloc a in
        let ix := indices_from 0 al in
        if orderless then
          Some (false, OState a (os_data s) ix al (os_taken s) [OTake 0 0 true] true)
        else Some (true, OState a (os_data s) ix al (os_taken s) (os_stack s) false)
    end.

(* allocations.go 182-204.  Simplification: assnIndices starts empty instead of
   all zeros; it is overwritten before it is read (except for an empty list of
   forms, where the Go code indexes an empty slice and panics). *)
Definition ninit (l : nat) (forms : list pform) : ostate :=
  OState (ainit l forms) (seq 0 l) [] [] (repeat false l) [] false.

(* the slices asi.assns of assnData *)
Fixpoint slices (alloc : list nat) (data : list nat) : list (list nat) :=
  match alloc with [] => [] | n :: t => firstn n data :: slices t (skipn n data) end.

(* everything a caller of next() sees until it returns false, with at most
   [fuel] loop iterations *)
Fixpoint acollect (fuel : nat) (forms : list pform) (s : astate) : option (list (list nat)) :=
  match fuel with
  | O => None
  | S k => match astep forms s with
           | None => Some []
           | Some (y, s') => match acollect k forms s' with
                             | None => None
                             | Some l => Some (if y then as_alloc s' :: l else l)
                             end
           end
  end.
Fixpoint ncollect (fuel : nat) forms fm ord (s : ostate) : option (list (list (list nat))) :=
  match fuel with
  | O => None
  | S k => match nstep forms fm ord s with
           | None => Some []
           | Some (y, s') => match ncollect k forms fm ord s' with
                             | None => None
                             | Some l => Some (if y then slices (os_assn s') (os_data s') :: l else l)
                             end
           end
  end.

(* The same enumerations as plain recursive functions; P_Alloc.v proves that the
   machines above produce exactly these, in this order. *)
Fixpoint allocs (forms : list pform) (r : nat) : list (list nat) :=
  match forms with
  | [] => [[]]
  | f :: rest =>
      match rest with
      | [] => if (pf_start f <=? r) && le_end r (pf_end f) then [[r]] else []
      | _ => flat_map (fun i => map (cons i) (allocs rest (r - i)))
                      (if pf_optional f then rev (arange f r) else arange f r)
      end
  end.
Fixpoint odfs (fm : nat -> nat -> bool) (idx : list nat) (start : nat) (taken : list bool) : list (list nat) :=
  match idx with
  | [] => [[]]
  | f :: idx' =>
      flat_map (fun i =>
          map (cons i) (odfs fm idx' (match idx' with [] => i + 1 | g :: _ => if f =? g then i + 1 else 0 end)
                             (upd taken i true)))
        (filter (fun i => negb (nth i taken false) && fm f i) (seq start (length taken - start)))
  end.
Definition assignments (forms : list pform) (fm : nat -> nat -> bool) (orderless : bool) (l : nat) : list (list (list nat)) :=
  flat_map (fun al =>
      if orderless then map (slices al) (odfs fm (indices_from 0 al) 0 (repeat false l))
      else [slices al (seq 0 l)])
    (allocs forms l).
