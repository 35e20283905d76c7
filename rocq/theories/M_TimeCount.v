(* The time counters behind ExpreduceDefinitionTimes[], timecounter.go.  A time is
   an element of any type T with an addition, a zero and a comparison (float64 in
   the program; elapsed times are never NaN).  Go maps are association lists; the
   order in which a loop over a map visits the entries is an argument.  The lines
   are kept as triples, fmt.Sprintf is left out. *)
From Coq Require Import List String Bool ZArith Permutation.
Import ListNotations.
Open Scope nat_scope.

(* m[k], with the zero value d; m[k] = v *)
Fixpoint mget {V : Type} (d : V) (m : list (string * V)) (k : string) : V :=
  match m with [] => d | (k', v) :: t => if String.eqb k' k then v else mget d t k end.
Fixpoint mset {V : Type} (m : list (string * V)) (k : string) (v : V) : list (string * V) :=
  match m with [] => [(k, v)] | (k', w) :: t => if String.eqb k' k then (k', v) :: t else (k', w) :: mset t k v end.

Section counters.
  Context {T : Type} (zero : T) (add : T -> T -> T) (leb : T -> T -> bool).
  (* timecounter.go 11-22 *)
  Record counter := Counter { times : list (string * T); counts : list (string * Z) }.
  Definition empty : counter := Counter [] [].
  (* timecounter.go 24-27 *)
  Definition add_time (c : counter) (k : string) (e : T) : counter :=
    Counter (mset (times c) k (add (mget zero (times c) k) e)) (mset (counts c) k (mget 0%Z (counts c) k + 1)%Z).
  (* timecounter.go 29-33; ord: the entries of other.times in the order of the loop *)
  Definition update (c : counter) (ord : list (string * T)) : counter := fold_left (fun c kv => add_time c (fst kv) (snd kv)) ord c.

  (* the values are compared with == as map keys *)
  Definition teq (a b : T) : bool := leb a b && leb b a.
  (* timecounter.go 39-41: n[v] = append(n[v], k) *)
  Fixpoint group_add (n : list (T * list string)) (k : string) (v : T) : list (T * list string) :=
    match n with
    | [] => [(v, [k])]
    | (w, ks) :: t => if teq w v then (w, ks ++ [k]) :: t else (w, ks) :: group_add t k v
    end.
  Definition groups (ord : list (string * T)) : list (T * list string) := fold_left (fun n kv => group_add n (fst kv) (snd kv)) ord [].
  (* timecounter.go 42-45: the groups by falling time.  (All times differ, so
     every way of sorting gives this result.) *)
  Fixpoint place (x : T * list string) (l : list (T * list string)) : list (T * list string) :=
    match l with [] => [x] | y :: t => if leb (fst x) (fst y) then y :: place x t else x :: l end.
  Definition falling (n : list (T * list string)) : list (T * list string) := fold_right place [] n.
  (* timecounter.go 46-57 *)
  Fixpoint print_groups (c : counter) (num printed : nat) (l : list (T * list string)) : list (T * Z * string) :=
    match l with
    | [] => []
    | (t, ks) :: r =>
        if num <=? printed then []
        else map (fun s => (t, mget 0%Z (counts c) s, s)) ks ++ print_groups c num (printed + List.length ks) r
    end.
  (* timecounter.go 35-59 *)
  Definition truncated (c : counter) (num : nat) (ord : list (string * T)) : list (T * Z * string) :=
    print_groups c num 0 (falling (groups ord)).
End counters.
Arguments Counter {T}. Arguments times {T}. Arguments counts {T}. Arguments counter : clear implicits. Arguments empty {T}.
