(* Multinomial and Expand as written in the language itself:
   resources/combinatorics.m 36, resources/power.m 286-300. *)
From Verif Require Import M_Syntax M_Hash M_Num M_NumTheory M_Comb M_Compare M_List.
From Coq Require Import List Permutation.
Import ListNotations.
Open Scope nat_scope.

Definition xPlus (l : list ex) : ex := EExpr (sys "Plus" :: l).
Definition xTimes (l : list ex) : ex := EExpr (sys "Times" :: l).
Definition xPower (a b : ex) : ex := EExpr [sys "Power"; a; b].

(* the integers of a list, None when some element is no Integer *)
Fixpoint as_ints (l : list ex) : option (list Z) :=
  match l with
  | [] => Some []
  | EInt z :: t => match as_ints t with Some zs => Some (z :: zs) | None => None end
  | _ => None
  end.
Definition zsum (l : list Z) : Z := fold_right Z.add 0%Z l.
Definition zprodl (l : list Z) : Z := fold_right Z.mul 1%Z l.

(* combinatorics.m 36: Factorial[Apply[Plus, {seq}]] / Apply[Times, Map[Factorial, {seq}]]
   for Integer arguments that are not negative (the only ones Expand uses); the
   quotient of the two Integers is the evaluated Rational.  The Orderless
   attribute reorders the arguments first, which changes neither the sum nor
   the product. *)
Definition multinomial_eval (args : list ex) : option ex :=
  match as_ints args with
  | Some zs =>
      if forallb (fun z => (0 <=? z)%Z) zs then
        Some (eval_rational (fact_loop (Z.to_nat (zsum zs))) (zprodl (map (fun z => fact_loop (Z.to_nat z)) zs)))
      else None
  | None => None
  end.

(* Map over a List of a function that may stay unevaluated *)
Fixpoint omap {A B : Type} (f : A -> option B) (l : list A) : option (list B) :=
  match l with
  | [] => Some []
  | x :: t => match f x, omap f t with Some y, Some ys => Some (y :: ys) | _, _ => None end
  end.
Definition list_parts (e : ex) : option (list ex) :=
  match e with EExpr (ESym s :: l) => if String.eqb s "System`List" then Some l else None | _ => None end.

(* power.m 286-288: possibleExponents[n, m]:
   Flatten[Permutations /@ ((PadRight[#, m]) & /@ IntegerPartitions[n, m]), 1] *)
Definition possible_exponents (n m : Z) : option ex :=
  match int_partitions_eval [EInt n; EInt m] with
  | Some ps =>
      match list_parts ps with
      | Some l =>
          match omap (fun p => pad_right_eval [p; EInt m]) l with
          | Some qs =>
              match omap (fun q => permutations_eval [q]) qs with
              | Some rs => flatten_eval [mkList rs; EInt 1]
              | None => None
              end
          | None => None
          end
      | None => None
      end
  | None => None
  end.

(* power.m 289: Times@@(addends ^ exponents); Power is Listable *)
Definition gen_vars (addends exponents : list ex) : ex :=
  xTimes (map (fun '(a, e) => xPower a e) (combine addends exponents)).
(* power.m 290-293: one term of the sum.  The product is left as it is built,
   before Times and Power simplify it. *)
Definition expand_term (addends : list ex) (exponents : ex) : option ex :=
  match list_parts exponents with
  | Some es => match multinomial_eval es with Some c => Some (xTimes [c; gen_vars addends es]) | None => None end
  | None => None
  end.
(* power.m 290-293: Plus@@Table[..., {i, 1, Length[exponents]}] *)
Definition gen_expand (addends : list ex) (exponents : ex) : option ex :=
  match list_parts exponents with
  | Some vs => match omap (expand_term addends) vs with Some ts => Some (xPlus ts) | None => None end
  | None => None
  end.
(* power.m 295-296: s_Plus^n_Integer?Positive :> genExpand[List @@ s, possibleExponents[n, Length[s]]] *)
Definition expand_power (l : list ex) (n : Z) : option ex :=
  if (0 <? n)%Z then
    match possible_exponents n (Z.of_nat (length l)) with
    | Some v => gen_expand l v
    | None => None
    end
  else None.

(* power.m 297: c_*s_Plus :> ((c*#) &) /@ s.  Times is Flat, Orderless and
   OneIdentity: c stands for one or more of the factors, the factors that are
   matched by neither c nor s stay beside the result. *)
Definition factor_of (cs : list ex) : ex := match cs with [c] => c | _ => xTimes cs end.
Definition distribute (cs l rest : list ex) : ex :=
  let s := xPlus (map (fun x => xTimes [factor_of cs; x]) l) in
  match rest with [] => s | _ => xTimes (s :: rest) end.

(* one application of one of the two rules, at any place the matcher may choose
   except inside a head; the exponents are at most N *)
Inductive expand_step (N : Z) : ex -> ex -> Prop :=
| es_power l n r : (n <= N)%Z -> expand_power l n = Some r -> expand_step N (xPower (xPlus l) (EInt n)) r
| es_times args cs l rest : Permutation args (cs ++ xPlus l :: rest) -> cs <> [] ->
    expand_step N (xTimes args) (distribute cs l rest)
| es_inside h s t a b : expand_step N a b -> expand_step N (EExpr (h :: s ++ a :: t)) (EExpr (h :: s ++ b :: t)).
