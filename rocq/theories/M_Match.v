(* The pattern matcher: matcher/matchq.go, parse_form.go, blank.go, pdmanager.go. *)
From Verif Require Import M_Syntax M_Hash M_Alloc.
Open Scope nat_scope.

(* matcher/pdmanager.go 12-57: PDManager, a map from names to expressions *)
Definition pdm : Type := list (string * ex).
Fixpoint pd_get (pm : pdm) (n : string) : option ex :=
  match pm with [] => None | (k, v) :: t => if String.eqb k n then Some v else pd_get t n end.
Fixpoint pd_set (pm : pdm) (n : string) (v : ex) : pdm :=
  match pm with
  | [] => [(n, v)]
  | (k, w) :: t => if String.eqb k n then (k, v) :: t else (k, w) :: pd_set t n v
  end.
(* pdmanager.go 43-51: update *)
Definition pd_update (pm add : pdm) : pdm := fold_left (fun m '(k, v) => pd_set m k v) add pm.

(* What the matcher reads from the evaluation state.  me_true e: evaluating e
   gives the symbol True.  Simplification: that evaluation is a function of the
   expression, without side effects on the state or on the bindings. *)
Record menv : Type := MEnv {
  me_orderless : string -> bool; me_flat : string -> bool; me_oneid : string -> bool;
  me_default : string -> option ex; me_true : ex -> bool }.

Definition nBlank := sysname "Blank".
Definition nBS := sysname "BlankSequence".
Definition nBNS := sysname "BlankNullSequence".
Definition nPattern := sysname "Pattern".
Definition nPatTest := sysname "PatternTest".
Definition nOptional := sysname "Optional".
Definition nRepeated := sysname "Repeated".
Definition nRepeatedNull := sysname "RepeatedNull".
Definition nExcept := sysname "Except".
Definition nAlt := sysname "Alternatives".
Definition nCondition := sysname "Condition".
Definition nHoldPattern := sysname "HoldPattern".
Definition nVerbatim := sysname "Verbatim".

(* HeadAssertion(e, Blank) || HeadAssertion(e, BlankSequence) || ... *)
Definition blank_like (e : ex) : option (list ex) :=
  match args_of e nBlank with
  | Some l => Some l
  | None => match args_of e nBS with
            | Some l => Some l
            | None => args_of e nBNS
            end
  end.

(* blank.go 8-34.  A Pattern with fewer than two arguments makes the Go code
   panic; here it is not blank. *)
Definition is_blank_type_only (e : ex) : bool :=
  match args_of e nPattern with
  | Some (_ :: q :: _) => match blank_like q with Some _ => true | None => false end
  | _ => match blank_like e with Some _ => true | None => false end
  end.

(* blank.go 73-84, 109-116: does the head satisfy Blank[h]? *)
Definition blank_head_ok (args : list ex) (head : ex) : bool :=
  match args with [] => true | h :: _ => is_sameq head h end.

(* blank.go 36-117: isBlankTypeCapturing.  The second component is the content
   of pm afterwards (pm is modified in place). *)
Definition blank_capture (e target head : ex) (pm : pdm) : bool * pdm :=
  match args_of e nPattern with
  | Some (s :: q :: _) =>
      match blank_like q with
      | Some args =>
          if blank_head_ok args head then
            match s with
            | ESym n =>
                match pd_get pm n with
                | None => (is_sameq target target, pd_set pm n target)
                | Some v => (is_sameq v target, pm)
                end
            | _ => (true, pm)
            end
          else (false, pm)
      | None => (false, pm)
      end
  | _ => match blank_like e with
         | Some args => (blank_head_ok args head, pm)
         | None => (false, pm)
         end
  end.

(* matchq.go 192-208 *)
Definition head_ex (a : ex) : ex :=
  match a with
  | EFlt _ => sys "Real"
  | EInt _ => sys "Integer"
  | EStr _ => sys "String"
  | EExpr (h :: _) => h
  | EExpr [] => sys "Null" (* Go: index out of range *)
  | ESym _ => sys "Symbol"
  | ERat _ _ => sys "Rational"
  | ECplx _ _ => sys "Complex"
  end.

(* blank.go 119-143 *)
Definition to_blank (args : list ex) : ex :=
  match args with [] => EExpr [sys "Blank"] | h :: _ => EExpr [sys "Blank"; h] end.

(* parse_form.go 21-45: parseRepeated on the arguments; the bounds are None for
   -1.  Simplifications: the count is not truncated to a machine int; a count
   below -1 yields a form that can never be filled (in Go it can make slice
   bounds negative and panic). *)
Definition parse_repeated (args : list ex) : option (ex * option (nat * nat)) :=
  match args with
  | [] => None
  | [p] => Some (p, None)
  | p :: spec :: _ =>
      match args_of spec nList with
      | Some [EInt k] =>
          if Z.eqb k (-1)%Z then Some (p, None)
          else if Z.ltb k 0%Z then Some (p, Some (1%nat, 0%nat))
          else Some (p, Some (Z.to_nat k, Z.to_nat k))
      | _ => None
      end
  end.

(* parse_form.go 47-180 *)
Definition parse_form (lhs : ex) (isflat : bool) (seqhead : string) (hdefault : option ex) : pform :=
  let opt := match args_of lhs nOptional with Some (p :: r) => Some (p, r) | _ => None end in
  let tp1 := match opt with Some (p, _) => p | None => lhs end in
  let ptest := match args_of tp1 nPatTest with Some (p :: t :: _) => Some (p, t) | _ => None end in
  let tp2 := match ptest with Some (p, _) => p | None => tp1 end in
  let pat := match args_of tp2 nPattern with Some (ESym s :: q :: _) => Some (s, q) | _ => None end in
  let tp := match pat with Some (_, q) => q | None => tp2 end in
  let blank := args_of tp nBlank in
  let isblank0 := match blank with Some _ => true | None => false end in
  let implied := isblank0 && isflat in
  let isblank := isblank0 && negb implied in
  let wrap f := match ptest with Some (_, t) => EExpr [sys "PatternTest"; f; t] | None => f end in
  let mk st en f d := PForm st en (wrap f) isblank implied
                        (match opt with Some _ => true | None => false end) d
                        (match pat with Some (s, _) => Some s | None => None end) in
  match opt with
  | Some (_, r) =>
      let d := match r with x :: _ => Some x | [] => hdefault end in
      mk (match d with None => 1 | Some _ => 0 end)
         (if implied && negb (match ptest with Some _ => true | None => false end) then None else Some 1) tp d
  | None =>
      match args_of tp nBNS with
      | Some l => mk 0 None (to_blank l) None
      | None =>
          match blank with
          | Some l =>
              if implied then
                match l with
                | ESym s :: _ => if String.eqb s seqhead then mk 2 None (EExpr [sys "Blank"]) None
                                 else mk 1 (Some 1) tp None
                | _ => mk 1 None tp None
                end
              else mk 1 (Some 1) tp None
          | None =>
              match args_of tp nRepeated with
              | Some l =>
                  match parse_repeated l with
                  | Some (p, None) => mk 1 None p None
                  | Some (p, Some (lo, hi)) => mk lo (Some hi) p None
                  | None => mk 1 (Some 1) tp None
                  end
              | None =>
                  match args_of tp nRepeatedNull with
                  | Some [p] => mk 0 None p None
                  | Some _ => mk 1 (Some 1) tp None
                  | None => match args_of tp nBS with
                            | Some l => mk 1 None (to_blank l) None
                            | None => mk 1 (Some 1) tp None
                            end
                  end
              end
          end
      end
  end.

(* pdmanager.go 118-154: defineSequence; the value the name is given *)
Definition seq_value (env : menv) (lhs : pform) (s : list ex) (seqhead : string) : ex :=
  match s with
  | [x] => if pf_isblank lhs || me_oneid env seqhead || pf_optional lhs then x
           else if pf_impliedbs lhs then EExpr [ESym seqhead; x] else EExpr [sys "Sequence"; x]
  | _ =>
      match s, pf_optional lhs, pf_default lhs with
      | [], true, Some d => d
      | _, _, _ => if pf_impliedbs lhs then EExpr (ESym seqhead :: s) else EExpr (sys "Sequence" :: s)
      end
  end.
Definition define_sequence (env : menv) (lhs : pform) (s : list ex) (seqhead : string) (pm : pdm) : option pdm :=
  match pf_pat lhs with
  | None => Some pm
  | Some n =>
      let v := seq_value env lhs s seqhead in
      match pd_get pm n with
      | Some w => if is_sameq w v then Some (pd_set pm n v) else None
      | None => Some (pd_set pm n v)
      end
  end.

(* NewMatchIter(a, b, pm) is modelled as the list of the bindings its Next()
   reports, in order, together with the content of pm afterwards (pm may be
   modified in place).  A nil *PDManager is []. *)
Definition matcher : Type := ex -> ex -> pdm -> list pdm * pdm.

(* matchq.go 395-451: assignedMatchIter.next for the components of one form.
   Simplification: the explicit stack is a recursion (same order), and frames
   that share one empty PDManager get copies of it. *)
Fixpoint ami_comps (M : matcher) (form : ex) (comps : list ex) (pm : pdm) : list pdm :=
  match comps with
  | [] => [pm]
  | c :: r => let '(ms, pm1) := M c form pm in
              flat_map (fun m => ami_comps M form r (pd_update pm1 m)) ms
  end.
Fixpoint ami_forms (M : matcher) (env : menv) (seqhead : string) (bl : list (pform * list ex)) (pm : pdm) : list pdm :=
  match bl with
  | [] => [pm]
  | (lhs, comps) :: r =>
      flat_map (fun pm1 => match define_sequence env lhs comps seqhead pm1 with
                           | Some pm2 => ami_forms M env seqhead r pm2
                           | None => []
                           end)
               (ami_comps M (pf_form lhs) comps pm)
  end.

(* matchq.go 513-525 *)
Definition form_match (M : matcher) (comps : list ex) (forms : list pform) (i j : nat) : bool :=
  match nth_error forms i, nth_error comps j with
  | Some f, Some c => match fst (M c (pf_form f) []) with [] => false | _ => true end
  | _, _ => false
  end.
(* matchq.go 526-531 *)
Definition enough_matches (M : matcher) (comps : list ex) (forms : list pform) : bool :=
  forallb (fun f => pf_start f <=? length (filter (fun c => match fst (M c (pf_form f) []) with [] => false | _ => true end) comps)) forms.

Definition pick (comps : list ex) (ix : list nat) : list ex := map (fun i => nth i comps (sys "Null")) ix.

(* matchq.go 453-560: the sequence of all matches of a sequenceMatchIter *)
Definition seq_match (M : matcher) (env : menv) (comps : list ex) (forms : list pform)
    (orderless : bool) (seqhead : string) (pm : pdm) : list pdm :=
  if enough_matches M comps forms then
    flat_map (fun assn => ami_forms M env seqhead (combine forms (map (pick comps) assn)) pm)
             (assignments forms (form_match M comps forms) orderless (length comps))
  else [].

(* atoms/ex_expression.go 49-66 and matchq.go 172-190: Verbatim[h][args] *)
Definition verbatim_op (a b : ex) : option ex :=
  match a, b with
  | EExpr (h :: _), EExpr (EExpr [ESym s; v] :: args) =>
      if String.eqb s nVerbatim && is_sameq h v then Some (EExpr (v :: args)) else None
  | _, _ => None
  end.

Definition has_optional (l : list ex) : bool := existsb (fun p => has_head p nOptional) l.

(* matchq.go 242-284: the expression to match when the head is assumed *)
Definition assume_head (env : menv) (a b : ex) : option ex :=
  match b with
  | EExpr (ESym bs :: args) =>
      if me_oneid env bs && match me_default env bs with Some _ => true | None => false end && has_optional args then
        match a with
        | EExpr (ESym s :: _) => if String.eqb s bs then None else Some (EExpr [ESym bs; a])
        | EExpr _ => None
        | _ => Some (EExpr [ESym bs; a])
        end
      else None
  | _ => None
  end.

(* matchq.go 298-325, with the parts of a and b *)
Definition match_parts (M : matcher) (env : menv) (forceordered : bool) (la lb : list ex) (pm : pdm) : list pdm :=
  let run comps pats ord flat seqhead :=
    seq_match M env comps
      (map (fun p => parse_form p flat seqhead (me_default env seqhead)) pats) ord seqhead pm in
  match la, lb with
  | ESym s :: ta, ESym s' :: tb =>
      if String.eqb s s' then
        run ta tb (me_orderless env s && negb forceordered) (me_flat env s && negb forceordered) s
      else run la lb false false "Sequence"%string
  | _, _ => run la lb false false "Sequence"%string
  end.

(* matchq.go 162-325 *)
Definition match_normal (M : matcher) (env : menv) (a b0 : ex) (pm : pdm) : list pdm * pdm :=
  let '(b, force) := match verbatim_op a b0 with Some b' => (b', true) | None => (b0, false) end in
  if is_blank_type_only b then
    let '(ok, pm1) := blank_capture b a (head_ex a) pm in
    if ok then ([pm1], pm1) else ([], pm1)
  else
    match a, b with
    | ERat n d, EExpr _ =>
        let '(ms, pm1) := M (EExpr [sys "Rational"; EInt n; EInt d]) b pm in
        (match ms with [] => [] | m :: _ => [m] end, pm1)
    | ECplx re im, EExpr _ =>
        let '(ms, pm1) := M (EExpr [sys "Complex"; re; im]) b pm in
        (match ms with [] => [] | m :: _ => [m] end, pm1)
    | _, _ =>
        match assume_head env a b with
        | Some a' => (match_parts M env force (parts_of a') (parts_of b) pm, pm)
        | None =>
            match a, b with
            | EExpr la, EExpr lb => (match_parts M env force la lb pm, pm)
            | EExpr _, _ => ([], pm)
            | _, _ => (if is_sameq a b then [[]] else [], pm)
            end
        end
    end.

(* matchq.go 73-85 *)
Fixpoint match_alts (M : matcher) (a : ex) (alts : list ex) (pm : pdm) : list pdm * pdm :=
  match alts with
  | [] => ([], pm)
  | p :: r => let '(ms, pm1) := M a p pm in
              match ms with [] => match_alts M a r pm1 | m :: _ => ([m], pm1) end
  end.

(* matcher/pdreplace.go 8-37: replacePDInternal (the in-place updates of the
   copy are a pure substitution here) *)
Fixpoint replace_pd (pm : pdm) (e : ex) : ex :=
  match e with
  | ESym n => match pd_get pm n with Some v => v | None => e end
  | EExpr l => EExpr (map (replace_pd pm) l)
  | _ => e
  end.

(* atoms/ex_symbol.go 263-277: ContainsSymbol *)
Fixpoint contains_symbol (e : ex) (x : string) : bool :=
  match e with
  | ESym n => String.eqb n x
  | EExpr l => existsb (fun p => contains_symbol p x) l
  | _ => false
  end.
(* matcher/pdreplace.go 42-66: ReplacePD, with its shortcut when no bound name
   occurs; equal to replace_pd (P_MatchNames.v, replace_pd_go_eq) *)
Definition replace_pd_go (pm : pdm) (e : ex) : ex :=
  if existsb (contains_symbol e) (map fst pm) then replace_pd pm e else e.

(* matchq.go 41-326: the body of NewMatchIter; M is NewMatchIter itself *)
Definition mi_step (M : matcher) (env : menv) (a b : ex) (pm : pdm) : list pdm * pdm :=
      let normal := match_normal M env a b in
      match b with
      | EExpr (ESym s :: args) =>
          if String.eqb s nExcept then
            match args with
            | [p] => let '(ms, pm1) := M a p pm in
                     match ms with [] => ([pm1], pm1) | _ => ([], pm1) end
            | [p; q] => let '(ms, pm1) := M a p pm in
                        match ms with
                        | [] => let '(ms2, pm2) := M a q pm1 in
                                (match ms2 with [] => [] | m :: _ => [m] end, pm2)
                        | _ => ([], pm1)
                        end
            | _ => normal pm
            end
          else if String.eqb s nAlt then match_alts M a args pm
          else if String.eqb s nPatTest then
            match args with
            | [p; t] => let '(ms, pm1) := M a p pm in
                        match ms with
                        | [] => ([], pm1)
                        | m :: _ =>
                            if match t with ESym tn => String.eqb tn (sysname "NumberQ") | _ => false end
                            then (if numberQ a then [m] else [], pm1)
                            else (if me_true env (EExpr [t; a]) then [m] else [], pm1)
                        end
            | _ => normal pm
            end
          else if String.eqb s nCondition then
            match args with
            | [p; c] => let '(ms, pm1) := M a p pm in
                        match filter (fun m => me_true env (replace_pd m c)) ms with
                        | m :: _ => ([m], pm1)
                        | [] => normal pm1
                        end
            | _ => normal pm
            end
          else if String.eqb s nOptional then
            match args with
            | [p] => let '(ms, pm1) := M a p pm in
                     match ms with m :: _ => ([m], pm1) | [] => normal pm1 end
            | _ => normal pm
            end
          else if String.eqb s nHoldPattern then
            match args with [p] => M a p pm | _ => normal pm end
          else normal pm
      | _ => normal pm
      end.

(* NewMatchIter; [fuel] bounds the recursion *)
Fixpoint mi (fuel : nat) (env : menv) (a b : ex) (pm : pdm) : list pdm * pdm :=
  match fuel with
  | O => ([], pm)
  | S k => mi_step (mi k env) env a b pm
  end.

(* enough for the recursion to end on its own (P_MatchFuel.v) *)
Definition is_num_atom (a : ex) : bool := match a with ERat _ _ | ECplx _ _ => true | _ => false end.
Definition pat_fuel (a b : ex) : nat := 2 * ex_size b + (if is_num_atom a then 1 else 0).
Definition match_iter (env : menv) (a b : ex) (pm : pdm) : list pdm * pdm := mi (S (pat_fuel a b)) env a b pm.

(* matchq.go 564-588: IsMatchQ; None: no match *)
Definition is_match_q (env : menv) (a b : ex) (pm : pdm) : option pdm :=
  match fst (match_iter env a b pm) with [] => None | m :: _ => Some m end.

(* builtin_pattern.go 30-45: MatchQ[e, p] *)
Definition matchq_eval (env : menv) (a b : ex) : bool :=
  match is_match_q env a b [] with Some _ => true | None => false end.
