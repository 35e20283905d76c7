From Verif Require Import M_Syntax M_Print S_Print.
From Coq Require Import DecimalString DecimalZ Decimal.
Open Scope nat_scope.

Lemma app_nil_s s : append s "" = s.
Proof. induction s as [|c s IH]; cbn; [reflexivity|now rewrite IH]. Qed.
Lemma app_assoc_s a b c : append (append a b) c = append a (append b c).
Proof. induction a as [|x a IH]; cbn; [reflexivity|now rewrite IH]. Qed.

(* text trees *)
Inductive ttree : Type := TAtom (s : string) | TNode (l : list ttree).

Section Read.
Context (ctx : string) (path : list string).
Fixpoint text_tree (e : ex) : ttree :=
  match e with
  | ESym n => TAtom (sym_text ctx path n)
  | EInt z => TAtom (int_text z)
  | EStr s => TAtom (append """" (append s """"))
  | EExpr l => TNode (map text_tree l)
  | _ => TAtom ""
  end.
End Read.

(* reading *)
Fixpoint span (s : string) : string * string :=
  match s with
  | EmptyString => (EmptyString, EmptyString)
  | String c t => if plain_char c then let (a, r) := span t in (String c a, r) else (EmptyString, s)
  end.
Fixpoint to_quote (s : string) : option (string * string) :=
  match s with
  | EmptyString => None
  | String c t => if Ascii.eqb c """" then Some (String c EmptyString, t)
                  else match to_quote t with Some (a, r) => Some (String c a, r) | None => None end
  end.
Definition lex (s : string) : option (string * string) :=
  match s with
  | EmptyString => None
  | String c t =>
      if Ascii.eqb c """" then match to_quote t with Some (a, r) => Some (String c a, r) | None => None end
      else match span s with (EmptyString, _) => None | p => Some p end
  end.
Definition opens (s : string) : bool := match s with String c _ => Ascii.eqb c "[" | _ => false end.

Inductive rd : string -> ttree -> string -> Prop :=
| rd_expr s a s1 t r : lex s = Some (a, s1) -> post (TAtom a) s1 t r -> rd s t r
with post : ttree -> string -> ttree -> string -> Prop :=
| post_stop t s : opens s = false -> post t s t s
| post_call t s l s1 t' r : args s l s1 -> post (TNode (t :: l)) s1 t' r -> post t (String "[" s) t' r
with args : string -> list ttree -> string -> Prop :=
| args_nil r : args (String "]" r) [] r
| args_cons s t s1 l r : rd s t s1 -> more s1 l r -> args s (t :: l) r
with more : string -> list ttree -> string -> Prop :=
| more_end r : more (String "]" r) [] r
| more_next s t s1 l r : rd s t s1 -> more s1 l r -> more (String "," (String " " s)) (t :: l) r.
Scheme rd_mind := Induction for rd Sort Prop
  with post_mind := Induction for post Sort Prop
  with args_mind := Induction for args Sort Prop
  with more_mind := Induction for more Sort Prop.

Lemma rd_det : forall s t r, rd s t r -> forall t' r', rd s t' r' -> t = t' /\ r = r'.
Proof.
  apply (rd_mind
    (fun s t r _ => forall t' r', rd s t' r' -> t = t' /\ r = r')
    (fun t0 s t r _ => forall t' r', post t0 s t' r' -> t = t' /\ r = r')
    (fun s l r _ => forall l' r', args s l' r' -> l = l' /\ r = r')
    (fun s l r _ => forall l' r', more s l' r' -> l = l' /\ r = r')).
  - intros s a s1 t r L _ IH t' r' H. inversion H as [x a' s1' t0 r0 L' P]; subst. rewrite L in L'. injection L' as <- <-.
    apply IH. exact P.
  - intros t s O t' r' H. inversion H as [|x s0 l s1 t0 r0 A P]; subst; [split; reflexivity|discriminate].
  - intros t s l s1 t' r A IHA P IHP t2 r2 H. inversion H as [x s0 O|x s0 l0 s2 t0 r0 A2 P2]; subst; [discriminate|].
    destruct (IHA _ _ A2) as [<- <-]. apply IHP. exact P2.
  - intros r l' r' H. inversion H as [|s0 t s1 l r0 R M]; subst; [split; reflexivity|].
    inversion R as [x a s2 t0 r0 L _]; subst. discriminate.
  - intros s t s1 l r R IHR M IHM l' r' H. inversion H as [x|s0 t0 s2 l0 r0 R2 M2]; subst.
    + inversion R as [x a s2 t0 r0 L _]; subst. discriminate.
    + destruct (IHR _ _ R2) as [<- <-]. destruct (IHM _ _ M2) as [<- <-]. split; reflexivity.
  - intros r l' r' H. inversion H; subst. split; reflexivity.
  - intros s t s1 l r R IHR M IHM l' r' H. inversion H as [x|s0 t0 s2 l0 r0 R2 M2]; subst.
    destruct (IHR _ _ R2) as [<- <-]. destruct (IHM _ _ M2) as [<- <-]. split; reflexivity.
Qed.

(* what the printer writes is read back *)
Definition stops (s : string) : Prop := match s with EmptyString => True | String c _ => plain_char c = false end.
Lemma span_app a s : plain a = true -> stops s -> span (append a s) = (a, s).
Proof.
  intros P H. induction a as [|c a IH]; cbn [append span].
  - destruct s as [|c s]; [reflexivity|]. cbn [span]. cbn in H. now rewrite H.
  - cbn [plain] in P. apply andb_true_iff in P. destruct P as [Pc Pa]. rewrite Pc, (IH Pa). reflexivity.
Qed.
Lemma plain_not_quote c : plain_char c = true -> Ascii.eqb c """" = false.
Proof. destruct (Ascii.eqb_spec c """") as [->|]; [discriminate|reflexivity]. Qed.
Lemma lex_plain a s : a <> EmptyString -> plain a = true -> stops s -> lex (append a s) = Some (a, s).
Proof.
  intros N P H. destruct a as [|c a]; [congruence|]. assert (E := span_app (String c a) s P H).
  cbn [append] in *. unfold lex. cbn [plain] in P. apply andb_true_iff in P. destruct P as [Pc _].
  rewrite (plain_not_quote c Pc), E. reflexivity.
Qed.
Lemma to_quote_app b s : no_quote b = true -> to_quote (append (append b """") s) = Some (append b """", s).
Proof.
  induction b as [|c b IH]; cbn [append to_quote no_quote]; [reflexivity|]. intros H.
  apply andb_true_iff in H. destruct H as [Hc Hb]. apply negb_true_iff in Hc. rewrite Hc.
  rewrite (IH Hb). reflexivity.
Qed.
Lemma lex_quote b s : no_quote b = true -> lex (append (append """" (append b """")) s) = Some (append """" (append b """"), s).
Proof. intros H. cbn [append lex]. change (Ascii.eqb """" """") with true. cbv iota. rewrite to_quote_app by assumption. reflexivity. Qed.

(* integers *)
Lemma uint_plain d : plain (NilEmpty.string_of_uint d) = true.
Proof. induction d; cbn [NilEmpty.string_of_uint plain]; [reflexivity| | | | | | | | | |]; assumption. Qed.
Definition digit_start (s : string) : Prop :=
  match s with String c _ => In c ["-"; "0"; "1"; "2"; "3"; "4"; "5"; "6"; "7"; "8"; "9"]%char | _ => False end.
Lemma uint_start d : d <> Nil -> digit_start (NilEmpty.string_of_uint d).
Proof. destruct d; intros N; [congruence| | | | | | | | | |]; cbn; auto 12. Qed.
Lemma revapp_not_nil d : forall d', d <> Nil -> revapp d d' <> Nil.
Proof. assert (G : forall d d', d' <> Nil -> revapp d d' <> Nil) by (clear; intros d; induction d; intros d' H; cbn [revapp]; try (apply IHd; discriminate); assumption).
  intros d' N. destruct d; [congruence| | | | | | | | | |]; cbn [revapp]; apply G; discriminate. Qed.
Lemma to_uint_not_nil p : Pos.to_uint p <> Nil.
Proof.
  unfold Pos.to_uint. unfold rev. apply revapp_not_nil.
  assert (S0 : forall d, Little.succ d <> Nil) by (intros d; destruct d; discriminate).
  assert (X : forall d, d <> Nil -> Little.double d <> Nil) by (intros d N; destruct d; [congruence| | | | | | | | | |]; discriminate).
  assert (Y : forall d, Little.succ_double d <> Nil) by (intros d; destruct d; discriminate).
  induction p; cbn [Pos.to_little_uint]; auto. discriminate.
Qed.
Lemma int_text_spec z : plain (int_text z) = true /\ digit_start (int_text z).
Proof.
  unfold int_text. destruct z as [|p|p]; cbn [Z.to_int NilEmpty.string_of_int].
  - split; [reflexivity|]. cbn. auto 12.
  - split; [apply uint_plain|apply uint_start, to_uint_not_nil].
  - cbn [plain digit_start]. split; [apply uint_plain|now left].
Qed.
Lemma int_text_inj z w : int_text z = int_text w -> z = w.
Proof.
  unfold int_text. intros E. apply (f_equal NilEmpty.int_of_string) in E. rewrite !NilEmpty.isi in E.
  injection E as E. rewrite <- (DecimalZ.of_to z), <- (DecimalZ.of_to w). now rewrite E.
Qed.

Section Full.
Context (ftext ctext : flt -> string) (oform : string -> ex -> string) (ctx : string) (path : list string).
Notation ff := (fullform ftext ctext oform ctx path).
Notation tt := (text_tree ctx path).

Lemma ff_call h args : (forall w x, h = ESym w -> args = [x] -> ~ In w forms) ->
  ff (EExpr (h :: args)) = append (ff h) (append "[" (append (join (map ff args)) "]")).
Proof.
  intros N. cbn [fullform]. destruct h as [w| | | | | |]; try reflexivity.
  destruct args as [|x [|y l]]; try reflexivity.
  assert (X : existsb (String.eqb w) forms = false).
  { apply not_true_is_false. intros X. apply existsb_exists in X. destruct X as (f & I0 & Y).
    apply String.eqb_eq in Y. subst f. now apply (N w x). }
  now rewrite X.
Qed.

Definition closes (s : string) : Prop := match s with String c _ => In c ["["; ","; "]"]%char | EmptyString => True end.
Lemma closes_stops s : closes s -> stops s.
Proof. destruct s as [|c s]; [easy|]. cbn. intros [<-|[<-|[<-|[]]]]; reflexivity. Qed.

Lemma name_lex a s : name_text a -> closes s -> lex (append a s) = Some (a, s).
Proof. intros N C. destruct a as [|c a]; [easy|]. apply lex_plain; [discriminate|apply N|now apply closes_stops]. Qed.
Lemma int_lex z s : closes s -> lex (append (int_text z) s) = Some (int_text z, s).
Proof.
  intros C. destruct (int_text_spec z) as [P D]. apply lex_plain; [|exact P|now apply closes_stops].
  intros E. rewrite E in D. exact D.
Qed.

Definition reads (e : ex) : Prop := forall s t r, closes s -> post (tt e) s t r -> rd (append (ff e) s) t r.

Lemma more_reads l : (forall x, In x l -> reads x) -> forall y r, reads y ->
  exists s1, rd (append (join (map ff (y :: l))) (String "]" r)) (tt y) s1 /\ more s1 (map tt l) r.
Proof.
  induction l as [|x l IH]; intros H y r Hy.
  - exists (String "]" r). split; [|constructor]. cbn [map join].
    apply Hy; [cbn; auto|]. now constructor.
  - destruct (IH (fun z I0 => H z (or_intror I0)) x r (H x (or_introl eq_refl))) as (s1 & R & M).
    exists (append ", " (append (join (map ff (x :: l))) (String "]" r))). split.
    + change (join (map ff (y :: x :: l))) with (append (ff y) (append ", " (join (map ff (x :: l))))).
      rewrite !app_assoc_s. apply Hy; [cbn; auto|]. now constructor.
    + cbn [map append]. econstructor; [exact R|exact M].
Qed.
Lemma args_reads l r : (forall x, In x l -> reads x) -> args (append (join (map ff l)) (String "]" r)) (map tt l) r.
Proof.
  destruct l as [|y l]; intros H; [constructor|].
  destruct (more_reads l (fun z I0 => H z (or_intror I0)) y r (H y (or_introl eq_refl))) as (s1 & R & M).
  cbn [map]. econstructor; [exact R|exact M].
Qed.

Lemma reads_all e : printable ctx path e -> reads e.
Proof.
  induction e as [n|s0|z|n d|f|a1 a2 IH1 IH2|l IH] using ex_ind'; intros P; inversion P as [m N|m|m Q|h args Ph Pa W]; subst; intros s t r C K.
  - econstructor; [|exact K]. cbn [fullform]. now apply name_lex.
  - econstructor; [|exact K]. cbn [fullform]. now apply lex_quote.
  - econstructor; [|exact K]. cbn [fullform]. now apply int_lex.
  - rewrite Forall_forall in IH. rewrite ff_call by assumption.
    rewrite app_assoc_s. change (append (append "[" ?a) s) with (String "[" (append a s)).
    apply (IH h (or_introl eq_refl) Ph); [cbn; auto|].
    cbn [append]. rewrite app_assoc_s. cbn [append].
    econstructor; [|exact K]. apply args_reads. intros x I0. apply IH; [now right|now apply Pa].
Qed.

Lemma tree_text e1 e2 : printable ctx path e1 -> printable ctx path e2 -> ff e1 = ff e2 -> tt e1 = tt e2.
Proof.
  intros P1 P2 E. assert (R1 := reads_all e1 P1 EmptyString (tt e1) EmptyString I (post_stop _ EmptyString eq_refl)).
  assert (R2 := reads_all e2 P2 EmptyString (tt e2) EmptyString I (post_stop _ EmptyString eq_refl)).
  rewrite !app_nil_s in *. rewrite E in R1. exact (proj1 (rd_det _ _ _ R1 _ _ R2)).
Qed.

Lemma name_not_int n z : name_text n -> n <> int_text z.
Proof. intros N ->. destruct (int_text_spec z) as [_ D]. destruct (int_text z) as [|c s]; [exact D|]. now apply (proj2 N). Qed.
Lemma name_not_quote n s : name_text n -> n <> append """" s.
Proof. intros N ->. destruct N as [N _]. discriminate. Qed.
Lemma int_not_quote z s : int_text z <> append """" s.
Proof. intros E. destruct (int_text_spec z) as [P _]. rewrite E in P. discriminate. Qed.
Lemma app_inj_r a b c : append a c = append b c -> a = b.
Proof.
  intros E. apply (f_equal list_ascii_of_string) in E.
  assert (G : forall x y, list_ascii_of_string (append x y) = list_ascii_of_string x ++ list_ascii_of_string y).
  { clear. intros x y. induction x as [|k x IH]; cbn; [reflexivity|now rewrite IH]. }
  rewrite !G in E. apply app_inv_tail in E. rewrite <- (string_of_list_ascii_of_string a), E. apply string_of_list_ascii_of_string.
Qed.

Lemma map_inj_on {A B} (f : A -> B) l1 : forall l2, (forall x y, In x l1 -> In y l2 -> f x = f y -> x = y) -> map f l1 = map f l2 -> l1 = l2.
Proof.
  induction l1 as [|x l1 IH]; intros [|y l2] H E; cbn [map] in E; try discriminate; [reflexivity|].
  injection E as Ex El. f_equal; [apply H; [now left|now left|exact Ex]|].
  apply IH; [|exact El]. intros a b Ia Ib. apply H; now right.
Qed.
Lemma tree_inj e1 : forall e2, printable ctx path e1 -> printable ctx path e2 -> distinct_names ctx path e1 e2 -> tt e1 = tt e2 -> e1 = e2.
Proof.
  induction e1 as [n|s0|z|n d|f|a1 a2 IH1 IH2|l IH] using ex_ind'; intros e2 P1 P2 D E;
    inversion P1 as [m1 N1|m1|m1 Q1|h1 args1 Ph1 Pa1 W1]; subst;
    inversion P2 as [m2 N2|m2|m2 Q2|h2 args2 Ph2 Pa2 W2]; subst; cbn [text_tree] in E; try discriminate;
    first [injection E as E E'|injection E as E].
  - f_equal. apply D; [constructor|constructor|exact E].
  - now apply name_not_int in E.
  - now apply (name_not_quote _ _ N1) in E.
  - symmetry in E. now apply (name_not_quote _ _ N2) in E.
  - symmetry in E. now apply int_not_quote in E.
  - apply app_inj_r in E. now subst.
  - symmetry in E. now apply name_not_int in E.
  - apply int_text_inj in E. now subst.
  - now apply int_not_quote in E.
  - f_equal. rewrite Forall_forall in IH. assert (E2 : map tt (h1 :: args1) = map tt (h2 :: args2)) by (cbn [map]; now rewrite E, E').
    apply (map_inj_on tt); [|exact E2]. intros x y Ix Iy Exy. apply IH; [exact Ix| | | |exact Exy].
    + destruct Ix as [<-|Ix]; [assumption|now apply Pa1].
    + destruct Iy as [<-|Iy]; [assumption|now apply Pa2].
    + intros n m M1 M2. apply D; (econstructor; [|eassumption]); assumption.
Qed.
Lemma fullform_inj e1 e2 : printable ctx path e1 -> printable ctx path e2 -> distinct_names ctx path e1 e2 -> ff e1 = ff e2 -> e1 = e2.
Proof. intros P1 P2 D E. apply tree_inj; auto. now apply tree_text. Qed.
End Full.
