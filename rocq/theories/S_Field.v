(* Values of arithmetic expressions in an arbitrary field. *)
From Verif Require Import M_Syntax.
From Coq Require Import Field_theory InitialRing.

Record field : Type := Field {
  fcar :> Type;
  f0 : fcar; f1 : fcar;
  fadd : fcar -> fcar -> fcar; fmul : fcar -> fcar -> fcar; fsub : fcar -> fcar -> fcar;
  fopp : fcar -> fcar; fdiv : fcar -> fcar -> fcar; finv : fcar -> fcar;
  f_theory : field_theory f0 f1 fadd fmul fsub fopp fdiv finv (@eq fcar) }.
Arguments f0 {_}. Arguments f1 {_}. Arguments fadd {_}. Arguments fmul {_}.
Arguments fsub {_}. Arguments fopp {_}. Arguments fdiv {_}. Arguments finv {_}.

Definition fsum {F : field} (l : list F) : F := fold_right fadd f0 l.
Definition fprod {F : field} (l : list F) : F := fold_right fmul f1 l.
(* the integer z in the field: 1 + ... + 1, z times *)
Definition of_int {F : field} (z : Z) : F := gen_phiZ f0 f1 fadd fmul fopp z.
(* x to an integer power *)
Definition fpow {F : field} (x : F) (n : nat) : F := fprod (List.repeat x n).
Definition fzpow {F : field} (x : F) (n : Z) : F :=
  match n with
  | Zneg p => finv (fpow x (Pos.to_nat p))
  | _ => fpow x (Z.to_nat n)
  end.

(* v gives numbers, sums, products and integer powers their values; everything
   else has any value whatsoever *)
Record arith_valuation (F : field) (v : ex -> F) : Prop := {
  av_int : forall z, v (EInt z) = of_int z;
  av_rat : forall n d, v (ERat n d) = fdiv (of_int n) (of_int d);
  av_plus : forall l, v (EExpr (sys "Plus" :: l)) = fsum (List.map v l);
  av_times : forall l, v (EExpr (sys "Times" :: l)) = fprod (List.map v l);
  av_power : forall a n, v (EExpr [sys "Power"; a; EInt n]) = fzpow (v a) n }.
