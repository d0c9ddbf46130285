(** * Specification of typing in two modes

    [infers sg G t A]: the type [A] is found from [t]; [checks sg G t A]: [t] is verified against [A].
    In contrast to [has_type], conversion is used only where an application needs a product,
    where an abstraction is verified, and where the mode changes. *)

From Coq Require Import List Arith Lia Bool.
From Verif Require Import SpecTerm SpecConv SpecTyping.
Import ListNotations.

Inductive infers (sg : sig) : list tm -> tm -> tm -> Prop :=
| inf_type G : infers sg G Typ Kind
| inf_const G c A : sg_type sg c = Some A -> infers sg G (Const c) A
| inf_var G n A : nth_error G n = Some A -> infers sg G (Var n) (lift (S n) A)
| inf_app G t u T A B :
  infers sg G t T -> conv sg T (Pi A B) -> checks sg G u A -> infers sg G (App t u) (subst1 u B)
| inf_lam G A t B :
  infers sg G A Typ -> infers sg (A :: G) t B -> B <> Kind -> infers sg G (Lam A t) (Pi A B)
| inf_pi G A B s :
  infers sg G A Typ -> infers sg (A :: G) B s -> s = Typ \/ s = Kind -> infers sg G (Pi A B) s
with checks (sg : sig) : list tm -> tm -> tm -> Prop :=
| chk_lam G A K t T A' B :
  conv sg T (Pi A' B) -> infers sg G A K -> conv sg A A' -> checks sg (A' :: G) t B -> checks sg G (Lam A t) T
| chk_ulam G t T A B : conv sg T (Pi A B) -> checks sg (A :: G) t B -> checks sg G (ULam t) T
| chk_infer G t A B : infers sg G t A -> conv sg A B -> checks sg G t B.

Scheme infers_mind := Induction for infers Sort Prop
  with checks_mind := Induction for checks Sort Prop.
Combined Scheme bidir_ind from infers_mind, checks_mind.
