(** * Specification of typing: the lambda-Pi calculus modulo *)

From Coq Require Import List Arith Lia Bool.
From Verif Require Import SpecTerm SpecConv.
Import ListNotations.

(** [has_type sg G t A]: in signature [sg] and local context [G] (innermost binder first),
    [t] has type [A].
    As in the implementation, the conversion rule does not require the new type to be typed again,
    the domain of an annotated abstraction has to be typable, and the domain of an abstraction
    without annotation is taken from its type. *)
Inductive has_type (sg : sig) : list tm -> tm -> tm -> Prop :=
| ty_type G : has_type sg G Typ Kind
| ty_const G c A : sg_type sg c = Some A -> has_type sg G (Const c) A
| ty_var G n A : nth_error G n = Some A -> has_type sg G (Var n) (lift (S n) A)
| ty_app G t u A B :
  has_type sg G t (Pi A B) -> has_type sg G u A -> has_type sg G (App t u) (subst1 u B)
| ty_lam G A K t B :
  has_type sg G A K -> has_type sg (A :: G) t B -> B <> Kind -> has_type sg G (Lam A t) (Pi A B)
| ty_ulam G A t B :
  has_type sg (A :: G) t B -> B <> Kind -> has_type sg G (ULam t) (Pi A B)
| ty_pi G A B s :
  has_type sg G A Typ -> has_type sg (A :: G) B s -> s = Typ \/ s = Kind -> has_type sg G (Pi A B) s
| ty_conv G t A B : has_type sg G t A -> conv sg A B -> has_type sg G t B.
