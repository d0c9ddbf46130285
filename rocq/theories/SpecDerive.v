(** * Specification of typing, in the form of textbooks

    The typing rules of the lambda-Pi-calculus modulo rewriting.  Conversion is possible only to types and kinds.
    The term may carry the domains of its abstractions, which are then respected; the types and the context are without
    domains, because convertibility ignores them. *)

From Coq Require Import List Arith Lia Bool.
From Verif Require Import SpecTerm SpecConv SpecRed SpecType SpecDomain.
Import ListNotations.

Inductive derives (sg : sig) : list tm -> tm -> tm -> Prop :=
| d_type G : derives sg G Typ Kind
| d_const G c A : sg_type sg c = Some A -> derives sg G (Const c) (strip A)
| d_var G n A : nth_error G n = Some A -> derives sg G (Var n) (lift (S n) A)
| d_app G t u A B : derives sg G t (Pi A B) -> derives sg G u A -> derives sg G (App t u) (subst1 (strip u) B)
| d_lam G a t B s :
  derives sg G a Typ -> derives sg (strip a :: G) t B -> well_typed sg (strip a :: G) B s -> s = Typ \/ s = Kind ->
  derives sg G (Lam a t) (Pi (strip a) B)
| d_ulam G A t B s :
  well_typed sg G A Typ -> derives sg (A :: G) t B -> well_typed sg (A :: G) B s -> s = Typ \/ s = Kind ->
  derives sg G (ULam t) (Pi A B)
| d_pi G a b s : derives sg G a Typ -> derives sg (strip a :: G) b s -> s = Typ \/ s = Kind -> derives sg G (Pi a b) s
| d_conv G t A B s : derives sg G t A -> conv sg A B -> well_typed sg G B s -> s = Typ \/ s = Kind -> derives sg G t B.

(** Abstractions without domains occur only where the type is known: in arguments and, if not [infer], at the top. *)
Fixpoint annotations (infer : bool) (t : tm) : Prop :=
  match t with
  | Kind => False
  | Typ | Const _ | Var _ => True
  | App t u => annotations true t /\ annotations false u
  | Lam a t => annotations true a /\ annotations infer t
  | ULam t => if infer then False else annotations false t
  | Pi a b => annotations true a /\ annotations true b
  end.
