(** * Specification of termination *)

From Coq Require Import List.
From Verif Require Import SpecTerm SpecConv SpecWhnf SpecRed.
Import ListNotations.

(** [sn sg t]: there is no infinite sequence of reduction steps from [t]. *)
Inductive sn (sg : sig) (t : tm) : Prop :=
| sn_intro : (forall u, red sg t u -> sn sg u) -> sn sg t.

(** A term is strongly normalising if it is without the domains of its abstractions,
    which evaluation and comparison never look at. *)
Definition strongly_normalising (sg : sig) (t : tm) : Prop := sn sg (strip t).

(** Every variable of every rule occurs at most once on the left-hand side. *)
Definition left_linear (sg : sig) : Prop :=
  forall c rs r, sg_rules sg c = Some rs -> In r rs -> linear r.
