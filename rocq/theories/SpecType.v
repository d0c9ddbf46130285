(** * Specification of well-typed signatures *)

From Coq Require Import List Arith Lia Bool.
From Verif Require Import ModelCommand SpecTerm SpecConv SpecTyping SpecRed SpecProcess.
Import ListNotations.

(** Products are convertible only if their parts are. *)
Definition pi_injective (sg : sig) : Prop :=
  forall a b a' b', conv sg (Pi a b) (Pi a' b') -> conv sg a a' /\ conv sg b b'.

(** The types of symbols have no free variables. *)
Definition closed_types (sg : sig) : Prop :=
  forall c A, sg_type sg c = Some A -> scoped 0 A.

(** No joker occurs in the pattern. *)
Inductive no_joker : pat -> Prop :=
| nj_var m : no_joker (PatVar m)
| nj_symb c ps : Forall no_joker ps -> no_joker (PatSymb c ps).

(** Both sides of the rule have a common type in some context for the variables of the rule. *)
Definition rule_typed (sg : sig) (c : nat) (r : srule) : Prop :=
  Forall no_joker (sr_args r) /\
  exists D l A, length D = sr_vars r /\ inst Var (PatSymb c (sr_args r)) l /\
    has_type sg D l A /\ has_type sg D (sr_rhs r) A.
Definition rules_typed (sg : sig) : Prop :=
  forall c rs r, sg_rules sg c = Some rs -> In r rs -> usable r -> rule_typed sg c r.

(** A type is [Kind] or has a sort as its type. *)
Definition sorted (sg : sig) (G : list tm) (A : tm) : Prop :=
  A = Kind \/ has_type sg G A Typ \/ has_type sg G A Kind.
Definition sorted_types (sg : sig) : Prop :=
  forall c A, sg_type sg c = Some A -> sorted sg [] A.
(** Every type of a context has a sort, with respect to the types before it. *)
Inductive sorted_ctx (sg : sig) : list tm -> Prop :=
| sorted_nil : sorted_ctx sg []
| sorted_cons G A : sorted_ctx sg G -> sorted sg G A -> A <> Kind -> sorted_ctx sg (A :: G).

(** The variables of all rules have types, and the rules have no jokers. *)
Definition annotated (cmd : vcmd) : Prop :=
  match cmd with
  | VRules rs => Forall (fun r => (exists tys, v_ctx r = map Some tys) /\ forallb joker_free (v_args r) = true) rs
  | VIntro _ _ => True
  end.
