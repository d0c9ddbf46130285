(** * Specification of typing for terms without domains

    In contrast to [has_type], the domain of every abstraction has to be a type, and the type of its body a type or kind.
    (In [has_type] any term may be the domain of an abstraction, which with fixed points of untyped terms
    makes terms typable that have no normal form.)
    As reduction, the judgement is defined for terms without annotations of domains. *)

From Coq Require Import List Arith Lia Bool.
From Verif Require Import SpecTerm SpecConv SpecWhnf SpecRed SpecSN SpecType.
Import ListNotations.

Inductive well_typed (sg : sig) : list tm -> tm -> tm -> Prop :=
| wt_type G : well_typed sg G Typ Kind
| wt_const G c A : sg_type sg c = Some A -> well_typed sg G (Const c) (strip A)
| wt_var G n A : nth_error G n = Some A -> well_typed sg G (Var n) (lift (S n) A)
| wt_app G t u A B : well_typed sg G t (Pi A B) -> well_typed sg G u A -> well_typed sg G (App t u) (subst1 u B)
| wt_lam G A t B s :
  well_typed sg G A Typ -> well_typed sg (A :: G) t B -> well_typed sg (A :: G) B s -> s = Typ \/ s = Kind -> well_typed sg G (ULam t) (Pi A B)
| wt_pi G A B s : well_typed sg G A Typ -> well_typed sg (A :: G) B s -> s = Typ \/ s = Kind -> well_typed sg G (Pi A B) s
| wt_conv G t A B : well_typed sg G t A -> conv sg A B -> well_typed sg G t B.

(** Contexts of types *)
Inductive type_ctx (sg : sig) : list tm -> Prop :=
| tc_nil : type_ctx sg []
| tc_cons G A : type_ctx sg G -> well_typed sg G A Typ -> type_ctx sg (A :: G).

(** The types of symbols are types or kinds. *)
Definition good_types (sg : sig) : Prop :=
  forall c A, sg_type sg c = Some A -> A <> Kind /\ exists s, (s = Typ \/ s = Kind) /\ well_typed sg [] (strip A) s.
(** The second pattern is the first one with jokers replaced by variables, and variables renamed. *)
Inductive fill (f : nat -> nat) : pat -> pat -> Prop :=
| fill_var m : fill f (PatVar m) (PatVar (f m))
| fill_joker m : fill f PatJoker (PatVar m)
| fill_symb c ps qs : Forall2 (fill f) ps qs -> fill f (PatSymb c ps) (PatSymb c qs).
(** If there are jokers in [r], they stand for further variables of [r']. *)
Definition named (r r' : srule) : Prop :=
  r' = r \/
  ~ Forall no_joker (sr_args r) /\ scoped (sr_vars r) (sr_rhs r) /\ usable r' /\ linear r' /\
  exists f, Forall2 (fill f) (sr_args r) (sr_args r') /\ sr_rhs r' = ren f (sr_rhs r).
(** Both sides of every rule have a common type. *)
Definition good_rule (sg : sig) (c : nat) (r : srule) : Prop :=
  exists r', named r r' /\ Forall no_joker (sr_args r') /\
  exists D l A, length D = sr_vars r' /\ inst Var (PatSymb c (sr_args r')) l /\
    well_typed sg D l A /\ well_typed sg D (strip (sr_rhs r')) A.
Definition good_rules (sg : sig) : Prop :=
  forall c rs r, sg_rules sg c = Some rs -> In r rs -> usable r -> good_rule sg c r.

(** Every well-typed term is strongly normalising. *)
Definition normalising (sg : sig) : Prop :=
  forall G t A, type_ctx sg G -> well_typed sg G t A -> sn sg t.
