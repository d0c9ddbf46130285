(** * Specification of signatures with definitions, but without other rewrite rules *)

From Coq Require Import List Arith.
From Verif Require Import Base ModelSyntax ModelProcess SpecTerm SpecConv SpecRed SpecProcess SpecDomain.
Import ListNotations.

(** Symbols are added one after the other.  The type of a symbol is a type or kind with respect to the symbols
    before it, and so is its definition, if any, a term of its type. *)
Inductive definitional : sig -> Prop :=
| df_empty sg : (forall c, sg_type sg c = None) -> (forall c, sg_rules sg c = None) -> definitional sg
| df_declare sg c A rs sg' s :
  definitional sg -> A <> Kind -> s = Typ \/ s = Kind -> well_typed sg [] (strip A) s ->
  rs = None \/ rs = Some [] -> extends sg c A rs sg' -> definitional sg'
| df_define sg c A t sg' s :
  definitional sg -> A <> Kind -> s = Typ \/ s = Kind -> well_typed sg [] (strip A) s ->
  scoped 0 t -> well_typed sg [] (strip t) (strip A) -> extends sg c A (Some [MkSRule 0 [] t]) sg' -> definitional sg'.

(** Programs without rewrite rules *)
Definition rule_free (evs : list event) : Prop := forall rs, ~ In (EvCommand (PRules rs)) evs.
