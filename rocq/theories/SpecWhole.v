(** * Specification of typable programs without rewrite rules, by the typing rules of [SpecDerive] *)

From Verif Require Import Base ModelCommand ModelSyntax SpecTerm SpecConv SpecRed SpecType SpecProcess SpecDomain SpecDerive SpecProgram.

Section Spec.
  Variable sg : sig.
  Notation sort s := (s = Typ \/ s = Kind).

  Definition type_or_kind (A : tm) : Prop := annotations true A /\ exists s, sort s /\ derives sg [] A s.
  (** [t] can be checked to have the type [A]. *)
  Definition checks (t A : tm) : Prop := annotations false t /\ derives sg [] t (strip A).
  (** [t] has the type [A], and the type can be found. *)
  Definition synthesises (t A : tm) : Prop :=
    annotations true t /\ derives sg [] t (strip A) /\ exists s, sort s /\ well_typed sg [] (strip A) s.

  (** The command, which is not a command for rules, is typable, and yields the signature with its new symbol. *)
  Inductive typable : vcmd -> sig -> Prop :=
  | tp_declare c (rw : bool) A sg' :
    type_or_kind A -> extends sg c A (if rw then Some [] else None) sg' -> typable (VIntro c (IDeclaration rw A)) sg'
  | tp_later c A sg' :
    type_or_kind A -> extends sg c A (Some []) sg' -> typable (VIntro c (IDefinition (Some A) None)) sg'
  | tp_define c A t sg' :
    type_or_kind A -> checks t A -> extends sg c A (Some [MkSRule 0 [] t]) sg' -> typable (VIntro c (IDefinition (Some A) (Some t))) sg'
  | tp_untyped c A t sg' :
    synthesises t A -> extends sg c A (Some [MkSRule 0 [] t]) sg' -> typable (VIntro c (IDefinition None (Some t))) sg'
  | tp_theorem c A t sg' :
    type_or_kind A -> checks t A -> extends sg c A None sg' -> typable (VIntro c (ITheorem A t)) sg'.
End Spec.
Inductive typable_all : sig -> list vcmd -> sig -> Prop :=
| tpa_nil sg : typable_all sg [] sg
| tpa_cons sg v sg1 vs sg2 : typable sg v sg1 -> typable_all sg1 vs sg2 -> typable_all sg (v :: vs) sg2.

(** No source contains a command for rules. *)
Definition without_rules (srcs : list source) : Prop := forall m cs rs, In (m, cs) srcs -> ~ In (PRules rs) cs.

(** The names in the sources denote symbols, and the resulting commands are typable, with eta conversion if [eta]. *)
Definition typable_sources (eta : bool) (srcs : list source) : Prop := exists vs sg, elaborates srcs vs /\ typable_all (empty_sig eta) vs sg.
