(** * Specification of typable commands *)

From Verif Require Import Base ModelTerm ModelGctx ModelCommand ModelInfer ModelSyntax ModelProcess
  SpecTerm SpecConv SpecRed SpecSN SpecType SpecQuery SpecDomain SpecTotal SpecDerive Erase.

Section Spec.
  Variable gc : gctx.
  Notation sg := (er_gctx gc).
  Notation sort s := (s = Typ \/ s = Kind).

  Definition is_type (A : lterm) : Prop :=
    annotations true (erl A) /\ exists s, sort s /\ derives sg [] (erl A) s.
  (** The term [t] has the type [A] in [lc]. *)
  Definition has (lc : list lterm) (t : lterm) (A : tm) : Prop :=
    annotations false (erl t) /\ derives sg (dctx lc) (erl t) A.
  (** The term [t] has in [lc] the type [A], which is a type or kind, and the type can be found without further information. *)
  Definition yields (lc : list lterm) (t : lterm) (A : tm) : Prop :=
    annotations true (erl t) /\ derives sg (dctx lc) (erl t) A /\ exists s, sort s /\ well_typed sg (dctx lc) A s.

  Definition intro_derives (it : intro) : Prop :=
    match it with
    | IDeclaration _ A | IDefinition (Some A) None => is_type A
    | IDefinition (Some A) (Some t) | ITheorem A t => is_type A /\ has [] t (strip (erl A))
    | IDefinition None (Some t) => exists A, yields [] t A
    | IDefinition None None => False
    end.
  (** Both sides have a common type. Rules with jokers or variables without types are not considered. *)
  Definition rule_derives (r : rule) : Prop :=
    forall r', rule_try r = Ok r' -> exists A, yields (r_ctx r') (r_lhs r') A /\ has (r_ctx r') (r_rhs r') A.
  Definition cmd_derives (cmd : command) : Prop :=
    match cmd with
    | CIntro _ it => intro_derives it
    | CRules rs => Forall rule_derives rs
    end.
  (** The symbol is new, or the symbols of the rules may have rules. *)
  Definition cmd_admissible (cmd : command) : Prop :=
    match cmd with
    | CIntro c it => get_type gc c = None /\ (rewritable it = true -> get_rules gc c = None)
    | CRules rs => Forall (fun r => get_rules gc (tp_symbol (r_lhs r)) <> None) rs
    end.
End Spec.

Definition proper_cmd (cmd : command) : Prop :=
  match cmd with
  | CIntro _ it => intro_all proper_l it
  | CRules rs => Forall (fun r => Forall (fun x => forall A, snd x = Some A -> proper_l A) (r_ctx r) /\ proper_l (r_rhs r)) rs
  end.

(** The parsed command [cmd] can be processed in the state [st]: its names are resolved, and the command that results is typable
    and admissible in the context of [st]. *)
Definition ready (st : pst) (cmd : ModelSyntax.scoped) : Prop :=
  exists st' cmd', share cmd st = (st', Ok cmd') /\ cmd_derives (ps_gc st) cmd' /\ cmd_admissible (ps_gc st) cmd'.
