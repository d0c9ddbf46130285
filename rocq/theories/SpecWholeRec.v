(** * Specification of typable programs with rewrite rules, by the typing rules of [SpecDerive] *)

From Verif Require Import Base ModelCommand ModelSyntax SpecTerm SpecConv SpecRed SpecType SpecProcess SpecDomain SpecDerive SpecProgram SpecRec SpecWhole.

(** The types of the variables of a rule are given; as context, the last one comes first. *)
Definition rule_ctx (v : vrule) (D : list tm) : Prop := exists tys, v_ctx v = map Some tys /\ D = map strip (rev tys).
(** The kernel checks a rule without jokers whose variables are given types; all other rules are added as they are. *)
Definition checked (v : vrule) : Prop := Forall no_joker (v_args v) /\ exists D, rule_ctx v D.
(** Both sides of a rule that is checked have the same type. *)
Definition typable_rule (sg : sig) (v : vrule) : Prop :=
  checked v -> exists D l A s, rule_ctx v D /\ inst Var (PatSymb (v_head v) (v_args v)) l /\
    derives sg D l A /\ (s = Typ \/ s = Kind) /\ well_typed sg D A s /\ annotations false (v_rhs v) /\ derives sg D (v_rhs v) A.

Inductive typable_cmd (sg : sig) : vcmd -> sig -> Prop :=
| tc_intro c it sg' : typable sg (VIntro c it) sg' -> typable_cmd sg (VIntro c it) sg'
| tc_rules rs sg' : Forall (typable_rule sg) rs -> extends_rules sg rs sg' -> typable_cmd sg (VRules rs) sg'.
Inductive typable_cmds : sig -> list vcmd -> sig -> Prop :=
| tpc_nil sg : typable_cmds sg [] sg
| tpc_cons sg v sg1 vs sg2 : typable_cmd sg v sg1 -> typable_cmds sg1 vs sg2 -> typable_cmds sg (v :: vs) sg2.
(** The names in the sources denote symbols, and the resulting commands are typable. *)
Definition typable_program (srcs : list source) : Prop := exists vs sg, elaborates srcs vs /\ typable_cmds (empty_sig false) vs sg.

(** The rule has arguments; the types given to the variables of a rule that is checked are types, and a rule that is not
    checked has types. *)
Definition annotated (sg : sig) (v : vrule) : Prop :=
  v_args v <> [] /\ (checked v -> exists D, rule_ctx v D /\ type_ctx sg D) /\ (~ checked v -> typed_rule sg (v_head v) (srule_of v)).
(** When all commands before a command [c] are typable, their signature is in [P], and if [c] is a command for rules,
    its rules are annotated. *)
Definition sources_in (P : sig -> Prop) (srcs : list source) : Prop :=
  forall srcs1 m cs1 c cs2 srcs2 vs sg, srcs = srcs1 ++ (m, cs1 ++ c :: cs2) :: srcs2 ->
    elaborates (srcs1 ++ [(m, cs1)]) vs -> typable_cmds (empty_sig false) vs sg ->
    P sg /\ forall rs, elaborates (srcs1 ++ [(m, cs1 ++ [c])]) (vs ++ [VRules rs]) -> Forall (annotated sg) rs.
(** The rules are structurally recursive. *)
Definition recursive_sources := sources_in structural.
