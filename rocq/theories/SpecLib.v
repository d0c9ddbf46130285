(** * Specification of streams of commands whose rules are trusted *)

From Verif Require Import Base ModelTerm ModelGctx ModelCommand ModelInfer ModelSyntax ModelShare ModelProcess SpecTerm SpecConv SpecTyping SpecProcess.

(** As [verified], but nothing is required of the types of rules. *)
Inductive trusted (sg : sig) : vcmd -> sig -> Prop :=
| tr_intro c it sg' : verified sg (VIntro c it) sg' -> trusted sg (VIntro c it) sg'
| tr_rules rs sg' : extends_rules sg rs sg' -> trusted sg (VRules rs) sg'.
Inductive trusted_all : sig -> list vcmd -> sig -> Prop :=
| tall_nil sg : trusted_all sg [] sg
| tall_cons sg cmd sg' cmds sg'' :
  trusted sg cmd sg' -> trusted_all sg' cmds sg'' -> trusted_all sg (cmd :: cmds) sg''.

(** All rules of the commands, except for those with jokers or variables without types, pass the test of the kernel
    in the state reached before them; [step] processes one command. *)
Section Pass.
  Variable K : kernel.
  Variable step : scoped -> pst -> pst * res ko_error unit.
  Fixpoint rules_pass (cmds : list scoped) (st : pst) : Prop :=
    match cmds with
    | [] => True
    | cmd :: cmds =>
      (forall st' rs r r', share cmd st = (st', Ok (CRules rs)) -> In r rs -> rule_try r = Ok r' ->
        exists chk, k_rewrite K (ps_gc st) r' = Ok chk /\ k_check K (ps_gc st) chk = Ok tt) /\
      rules_pass cmds (fst (step cmd st))
    end.
End Pass.
