(** * Specification of programs with recursive functions *)

From Verif Require Import Base ModelTerm ModelGctx ModelCommand ModelInfer ModelProcess SpecTerm SpecConv SpecDomain SpecTotal SpecRec Erase.

(** The rules of a command have arguments. *)
Definition cmd_args (cmd : command) : Prop :=
  match cmd with
  | CIntro _ _ => True
  | CRules rs => Forall (fun r => tp_args (r_lhs r) <> []) rs
  end.
(** Once the commands before it are accepted, every command finds a signature in [P],
    and its own rules have arguments and are well-typed or annotated by types.  Nothing is said about its terms. *)
Definition program_in (P : sig -> Prop) (O : query -> nat -> bool) (PE : Type) (o : opts) (evs : list event) : Prop :=
  forall pre cmd post st, evs = pre ++ EvCommand cmd :: post -> accepted O PE o pre st ->
    P (er_gctx (ps_gc st)) /\
    forall st' cmd', share cmd st = (st', Ok cmd') -> cmd_typed (ps_gc st) cmd' /\ cmd_args cmd'.
Definition structural_program := program_in structural.
