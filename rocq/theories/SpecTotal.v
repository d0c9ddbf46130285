(** * Specification of contexts in which the processing of commands terminates *)

From Verif Require Import Base ModelTerm ModelGctx ModelCommand ModelInfer ModelProcess
  SpecTerm SpecConv SpecRed SpecSN SpecType SpecDomain SpecRec Erase.

(** What is needed of a global context: eta is off or the rules are orthogonal and without
    arguments, no variable occurs twice on the left-hand side of a rule, products are injective, types and rules are well-typed, and well-typed terms are strongly normalising. *)
Record terminating (gc : gctx) : Prop := {
  tm_eta : eta_safe (er_gctx gc);
  tm_linear : left_linear (er_gctx gc);
  tm_pi : pi_injective (er_gctx gc);
  tm_types : good_types (er_gctx gc);
  tm_rules : good_rules (er_gctx gc);
  tm_sn : normalising (er_gctx gc)
}.
(** A local context of the kernel, without domains *)
Definition dctx (lc : list lterm) : list tm := map (fun A => strip (erl A)) (rev lc).
(** The types given for the variables of rules are types.  (The kernel does not verify this.) *)
Definition cmd_ctx (gc : gctx) (cmd : command) : Prop :=
  match cmd with
  | CIntro _ _ => True
  | CRules rs => Forall (fun r => forall r', rule_try r = Ok r' -> type_ctx (er_gctx gc) (dctx (r_ctx r'))) rs
  end.

(** ** Programs *)

(** If a rule is checked, the types given for its variables are types.
    If it is not checked, because types are missing or because of jokers, both its sides have a common type. *)
Definition cmd_typed (gc : gctx) (cmd : command) : Prop :=
  match cmd with
  | CIntro _ _ => True
  | CRules rs => Forall (fun r =>
      match rule_try r with
      | Ok r' => type_ctx (er_gctx gc) (dctx (r_ctx r'))
      | _ => typed_rule (er_gctx gc) (tp_symbol (r_lhs r)) (er_rule r)
      end) rs
  end.
(** The events of [evs] are processed without error, with any oracle [O] and some amount of fuel. *)
Definition accepted (O : query -> nat -> bool) (PE : Type) (o : opts) (evs : list event) (st : pst) : Prop :=
  exists n, infer_checks_seq PE (real_kernel O n) o _ (consume_item PE o) (map Ok evs) (pst_new o) = (st, [], Ok tt).
(** What is needed of the context in which a command is processed: eta is off or the rules are orthogonal and
    without arguments, no variable occurs twice on the left-hand
    side of a rule, reduction has the Church-Rosser property, and well-typed terms are strongly normalising. *)
Definition program_ok (O : query -> nat -> bool) (PE : Type) (o : opts) (evs : list event) : Prop :=
  forall pre cmd post st, evs = pre ++ EvCommand cmd :: post -> accepted O PE o pre st ->
    eta_safe (er_gctx (ps_gc st)) /\ left_linear (er_gctx (ps_gc st)) /\ church_rosser (er_gctx (ps_gc st)) /\ normalising (er_gctx (ps_gc st)) /\
    forall st' cmd', share cmd st = (st', Ok cmd') -> cmd_typed (ps_gc st) cmd'.
