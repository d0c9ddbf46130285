(** * Property C61: programs without rewrite rules are decided, unconditionally *)

From Verif Require Import Base ModelTerm ModelGctx ModelCommand ModelSubst ModelReduce ModelInfer ModelSyntax ModelSymbols ModelShare ModelProcess
  SpecTerm SpecConv SpecRed SpecSN SpecType SpecProcess SpecDomain SpecTotal SpecDecide SpecDef Erase MainProgTotal SnDef MainDef Samples SamplesProcess SamplesProg SamplesDef.

(** ** C61: Theorems on whole programs (C57, C58) without assumptions on reduction *)

(** Signatures built by well-typed declarations and definitions are Church-Rosser, and well-typed terms over them are strongly normalising. *)
Theorem C61_normalising : forall sg, definitional sg -> church_rosser sg /\ normalising sg.
Proof. exact main_definitional. Qed.
Print Assumptions C61_normalising.

(** A program without rewrite rules only builds such signatures, whatever its commands are. *)
Theorem C61_definitional : forall O PE eta jobs evs st, rule_free evs ->
  accepted O PE (Opts eta None jobs) evs st -> definitional (er_gctx (ps_gc st)).
Proof. exact main_rule_free_definitional. Qed.
Print Assumptions C61_definitional.

(** It meets the conditions of C57 and C58, ... *)
Theorem C61_ok : forall O PE eta jobs evs, rule_free evs -> program_ok O PE (Opts eta None jobs) evs.
Proof. exact main_rule_free_ok. Qed.
Print Assumptions C61_ok.

(** ... thus sequential processing returns after finite time, and with success iff all commands can be processed. *)
Theorem C61_program_decides : forall O PE eta jobs evs, rule_free evs ->
  exists n0 r, snd r <> Fuel /\
    (forall n, n0 <= n -> infer_checks_seq PE (real_kernel O n) (Opts eta None jobs) _ (consume_item PE (Opts eta None jobs)) (map Ok evs)
       (pst_new (Opts eta None jobs)) = r) /\
    (snd r = Ok tt <->
     forall pre cmd post st, evs = pre ++ EvCommand cmd :: post -> accepted O PE (Opts eta None jobs) pre st -> ready st cmd).
Proof. exact main_rule_free. Qed.
Print Assumptions C61_program_decides.

(** definitions of terms, types, and functions from terms to types, a theorem that needs all of them to be unfolded *)
Example C61_example_accepted : rule_free def_events /\
  accepted (fun _ => sometimes) unit (Opts false None false) def_events (fst (fst (prog_seq def_events))).
Proof. split; [exact def_free|]. exists fuel. vm_compute. reflexivity. Qed.
(** ... and one that does not hold *)
Example C61_example_rejected : rule_free undef_events /\
  snd (prog_seq undef_events) = Err (PKo (KoTyping Unconvertible)).
Proof. split; [exact undef_free|]. vm_compute. reflexivity. Qed.
(** Definitions that would make reduction diverge are rejected. *)
Example C61_example_omega : rule_free omega_events /\ snd (prog_seq omega_events) = Err (PKo (KoTyping ProductExpected)).
Proof. split; [exact omega_free|]. vm_compute. reflexivity. Qed.
