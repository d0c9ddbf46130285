(** * Property C74: the example inf.dk is typable, but checking it does not end *)

From Verif Require Import Base ModelTerm ModelGctx ModelCommand ModelSyntax ModelLex ModelParse ModelProcess ModelMain SpecTerm SpecConv SpecRed SpecDerive SpecWhole Erase
  Samples SamplesProcess SamplesParse SamplesProgram SamplesExamples TestExamples SamplesInf.

(** Whatever the fuel is, checking examples/nat.dk and examples/bench/inf.dk does not return, ... *)
Theorem C74_diverges : forall O n r,
  kocheck junk0 (real_kernel O n) (Opts false None false) false (stdin (nat_dk ++ inf_dk)) r <-> r = Fuel.
Proof. exact inf_diverges. Qed.
Print Assumptions C74_diverges.
(** ... and with several threads or a channel neither. *)
Theorem C74_never_accepted : forall O n jobs channel,
  ~ kocheck junk0 (real_kernel O n) (Opts false None jobs) channel (stdin (nat_dk ++ inf_dk)) (Ok tt).
Proof. exact inf_never. Qed.
Print Assumptions C74_never_accepted.
(** Everything before the last definition is accepted, and the context is [inf_gc] then. *)
Theorem C74_prefix : forall O n, fuel <= n ->
  (forall r, kocheck junk0 (real_kernel O n) (Opts false None false) false (stdin (nat_dk ++ inf_rules)) r <-> r = Ok tt) /\
  infer_checks_seq parse_error (real_kernel O n) (Opts false None false) _ (consume_item parse_error (Opts false None false)) (map Ok inf_prefix) (pst_new (Opts false None false))
    = (inf_state, [], Ok tt) /\ inf_gc = ps_gc inf_state.
Proof. exact inf_before. Qed.
Print Assumptions C74_prefix.
(** In this context, whose rules are orthogonal, the type is a type and the term of the last definition has it. *)
Theorem C74_typable :
  complete (er_gctx inf_gc) /\ church_rosser (er_gctx inf_gc) /\ type_or_kind (er_gctx inf_gc) (erl inf_type) /\ checks (er_gctx inf_gc) (erl inf_term) (erl inf_type).
Proof. exact inf_all. Qed.
Print Assumptions C74_typable.

(** So the hypothesis of termination cannot be removed from C58, C65 and C69: the command for which the kernel diverges is typable. *)
Example C74_example_last :
  snd (consume_item parse_error (Opts false None false) (nth 0 (map Ok inf_last) Panic) inf_state) = Some (Ok (CIntro 21 (IDefinition (Some inf_type) (Some inf_term)))) /\
  length inf_last = 1 /\ erl inf_type = App (Const 17) (App (Const 20) (Const 19)) /\
  erl inf_term = App (Const 18) (App (Const 20) (App (Const 1) (Const 19))).
Proof. vm_compute. auto. Qed.
(** With the same number of successors ([def terminates : Dep (to_zero (succ inf)) := dep (to_zero (succ inf))]) it is accepted. *)
Example C74_example_same :
  kocheck junk0 (real_kernel (fun _ => sometimes) fuel) (Opts false None false) false
    (stdin (nat_dk ++ inf_same)) (Ok tt).
Proof. exact inf_same_accepted. Qed.
