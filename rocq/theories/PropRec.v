(** * Property C64: programs with structurally recursive functions are decided *)

From Verif Require Import Base ModelTerm ModelGctx ModelCommand ModelSubst ModelReduce ModelInfer ModelSyntax ModelSymbols ModelShare ModelProcess
  SpecTerm SpecConv SpecRed SpecSN SpecType SpecProcess SpecDomain SpecTotal SpecDecide SpecRec SpecRecProg RedConfl Erase RedCheck RedEnum MainProgTotal SnRec MainRec RecCheck Samples SamplesProcess SamplesProg SamplesRec.

(** ** C64: Theorems on whole programs (C57, C58) with assumptions on the syntax of rules instead of assumptions on reduction *)

(** Signatures built by well-typed declarations, definitions, and structurally recursive rules on data of base type are
    Church-Rosser, and well-typed terms over them are strongly normalising. *)
Theorem C64_normalising : forall sg, built sg -> structural sg -> church_rosser sg /\ normalising sg.
Proof. exact structural_normalising. Qed.
Print Assumptions C64_normalising.

(** A program with structurally recursive functions only builds such signatures. *)
Theorem C64_built : forall O PE jobs evs st, structural_program O PE (Opts false None jobs) evs ->
  accepted O PE (Opts false None jobs) evs st -> built (er_gctx (ps_gc st)).
Proof. exact (main_built structural structural_class). Qed.
Print Assumptions C64_built.

(** It meets the conditions of C57 and C58, ... *)
Theorem C64_ok : forall O PE jobs evs, structural_program O PE (Opts false None jobs) evs -> program_ok O PE (Opts false None jobs) evs.
Proof. exact (main_ok structural structural_class). Qed.
Print Assumptions C64_ok.

(** ... thus sequential processing returns after finite time, and with success iff all commands can be processed. *)
Theorem C64_program_decides : forall O PE jobs evs, structural_program O PE (Opts false None jobs) evs ->
  exists n0 r, snd r <> Fuel /\
    (forall n, n0 <= n -> infer_checks_seq PE (real_kernel O n) (Opts false None jobs) _ (consume_item PE (Opts false None jobs)) (map Ok evs)
       (pst_new (Opts false None jobs)) = r) /\
    (snd r = Ok tt <->
     forall pre cmd post st, evs = pre ++ EvCommand cmd :: post -> accepted O PE (Opts false None jobs) pre st -> ready st cmd).
Proof. exact (main_decided structural structural_class). Qed.
Print Assumptions C64_program_decides.

(** Recursion without decreasing argument makes reduction diverge, though the kernel accepts the rule. *)
Theorem C64_guard_refuted : exists sg, built sg /\ left_linear sg /\ orthogonal sg /\
  (forall c r, rule_of sg c r -> Forall (data sg) (sr_args r)) /\ ~ normalising sg.
Proof. exact loop_refuted. Qed.
Print Assumptions C64_guard_refuted.
(** So do rules without any recursion, if functions may be arguments of the symbols in patterns. *)
Theorem C64_first_order_refuted : exists sg, built sg /\ left_linear sg /\ orthogonal sg /\
  (forall c r, rule_of sg c r -> guarded c 0 (fun _ => False) (strip (sr_rhs r))) /\ ~ normalising sg.
Proof. exact untyped_refuted. Qed.
Print Assumptions C64_first_order_refuted.

(** A program meets the condition if its contexts and commands up to the first error pass a test. *)
Theorem C64_test : forall O PE jobs uniq n evs, programb structuralb O PE jobs uniq n evs (pst_new (Opts false None jobs)) = true ->
  structural_program O PE (Opts false None jobs) evs.
Proof. exact main_programb. Qed.
Print Assumptions C64_test.

(** arithmetic, iteration of functions, folding of lists, and a theorem that holds by computation *)
Example C64_example_accepted : structural_program (fun _ => sometimes) unit (Opts false None false) good_rec /\ length good_rec = 20 /\
  accepted (fun _ => sometimes) unit (Opts false None false) good_rec (fst (fst (rec_seq good_rec))).
Proof. split; [exact good_rec_structural|]. split; [vm_compute; reflexivity|]. exists fuel. vm_compute. reflexivity. Qed.
(** ... and one that does not hold *)
Example C64_example_rejected : structural_program (fun _ => sometimes) unit (Opts false None false) wrong_rec /\
  snd (rec_seq wrong_rec) = Err (PKo (KoTyping Unconvertible)).
Proof. split; [exact wrong_rec_structural|]. vm_compute. reflexivity. Qed.
