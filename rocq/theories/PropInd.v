(** * Property C68: programs with recursive functions over inductive types are decided *)

From Verif Require Import Base ModelTerm ModelGctx ModelCommand ModelSubst ModelReduce ModelInfer ModelSyntax ModelSymbols ModelShare ModelProcess
  SpecTerm SpecConv SpecRed SpecSN SpecType SpecProcess SpecDomain SpecTotal SpecDecide SpecRec SpecInd SpecRecProg RedConfl Erase RedCheck RedEnum MainProgTotal SnRec SnIndFun MainRec RecCheck IndCheck
  Samples SamplesProcess SamplesProg SamplesRec SamplesInd.

(** ** C68: As C64, for functions that may return types, and for symbols in patterns that may have functions as arguments *)

(** Signatures built by well-typed declarations, definitions, and recursive functions over inductive types are
    Church-Rosser, and well-typed terms over them are strongly normalising. *)
Theorem C68_normalising : forall sg, built sg -> inductive_sig sg -> church_rosser sg /\ normalising sg.
Proof. exact inductive_normalising. Qed.
Print Assumptions C68_normalising.

(** This holds for signatures that are not covered by C64. *)
Theorem C68_larger : exists sg, built sg /\ inductive_sig sg /\ ~ structural sg.
Proof. exact ind_larger. Qed.
Print Assumptions C68_larger.

(** A program with functions of either kind only builds such signatures. *)
Theorem C68_built : forall O PE jobs evs st, program_in recursive_sig O PE (Opts false None jobs) evs ->
  accepted O PE (Opts false None jobs) evs st -> built (er_gctx (ps_gc st)).
Proof. exact (main_built recursive_sig recursive_class). Qed.
Print Assumptions C68_built.

(** It meets the conditions of C57 and C58, ... *)
Theorem C68_ok : forall O PE jobs evs, program_in recursive_sig O PE (Opts false None jobs) evs -> program_ok O PE (Opts false None jobs) evs.
Proof. exact (main_ok recursive_sig recursive_class). Qed.
Print Assumptions C68_ok.

(** ... thus sequential processing returns after finite time, and with success iff all commands can be processed. *)
Theorem C68_program_decides : forall O PE jobs evs, program_in recursive_sig O PE (Opts false None jobs) evs ->
  exists n0 r, snd r <> Fuel /\
    (forall n, n0 <= n -> infer_checks_seq PE (real_kernel O n) (Opts false None jobs) _ (consume_item PE (Opts false None jobs)) (map Ok evs)
       (pst_new (Opts false None jobs)) = r) /\
    (snd r = Ok tt <->
     forall pre cmd post st, evs = pre ++ EvCommand cmd :: post -> accepted O PE (Opts false None jobs) pre st -> ready st cmd).
Proof. exact (main_decided recursive_sig recursive_class). Qed.
Print Assumptions C68_program_decides.

(** Reduction may diverge, without recursion, if the symbols in patterns have functions as arguments that take elements of their own type, ... *)
Theorem C68_positive_refuted : exists sg, built sg /\ left_linear sg /\ orthogonal sg /\
  (forall c r, rule_of sg c r -> rhs_ok c 0 (fun _ _ => False) (strip (sr_rhs r))) /\ ~ normalising sg.
Proof. exact positive_refuted. Qed.
Print Assumptions C68_positive_refuted.
(** ... and if types are computed from themselves. *)
Theorem C68_type_refuted : exists sg, built sg /\ left_linear sg /\ orthogonal sg /\
  (exists fl rank, (forall c, rank c <> [] -> constructor sg fl rank c) /\ forall c r, rule_of sg c r -> Forall (idata sg fl rank) (sr_args r)) /\ ~ normalising sg.
Proof. exact type_refuted. Qed.
Print Assumptions C68_type_refuted.

(** A program meets the condition if its contexts and commands up to the first error pass a test. *)
Theorem C68_test : forall O PE jobs uniq n evs, programb recursiveb O PE jobs uniq n evs (pst_new (Opts false None jobs)) = true ->
  program_in recursive_sig O PE (Opts false None jobs) evs.
Proof. exact (main_classb recursive_sig recursive_class recursiveb recursiveb_ok). Qed.
Print Assumptions C68_test.

(** predicate logic, a recursor for all types that have a code, and ordinal numbers *)
Example C68_example : program_in recursive_sig (fun _ => sometimes) unit (Opts false None false) ind_events /\ length ind_events = 35 /\
  accepted (fun _ => sometimes) unit (Opts false None false) ind_events (fst (fst (rec_seq ind_events))).
Proof. split; [exact ind_events_in|]. split; [vm_compute; reflexivity|]. exists fuel. vm_compute. reflexivity. Qed.
