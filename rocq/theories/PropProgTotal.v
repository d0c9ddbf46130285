(** * Property C57: processing of whole programs terminates *)

From Verif Require Import Base ModelTerm ModelGctx ModelCommand ModelSubst ModelReduce ModelInfer ModelSyntax ModelSymbols ModelShare ModelProcess
  SpecTerm SpecConv SpecRed SpecSN SpecType SpecDomain SpecTotal Erase RedConfl MainProgTotal Samples SamplesProcess SnVec SamplesTotal SamplesProg.

(** ** C57: well-behaved programs are processed in finite time, and give well-typed contexts *)

(** [program_ok]: in the context of every command whose predecessors are accepted, reduction is left-linear,
    Church-Rosser and strongly normalising on well-typed terms, and the rules of the command are annotated by types.
    The terms of the commands need not be well-typed: the result may be an error. *)
Theorem C57_program_returns : forall O PE eta jobs evs,
  program_ok O PE (Opts eta None jobs) evs ->
  exists n0 r, snd r <> Fuel /\ forall n, n0 <= n ->
    infer_checks_seq PE (real_kernel O n) (Opts eta None jobs) _ (consume_item PE (Opts eta None jobs)) (map Ok evs) (pst_new (Opts eta None jobs)) = r.
Proof. exact main_program_returns. Qed.
Print Assumptions C57_program_returns.

(** All types of the context of an accepted program are types, and all its rules preserve types. *)
Theorem C57_program_types : forall O PE eta jobs evs st,
  program_ok O PE (Opts eta None jobs) evs -> accepted O PE (Opts eta None jobs) evs st ->
  good_types (er_gctx (ps_gc st)) /\ good_rules (er_gctx (ps_gc st)).
Proof. exact main_program_types. Qed.
Print Assumptions C57_program_types.

(** ** C13: ... and types of symbols are proper types once also the check of the term has succeeded

    In such contexts the full statement of C13 holds for commands that are accepted: the type given in a
    theorem or definition, which [intro] does not verify to have a sort as type, is rejected by [check] otherwise. *)
Theorem C13_accepted : forall gc, terminating gc -> church_rosser (er_gctx gc) -> forall uniq uniq' n it ty chk,
  ModelInfer.run (kintro uniq gc n it) = Ok (ty, chk) ->
  match chk with Some c => ModelInfer.run (check_check uniq' gc n c) = Ok tt | None => True end ->
  erl (t_ty ty) <> Kind /\ exists s, (s = Typ \/ s = Kind) /\ well_typed (er_gctx gc) [] (strip (erl (t_ty ty))) s.
Proof. exact main_intro_proper. Qed.
Print Assumptions C13_accepted.
Example C13_example_accepted : terminating vec_gc /\ church_rosser (er_gctx vec_gc) /\
  (exists ty chk, ModelInfer.run (kintro sometimes vec_gc fuel cons_def) = Ok (ty, Some chk) /\ ModelInfer.run (check_check shared vec_gc fuel chk) = Ok tt) /\
  exists ty chk, ModelInfer.run (kintro sometimes vec_gc fuel (ITheorem ZERO ZERO)) = Ok (ty, Some chk) /\
    ModelInfer.run (check_check shared vec_gc fuel chk) = Err Unconvertible.
Proof.
  split; [exact vec_terminating|]. split; [exact vec_church_rosser|].
  split; eexists; eexists; (split; [vm_compute; reflexivity|vm_compute; reflexivity]).
Qed.

(** ** C57, continued *)

(** Only for sequential processing: concurrent processing may evaluate terms of a command following
    one that will be rejected, and then never stop. *)
Theorem C57_parallel_refuted : exists O evs n0,
  (forall n, n0 <= n -> snd (infer_checks_seq unit (real_kernel O n) (Opts false None false) _ (consume_item unit (Opts false None false)) (map Ok evs) (pst_new (Opts false None false)))
     = Err (PKo (KoTyping Unconvertible))) /\
  forall n, n0 <= n -> exists p it rest,
    par_steps unit (real_kernel O n) (Opts false None true) _ (consume_item unit (Opts false None true))
      (Par unit _ (map Ok evs) (pst_new (Opts false None true)) [] []) p /\
    p_errs _ _ p = [] /\ p_items _ _ p = it :: rest /\
    snd (pull unit (real_kernel O n) (Opts false None true) _ (consume_item unit (Opts false None true)) it (p_st _ _ p)) = Stuck unit.
Proof. exact spin_parallel. Qed.
Print Assumptions C57_parallel_refuted.

(** numbers with addition, vectors, and a theorem whose check evaluates additions *)
Example C57_example_accepted :
  program_ok (fun _ => sometimes) unit (Opts false None false) vec_events /\
  accepted (fun _ => sometimes) unit (Opts false None false) vec_events (fst (fst (prog_seq vec_events))).
Proof. split; [exact vec_ok|]. exists fuel. vm_compute. reflexivity. Qed.
(** ... followed by a definition without type *)
Example C57_example_rejected :
  program_ok (fun _ => sometimes) unit (Opts false None false) bad_events /\
  snd (infer_checks_seq unit (real_kernel (fun _ => sometimes) fuel) (Opts false None false) _ (consume_item unit (Opts false None false))
    (map Ok bad_events) (pst_new (Opts false None false))) = Err (PKo (KoTyping ProductExpected)).
Proof. split; [exact bad_ok|vm_compute; reflexivity]. Qed.
