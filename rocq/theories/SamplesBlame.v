(** * Sample programs with errors (C86) *)

From Verif Require Import Base ModelTerm ModelGctx ModelCommand ModelSubst ModelInfer ModelSyntax ModelShare ModelSymbols ModelLex ModelParse ModelProcess ModelMain
  SpecTerm SpecConv SpecProgram SpecWhole SpecProcess SpecEmbed Samples SamplesProcess SamplesParse SamplesProgram MainVerify MainProgram MainWhole SamplesWhole SamplesSem MainSem SamplesRec SamplesExamples SamplesProg TestExamples SamplesInf SamplesEmbed.

(** two errors: a wrong proof, and an unknown name *)
Definition two_source : str * option str := ($"two.dk", Some ($"A : Type. a : A. thm t : A := A. thm u : A := b. thm v : A := a.")).
(** a name twice in the same module, after another file *)
Definition twice1_source : str * option str := ($"m.dk", Some ($"A : Type. a : A.")).
Definition twice2_source : str * option str := ($"n.dk", Some ($"a : m.A. b : m.A. a : m.A. c : nothing.")).
(** a rule for a symbol without rules; a left-hand side that is no pattern *)
Definition static_source : str * option str := ($"static.dk", Some ($"A : Type. f : A -> A. a : A. [] f a --> a. b : A.")).
Definition lhs_source : str * option str := ($"lhs.dk", Some ($"A : Type. def f : A -> A. [x] f (x x) --> x. b : B.")).

Ltac blame_src := 
  match goal with |- exists srcs, Forall2 (source_of ?j) ?inputs srcs =>
    let X := fresh in assert (X : exists files evs, Forall2 (opens j) inputs files /\ files_events parse_error files = Some evs)
      by (do 2 eexists; split; [whole_opens|vm_compute; reflexivity]);
    destruct X as (files & evs & X1 & X2); destruct (opens_sources _ _ _ X1 _ X2) as (srcs & X3 & _); exists srcs; exact X3 end.
Lemma two_sources : exists srcs, Forall2 (source_of junk0) [two_source] srcs.
Proof. blame_src. Qed.
Lemma twice_sources : exists srcs, Forall2 (source_of junk0) [twice1_source; twice2_source] srcs.
Proof. blame_src. Qed.
Lemma static_sources : exists srcs, Forall2 (source_of junk0) [static_source] srcs.
Proof. blame_src. Qed.
Lemma lhs_sources : exists srcs, Forall2 (source_of junk0) [lhs_source] srcs.
Proof. blame_src. Qed.

Lemma two_kocheck : kocheck junk0 sample_kernel (Opts false None false) false [two_source] (Err (PKo (KoTyping Unconvertible))).
Proof. eexists. split; [whole_opens|]. eapply run_err; [unfold infer_checks; cbn [o_jobs]; eexists; vm_compute; reflexivity|reflexivity]. Qed.
Lemma twice_kocheck : kocheck junk0 sample_kernel (Opts false None false) false [twice1_source; twice2_source] (Err (PKo (KoSymbols Reinsertion))).
Proof.
  eexists. split; [whole_opens|]. eapply run_ok; [unfold infer_checks; cbn [o_jobs]; eexists; vm_compute; reflexivity|].
  eapply run_err; [unfold infer_checks; cbn [o_jobs]; eexists; vm_compute; reflexivity|reflexivity].
Qed.
Lemma static_kocheck : kocheck junk0 sample_kernel (Opts false None false) false [static_source] (Err (PKo (KoGCtx NonRewritable))).
Proof. eexists. split; [whole_opens|]. eapply run_err; [unfold infer_checks; cbn [o_jobs]; eexists; vm_compute; reflexivity|reflexivity]. Qed.
Lemma lhs_kocheck : kocheck junk0 sample_kernel (Opts false None false) false [lhs_source] (Err (PKo (KoShare NoPrepattern))).
Proof. eexists. split; [whole_opens|]. eapply run_err; [unfold infer_checks; cbn [o_jobs]; eexists; vm_compute; reflexivity|reflexivity]. Qed.
(** Another thread may see the second error before the proof has been checked. *)
Lemma two_threads : kocheck junk0 sample_kernel (Opts false None true) false [two_source] (Err (PKo (KoShare (UndeclaredSymbol ($"b"))))).
Proof.
  eexists. split; [whole_opens|]. eapply run_err; [|reflexivity]. unfold infer_checks. cbn [o_jobs]. eexists. split; [|split; [reflexivity|]].
  - do 3 (eapply steps_step; [eapply step_pull_task; vm_compute; reflexivity|]). eapply steps_step; [eapply step_pull_fails; vm_compute; reflexivity|]. apply steps_refl.
  - cbn. left. reflexivity.
Qed.
(** The second file ends within a command. *)
Definition open_source : str * option str := ($"open.dk", Some ($"b : m.A. c : ")).
Lemma open_kocheck : exists e, kocheck junk0 sample_kernel (Opts false None false) false [twice1_source; open_source; ($"x.dk", None)] (Err (PParse e)).
Proof.
  eexists. eexists. split.
  - constructor; [|constructor; [|constructor; [|constructor]]].
    + eapply opens_text; [reflexivity|]. apply run_results_ok with (n := 20). vm_compute. reflexivity.
    + eapply opens_text; [reflexivity|]. apply run_results_ok with (n := 20). vm_compute. reflexivity.
    + eapply opens_fails. vm_compute. reflexivity.
  - eapply run_ok; [unfold infer_checks; cbn [o_jobs]; eexists; vm_compute; reflexivity|].
    eapply run_err; [unfold infer_checks; cbn [o_jobs]; eexists; vm_compute; reflexivity|reflexivity].
Qed.
(** the first program has no rules *)
Lemma two_plain : exists srcs, Forall2 (source_of junk0) [two_source] srcs /\ without_rules srcs.
Proof.
  eapply whole_sources; [whole_opens|vm_compute; reflexivity|]. intros rs H. repeat destruct H as [H|H]; try discriminate. contradiction.
Qed.
