(** * Samples for errors of the kernel (C87) *)

From Verif Require Import Base ModelTerm ModelGctx ModelCommand ModelSubst ModelReduce ModelInfer ModelSyntax ModelProcess
  SpecTerm SpecConv SpecRed SpecTyping SpecBidir SpecQuery SpecProcess SpecDecide SpecType SpecTotal SpecFault Erase MainKernel Samples SamplesTotal
  ModelSyntax ModelShare ModelSymbols ModelLex ModelParse ModelMake ModelPath ModelProcess ModelMain SpecProgram SpecWhole SamplesProcess SamplesParse MainProgram MainWhole SamplesWhole SamplesProg SamplesSem SamplesBlame.

Definition err_of (t : lterm) : res kerror sterm := ModelInfer.run (ModelInfer.infer sometimes vec_gc fuel (lctx_of []) (sterm_of_lterm t)).
(** an abstraction without domain *)
Definition free_tm : lterm := LComb (Abst nm None (LVar 0)).
Lemma free_typed sg A : has_type sg [] (erl free_tm) (Pi (Const A) (Const A)).
Proof. cbn. eapply ty_ulam; [|discriminate]. change (Const A) with (lift 1 (Const A)) at 2. constructor. reflexivity. Qed.

(** a symbol [a] without type, and a command that uses [a] *)
Definition gone_source : str * option str := ($"gone.dk", Some ($"A : Type. a : A A. b : a.")).
Lemma gone_sources : exists srcs, Forall2 (source_of junk0) [gone_source] srcs.
Proof. blame_src. Qed.
Lemma gone_kocheck : kocheck junk0 sample_kernel (Opts false None false) false [gone_source] (Err (PKo (KoTyping ProductExpected))).
Proof. eexists. split; [whole_opens|]. eapply run_err; [unfold infer_checks; cbn [o_jobs]; eexists; vm_compute; reflexivity|reflexivity]. Qed.
(** Another thread may look at the second command before the first error has stopped all threads. *)
Lemma gone_threads : kocheck junk0 sample_kernel (Opts false None true) false [gone_source] (Err (PKo (KoTyping TypeNotFound))).
Proof.
  eexists. split; [whole_opens|]. eapply run_err; [|reflexivity]. unfold infer_checks. cbn [o_jobs]. eexists. split; [|split; [reflexivity|]].
  - eapply steps_step; [eapply step_pull_task; vm_compute; reflexivity|]. do 2 (eapply steps_step; [eapply step_pull_fails; vm_compute; reflexivity|]). apply steps_refl.
  - cbn. right. left. reflexivity.
Qed.
