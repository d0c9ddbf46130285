(** * Samples for errors with threads (C88) *)

From Verif Require Import Base ModelTerm ModelGctx ModelCommand ModelSubst ModelInfer ModelSyntax ModelShare ModelSymbols ModelLex ModelParse ModelMake ModelPath ModelProcess ModelMain
  SpecTerm SpecConv SpecProgram SpecWhole SpecProcess Samples SamplesProcess SamplesParse MainProcess MainProgram MainWhole SamplesWhole SamplesProg SamplesSem SamplesBlame.

(** a command with two wrong rules: the right-hand side of the first and the left-hand side of the second *)
Definition rules_source : str * option str := ($"rules.dk", Some ($"A : Type. B : Type. a : A. b : B. def f : A -> A. [] f a --> b [] f a a --> a.")).
Lemma rules_sources : exists srcs, Forall2 (source_of junk0) [rules_source] srcs.
Proof. blame_src. Qed.
Lemma rules_kocheck : kocheck junk0 sample_kernel (Opts false None false) false [rules_source] (Err (PKo (KoTyping Unconvertible))).
Proof. eexists. split; [whole_opens|]. eapply run_err; [unfold infer_checks; cbn [o_jobs]; eexists; vm_compute; reflexivity|reflexivity]. Qed.
Lemma rules_threads : ~ kocheck junk0 sample_kernel (Opts false None true) false [rules_source] (Err (PKo (KoTyping Unconvertible))).
Proof.
  intros (files & Ho & Hr). 
  assert (X : exists files', Forall2 (opens junk0) [rules_source] files' /\ ~ ModelProcess.run parse_error sample_kernel (Opts false None true) files' (Err (PKo (KoTyping Unconvertible)))).
  { eexists. split; [whole_opens|]. intros H. unfold ModelProcess.run in H. 
    inversion H as [|e items files' st|path items files' st st' r Hi Hr'|path items files' st st' r Hi Hr']; subst; clear H.
    - destruct Hi as (p & S & _ & R). cbn in R. destruct (par_error _ _ _ _ _ _ _ _ _ S R) as (_ & pre & it & post & E & D).
      do 7 (destruct pre as [|? pre]; [injection E as <- _; destruct D as [D|(t & ke & D & D' & _)]; vm_compute in D; try discriminate D; injection D as <-; vm_compute in D'; discriminate D'|injection E as <- E; cbn [app] in E; try (destruct pre; discriminate E)]).
    - inversion Hr'. }
  destruct X as (files' & Ho' & Hn). rewrite (opens_det_all _ _ _ Ho _ Ho') in Hr. exact (Hn Hr).
Qed.
