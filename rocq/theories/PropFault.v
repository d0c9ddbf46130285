(** * Property C87: errors of the kernel say what is wrong *)

From Verif Require Import Base ModelTerm ModelGctx ModelCommand ModelSubst ModelReduce ModelInfer ModelSyntax ModelMake ModelPath ModelProcess ModelMain
  SpecTerm SpecConv SpecRed SpecTyping SpecBidir SpecQuery SpecProcess SpecDecide SpecType SpecTotal SpecMake SpecProgram SpecWhole SpecFault Erase MainKernel MainVerify MainFault FaultFacts MainClosed
  Samples SamplesTotal SamplesParse SamplesProcess SamplesFault SamplesBlame PropDecide.

(** There is a place in the term where the error is; everything before this place is well-typed. *)
Theorem C87_infer : forall uniq gc, proper_gctx gc -> forall n lc t e, Forall proper_l lc -> proper_l t ->
  ModelInfer.run (ModelInfer.infer uniq gc n (lctx_of lc) (sterm_of_lterm t)) = Err e -> inf_fault (er_gctx gc) (map erl (rev lc)) (erl t) e.
Proof. exact main_inf_fault. Qed.
Print Assumptions C87_infer.
Theorem C87_check : forall uniq gc, proper_gctx gc -> forall n c e, Forall proper_l (t_lc c) -> proper_l (t_tm c) -> proper_l (t_ty c) ->
  ModelInfer.run (check_check uniq gc n c) = Err e -> refused (er_gctx gc) (map erl (rev (t_lc c))) (erl (t_tm c)) (erl (t_ty c)) e.
Proof. exact main_refused. Qed.
Print Assumptions C87_check.
(** the same for commands *)
Theorem C87_command : forall O n o cmd gc gc' e, proper_gctx gc -> proper_cmd cmd -> omits o StCheck = false ->
  infer_check (real_kernel O n) o cmd gc = (gc', Err (KoTyping e)) -> command_fault (er_gctx gc) (er_cmd cmd) e.
Proof. exact main_command_fault. Qed.
Print Assumptions C87_command.

(** For confluent rules without eta, four of the errors mean that there is no type, or that the type is wrong, however types are assigned.
    This does not need that evaluation terminates. *)
Theorem C87_untypable : forall uniq gc, proper_gctx gc -> church_rosser (er_gctx gc) -> g_eta gc = false ->
  forall n lc t e, Forall proper_l lc -> proper_l t ->
  ModelInfer.run (ModelInfer.infer uniq gc n (lctx_of lc) (sterm_of_lterm t)) = Err e -> type_error e -> forall A, ~ has_type (er_gctx gc) (map erl (rev lc)) (erl t) A.
Proof. exact main_untypable. Qed.
Print Assumptions C87_untypable.
Theorem C87_wrong_type : forall uniq gc, proper_gctx gc -> church_rosser (er_gctx gc) -> g_eta gc = false ->
  forall n c e, Forall proper_l (t_lc c) -> proper_l (t_tm c) -> proper_l (t_ty c) ->
  ModelInfer.run (check_check uniq gc n c) = Err e -> type_error e -> ~ has_type (er_gctx gc) (map erl (rev (t_lc c))) (erl (t_tm c)) (erl (t_ty c)).
Proof. exact main_wrong_type. Qed.
Print Assumptions C87_wrong_type.
(** For terms whose symbols and variables have types, two errors never occur. *)
Theorem C87_closed : forall uniq gc, proper_gctx gc -> forall n lc t e, Forall proper_l lc -> proper_l t -> closed_in (er_gctx gc) (length lc) (erl t) ->
  ModelInfer.run (ModelInfer.infer uniq gc n (lctx_of lc) (sterm_of_lterm t)) = Err e -> e <> KindNotTypable /\ e <> TypeNotFound.
Proof. exact main_closed. Qed.
Print Assumptions C87_closed.

(** So kocheck never reports them: the commands of programs contain only symbols and variables that have types.
    Definitions have a type or a term, so the error for definitions without both is not reported either. *)
Theorem C87_program : forall junk O n eta inputs srcs e, Forall2 (source_of junk) inputs srcs ->
  kocheck junk (real_kernel O n) (Opts eta None false) false inputs (Err (PKo (KoTyping e))) -> e <> KindNotTypable /\ e <> TypeNotFound /\ e <> TypeAndTermEmpty.
Proof. exact main_program_errors. Qed.
Print Assumptions C87_program.
Theorem C87_web : forall junk O n eta modules srcs e, Forall2 (web_source junk) modules srcs ->
  web_check junk (real_kernel O n) (Opts eta None false) modules (Err (PKo (KoTyping e))) -> e <> KindNotTypable /\ e <> TypeNotFound /\ e <> TypeAndTermEmpty.
Proof. exact main_web_errors. Qed.
Print Assumptions C87_web.
(** With threads, kocheck may report that a symbol has no type, if the command that introduces it has failed. *)
Theorem C87_threads_refuted : exists srcs, Forall2 (source_of junk0) [gone_source] srcs /\
  kocheck junk0 sample_kernel (Opts false None false) false [gone_source] (Err (PKo (KoTyping ProductExpected))) /\
  kocheck junk0 sample_kernel (Opts false None true) false [gone_source] (Err (PKo (KoTyping TypeNotFound))).
Proof. destruct gone_sources as [srcs H]. exists srcs. split; [exact H|]. split; [exact gone_kocheck|exact gone_threads]. Qed.
Print Assumptions C87_threads_refuted.

(** The other errors do not mean that there is no type: [x => x]. *)
Theorem C87_missing_refuted : exists gc n t A, proper_gctx gc /\ church_rosser (er_gctx gc) /\ g_eta gc = false /\ proper_l t /\
  ModelInfer.run (ModelInfer.infer sometimes gc n (lctx_of []) (sterm_of_lterm t)) = Err DomainFreeAbstraction /\ has_type (er_gctx gc) [] (erl t) A.
Proof.
  exists vec_gc, fuel, free_tm, (Pi (Const 0) (Const 0)). destruct C58_example_context as (_ & H1 & H2). split; [exact H2|]. split; [exact H1|]. split; [reflexivity|].
  split; [repeat constructor|]. split; [vm_compute; reflexivity|apply free_typed].
Qed.
Print Assumptions C87_missing_refuted.

Example C87_example_context : proper_gctx vec_gc /\ church_rosser (er_gctx vec_gc) /\ g_eta vec_gc = false.
Proof. destruct C58_example_context as (_ & H1 & H2). auto. Qed.
(** All errors but the two in [C87_closed] occur. *)
Example C87_example : 
  err_of (LComb (Appl ZERO [ZERO])) = Err ProductExpected /\ err_of (LComb (Appl (LConst 2) [LType])) = Err Unconvertible /\
  err_of free_tm = Err DomainFreeAbstraction /\ err_of (LComb (Abst nm (Some LType) (LVar 0))) = Err BindNoType /\
  err_of (LComb (Prod nm NAT ZERO)) = Err SortExpected /\ err_of (LComb (Abst nm (Some NAT) LType)) = Err UnexpectedKind /\
  err_of (LConst 1000) = Err TypeNotFound /\ 
  Forall (closed_in (er_gctx vec_gc) 0) (map erl [LComb (Appl ZERO [ZERO]); free_tm]) /\ ~ closed_in (er_gctx vec_gc) 0 (Const 1000).
Proof.
  repeat split; try (vm_compute; reflexivity).
  - repeat constructor; cbn; discriminate.
  - cbn. intros H. apply H. reflexivity.
Qed.
(** [zero zero] has no type *)
Example C87_example_untypable : forall A, ~ has_type (er_gctx vec_gc) [] (erl (LComb (Appl ZERO [ZERO]))) A.
Proof.
  destruct C87_example_context as (H1 & H2 & H3). apply (C87_untypable sometimes vec_gc H1 H2 H3 fuel [] (LComb (Appl ZERO [ZERO])) ProductExpected); [constructor|repeat constructor|vm_compute; reflexivity|left; reflexivity].
Qed.
(** a program with an error of the kernel *)
Example C87_example_program : exists O n e srcs, Forall2 (source_of junk0) [two_source] srcs /\
  kocheck junk0 (real_kernel O n) (Opts false None false) false [two_source] (Err (PKo (KoTyping e))).
Proof. destruct two_sources as [srcs H]. eexists _, _, _, srcs. split; [exact H|exact two_kocheck]. Qed.
