(** * Property C67: eta conversion

    C47, C55, C57, C58, C61 and C62 hold for programs without rewrite rules also when eta conversion is on.
    This file relates what is accepted with eta to what is accepted without. *)

From Verif Require Import Base ModelTerm ModelGctx ModelCommand ModelSubst ModelReduce ModelInfer ModelSyntax ModelLex ModelParse ModelProcess ModelMain
  SpecTerm SpecConv SpecRed SpecSN SpecType SpecDomain SpecProcess SpecProgram SpecDef SpecWhole SpecEta Erase MainEta
  Samples SamplesProcess SamplesParse SamplesProgram SamplesConv SamplesEta.

(** With declarations and definitions, the kernel decides conversion of well-typed terms, with eta iff it is on. *)
Theorem C67_compares : forall uniq gc G t u A B, definitional (er_gctx gc) -> type_ctx (er_gctx gc) G ->
  well_typed (er_gctx gc) G (strip (ers t)) A -> well_typed (er_gctx gc) G (strip (ers u)) B ->
  exists n0 b, (forall n, n0 <= n -> ModelInfer.run (convertible uniq gc n t u) = Ok b) /\ (b = true <-> conv (er_gctx gc) (ers t) (ers u)).
Proof. exact main_eta_compares. Qed.
Print Assumptions C67_compares.
(** In particular, functions are convertible to their expansions. *)
Theorem C67_expands : forall uniq gc G t u A B, definitional (er_gctx gc) -> g_eta gc = true -> type_ctx (er_gctx gc) G ->
  well_typed (er_gctx gc) G (strip (ers t)) A -> well_typed (er_gctx gc) G (strip (ers u)) B ->
  strip (ers u) = ULam (App (lift 1 (strip (ers t))) (Var 0)) ->
  exists n0, forall n, n0 <= n -> ModelInfer.run (convertible uniq gc n t u) = Ok true.
Proof. exact main_eta_expands. Qed.
Print Assumptions C67_expands.

(** For left-linear rules, eta does not change evaluation, ... *)
Theorem C67_whnf : forall uniq gc n t, left_linear (er_gctx gc) -> g_eta gc = false ->
  ModelInfer.run (whnf uniq (with_eta gc) n t) = ModelInfer.run (whnf uniq gc n t).
Proof. exact main_eta_whnf. Qed.
Print Assumptions C67_whnf.
(** ... what is convertible, typable, or of some type without eta is so with eta, ... *)
Theorem C67_convertible : forall uniq gc n t u, left_linear (er_gctx gc) -> g_eta gc = false ->
  ModelInfer.run (convertible uniq gc n t u) = Ok true -> ModelInfer.run (convertible uniq (with_eta gc) n t u) = Ok true.
Proof. exact main_eta_convertible. Qed.
Print Assumptions C67_convertible.
Theorem C67_infer : forall uniq gc n lc t A, left_linear (er_gctx gc) -> g_eta gc = false ->
  ModelInfer.run (ModelInfer.infer uniq gc n lc t) = Ok A -> ModelInfer.run (ModelInfer.infer uniq (with_eta gc) n lc t) = Ok A.
Proof. exact main_eta_infer. Qed.
Print Assumptions C67_infer.
Theorem C67_check : forall uniq gc n lc t A, left_linear (er_gctx gc) -> g_eta gc = false ->
  ModelInfer.run (ModelInfer.check uniq gc n lc t A) = Ok true -> ModelInfer.run (ModelInfer.check uniq (with_eta gc) n lc t A) = Ok true.
Proof. exact main_eta_check. Qed.
Print Assumptions C67_check.
(** ... and [--eta] only makes kocheck accept more programs. *)
Theorem C67_more : forall junk O n jobs channel inputs srcs, Forall2 (source_of junk) inputs srcs -> linear_sources srcs ->
  kocheck junk (real_kernel O n) (Opts false None jobs) channel inputs (Ok tt) ->
  kocheck junk (real_kernel (same_sharing O) n) (Opts true None jobs) channel inputs (Ok tt).
Proof. exact main_eta_more. Qed.
Print Assumptions C67_more.
(** In the specification: *)
Theorem C67_typable : forall junk inputs srcs, Forall2 (source_of junk) inputs srcs -> without_rules srcs ->
  typable_sources false srcs -> typable_sources true srcs.
Proof. exact main_eta_typable. Qed.
Print Assumptions C67_typable.

(** Linearity is needed: a program that is accepted without eta and rejected with eta, because another rule fires *)
Theorem C67_more_refuted : exists junk O n inputs srcs, Forall2 (source_of junk) inputs srcs /\
  kocheck junk (real_kernel O n) (Opts false None false) false inputs (Ok tt) /\
  kocheck junk (real_kernel (same_sharing O) n) (Opts true None false) false inputs (Err (PKo (KoTyping Unconvertible))).
Proof.
  destruct twin_whole as (srcs & H). exists junk0, (fun _ => shared), fuel, [twin_source], srcs. split; [exact H|]. split; [exact twin_off|exact twin_on].
Qed.
Print Assumptions C67_more_refuted.

(** a program that is accepted only with eta, and one with a linear rule that is accepted in both cases *)
Example C67_example : (exists srcs, Forall2 (source_of junk0) [eta_source] srcs /\ without_rules srcs) /\
  kocheck junk0 sample_kernel (Opts false None false) false [eta_source] (Err (PKo (KoTyping Unconvertible))) /\
  kocheck junk0 sample_kernel (Opts true None false) false [eta_source] (Ok tt).
Proof. split; [exact eta_whole|]. split; [exact eta_off|exact eta_on]. Qed.
Example C67_example_more : exists srcs, Forall2 (source_of junk0) [line_source] srcs /\ linear_sources srcs /\
  kocheck junk0 sample_kernel (Opts false None false) false [line_source] (Ok tt) /\
  kocheck junk0 sample_kernel (Opts true None false) false [line_source] (Ok tt).
Proof.
  destruct line_whole as (srcs & H1 & H2). exists srcs. split; [exact H1|]. split; [exact H2|]. split; [exact line_off|].
  exact (C67_more junk0 (fun _ => shared) fuel false false [line_source] srcs H1 H2 line_off).
Qed.
(** [f] and [x => f x] are typable and convertible with eta, not without *)
Example C67_example_expands : definitional (er_gctx (ps_gc eta_st)) /\ g_eta (ps_gc eta_st) = true /\ type_ctx (er_gctx (ps_gc eta_st)) [] /\
  (exists A, well_typed (er_gctx (ps_gc eta_st)) [] (strip (ers (SConst 1))) A) /\
  (exists A, well_typed (er_gctx (ps_gc eta_st)) [] (strip (ers eta_expansion)) A) /\
  strip (ers eta_expansion) = ULam (App (lift 1 (strip (ers (SConst 1)))) (Var 0)) /\
  ModelInfer.run (convertible shared (ps_gc eta_st) fuel (SConst 1) eta_expansion) = Ok true /\
  ModelInfer.run (convertible shared (without_eta (ps_gc eta_st)) fuel (SConst 1) eta_expansion) = Ok false.
Proof.
  split; [exact eta_definitional|]. split; [reflexivity|]. split; [constructor|]. split; [eexists; exact eta_f|]. split; [eexists; exact eta_expanded|].
  split; [reflexivity|]. split; vm_compute; reflexivity.
Qed.
