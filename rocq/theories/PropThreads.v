(** * Property C88: what is reported without threads may be reported with threads *)

From Verif Require Import Base ModelTerm ModelGctx ModelCommand ModelSubst ModelInfer ModelSyntax ModelShare ModelSymbols ModelParse ModelMake ModelPath ModelProcess ModelMain
  SpecTerm SpecConv SpecProcess SpecProgram SpecWhole Samples SamplesProcess SamplesParse SamplesBlame SamplesThreads MainProcess MainThreads.

(** for any kernel, options, files with or without errors, if no command contains rules *)
Theorem C88_run : forall PE K eta om files r,
  (forall path items c, In (path, items) files -> In (Ok c) items -> exists x args i, c = PIntro x args i) -> r <> Panic -> r <> Fuel ->
  ModelProcess.run PE K (Opts eta om false) files r -> ModelProcess.run PE K (Opts eta om true) files r.
Proof. exact main_run_threads. Qed.
Print Assumptions C88_run.
Theorem C88_consume : forall PE K eta om evs r, (forall c, In (Ok (EvCommand c)) evs -> exists x args i, c = PIntro x args i) -> r <> Panic -> r <> Fuel ->
  consume PE K (Opts eta om false) evs r -> consume PE K (Opts eta om true) evs r.
Proof. exact main_consume_threads. Qed.
Print Assumptions C88_consume.
Theorem C88_channel : forall PE K eta om files r,
  (forall path items c, In (path, items) files -> In (Ok c) items -> exists x args i, c = PIntro x args i) -> r <> Panic -> r <> Fuel ->
  main_channel PE K (Opts eta om false) files r -> main_channel PE K (Opts eta om true) files r.
Proof. exact main_channel_threads. Qed.
Print Assumptions C88_channel.
Theorem C88_kocheck : forall junk K eta om channel inputs srcs r, Forall2 (source_of junk) inputs srcs -> without_rules srcs -> r <> Panic -> r <> Fuel ->
  kocheck junk K (Opts eta om false) channel inputs r -> kocheck junk K (Opts eta om true) channel inputs r.
Proof. exact main_threads_any. Qed.
Print Assumptions C88_kocheck.

(** Conversely, no command before the first error without threads is reported with threads; this also holds with rules.
    [pull_all] does what is done for the commands between the first error and the one that is reported. *)
Theorem C88_later : forall K PE o I item items rest st st0 p e, infer_checks_seq PE K o I item items st = (st0, [], Ok tt) ->
  par_steps PE K o I item (Par PE I (items ++ rest) st [] []) p -> In e (p_errs PE I p) ->
  exists pre it post, rest = pre ++ it :: post /\
    (snd (pull PE K o I item it (fst (pull_all K PE o I item pre st0))) = Fails PE e \/
     exists t ke, snd (pull PE K o I item it (fst (pull_all K PE o I item pre st0))) = Task PE t /\ ModelProcess.check K t = Err ke /\ e = PKo ke).
Proof. exact main_later. Qed.
Print Assumptions C88_later.

(** With rules, this is false: without threads, the checks of a rule are run before the types of the next rule of the same command are inferred;
    with threads, after all rules. *)
Theorem C88_rules_refuted : exists srcs, Forall2 (source_of junk0) [rules_source] srcs /\
  kocheck junk0 sample_kernel (Opts false None false) false [rules_source] (Err (PKo (KoTyping Unconvertible))) /\
  ~ kocheck junk0 sample_kernel (Opts false None true) false [rules_source] (Err (PKo (KoTyping Unconvertible))).
Proof. destruct rules_sources as [srcs H]. exists srcs. split; [exact H|]. split; [exact rules_kocheck|exact rules_threads]. Qed.
Print Assumptions C88_rules_refuted.

(** a wrong proof before an unknown name: with threads, either error may be reported *)
Example C88_example : exists srcs, Forall2 (source_of junk0) [two_source] srcs /\ without_rules srcs /\
  kocheck junk0 sample_kernel (Opts false None true) false [two_source] (Err (PKo (KoTyping Unconvertible))) /\
  kocheck junk0 sample_kernel (Opts false None true) false [two_source] (Err (PKo (KoShare (UndeclaredSymbol ($"b"))))).
Proof.
  destruct two_plain as (srcs & H1 & H2). exists srcs. split; [exact H1|]. split; [exact H2|]. split; [|exact two_threads].
  eapply C88_kocheck; [exact H1|exact H2|discriminate|discriminate|exact two_kocheck].
Qed.
