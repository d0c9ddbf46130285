(** * Property C86: errors are reported for the first command at fault, for the right reason

    [reports eta srcs e]: the program consists of well-typed commands up to a command at fault; [e] says why. *)

From Verif Require Import Base ModelTerm ModelGctx ModelCommand ModelSubst ModelInfer ModelSyntax ModelShare ModelSymbols ModelParse ModelMake ModelProcess ModelMain SpecTerm SpecConv SpecProcess SpecProgram SpecWhole SpecBlame
  Samples SamplesProcess SamplesParse SamplesProgram SamplesEmbed SamplesBlame MainBlame MainFirst.

Theorem C86_kocheck : forall junk O n eta inputs srcs e, Forall2 (source_of junk) inputs srcs ->
  kocheck junk (real_kernel O n) (Opts eta None false) false inputs (Err e) -> reports eta srcs e.
Proof. exact main_blame. Qed.
Print Assumptions C86_kocheck.
Theorem C86_web : forall junk O n eta modules srcs e, Forall2 (web_source junk) modules srcs ->
  web_check junk (real_kernel O n) (Opts eta None false) modules (Err e) -> reports eta srcs e.
Proof. exact main_blame_web. Qed.
Print Assumptions C86_web.
(** Without rewrite rules and with enough fuel, the program is typable, or there is such an error. *)
Theorem C86_decides : forall junk O eta inputs srcs, Forall2 (source_of junk) inputs srcs -> without_rules srcs ->
  exists n0 r, (forall n, n0 <= n -> forall r', kocheck junk (real_kernel O n) (Opts eta None false) false inputs r' <-> r' = r) /\
    ((r = Ok tt /\ typable_sources eta srcs) \/ exists e, r = Err e /\ reports eta srcs e).
Proof. exact main_blame_decides. Qed.
Print Assumptions C86_decides.

(** The command is the only one such that the program before it is typable, but not together with it. *)
Theorem C86_unique : forall eta b b', bl_all b = bl_all b' -> typable_sources eta (bl_earlier b) -> ~ typable_sources eta (bl_including b) ->
  typable_sources eta (bl_earlier b') -> ~ typable_sources eta (bl_including b') -> b = b'.
Proof. exact blamed_unique. Qed.
Print Assumptions C86_unique.

(** Files that cannot be opened or parsed, and paths without a module: the files before are accepted, and the error says what is wrong with the file.
    This holds for all options, also with threads. *)
Theorem C86_files : forall junk K o inputs e, kocheck junk K o false inputs (Err e) ->
  exists i1 path contents i2, inputs = i1 ++ (path, contents) :: i2 /\ kocheck junk K o false i1 (Ok tt) /\ file_fault junk path contents e.
Proof. exact main_blame_files. Qed.
Print Assumptions C86_files.

(** With threads, another error may be reported. *)
Theorem C86_threads_refuted : exists srcs, Forall2 (source_of junk0) [two_source] srcs /\
  kocheck junk0 sample_kernel (Opts false None false) false [two_source] (Err (PKo (KoTyping Unconvertible))) /\
  kocheck junk0 sample_kernel (Opts false None true) false [two_source] (Err (PKo (KoShare (UndeclaredSymbol ($"b"))))).
Proof. destruct two_sources as [srcs H]. exists srcs. split; [exact H|]. split; [exact two_kocheck|exact two_threads]. Qed.
Print Assumptions C86_threads_refuted.

(** a wrong proof before an unknown name; a name twice; a rule for a symbol without rules; a wrong left-hand side *)
Example C86_example : exists srcs1 srcs2 srcs3 srcs4,
  (Forall2 (source_of junk0) [two_source] srcs1 /\ reports false srcs1 (PKo (KoTyping Unconvertible))) /\
  (Forall2 (source_of junk0) [twice1_source; twice2_source] srcs2 /\ reports false srcs2 (PKo (KoSymbols Reinsertion))) /\
  (Forall2 (source_of junk0) [static_source] srcs3 /\ reports false srcs3 (PKo (KoGCtx NonRewritable))) /\
  (Forall2 (source_of junk0) [lhs_source] srcs4 /\ reports false srcs4 (PKo (KoShare NoPrepattern))).
Proof.
  destruct two_sources as [s1 H1], twice_sources as [s2 H2], static_sources as [s3 H3], lhs_sources as [s4 H4]. exists s1, s2, s3, s4.
  split; [|split; [|split]]; (split; [assumption|]); [exact (C86_kocheck _ _ _ _ _ _ _ H1 two_kocheck)|exact (C86_kocheck _ _ _ _ _ _ _ H2 twice_kocheck)|exact (C86_kocheck _ _ _ _ _ _ _ H3 static_kocheck)|exact (C86_kocheck _ _ _ _ _ _ _ H4 lhs_kocheck)].
Qed.
Example C86_example_files : exists e, kocheck junk0 sample_kernel (Opts false None false) false [twice1_source; open_source; ($"x.dk", None)] (Err (PParse e)) /\
  file_fault junk0 ($"open.dk") (snd open_source) (PParse e).
Proof.
  destruct open_kocheck as [e H]. exists e. split; [exact H|]. destruct (C86_files _ _ _ _ _ H) as (i1 & path & contents & i2 & E & Hk & F).
  destruct i1 as [|a [|b [|c i1]]]; cbn in E.
  - injection E as <- <- _. exfalso. destruct F as (t & _ & Et & F). destruct twice_sources as [srcs Hs]. inversion Hs as [|? src ? ? Hx _]; subst. destruct Hx as (t' & toks & Et' & _ & X & Y). vm_compute in Et, Et'. rewrite Et in Et'. injection Et' as <-. exact (F toks _ X Y).
  - injection E as _ <- <- _. exact F.
  - injection E as _ _ <- <- _. destruct F as (text & _ & F & _). discriminate.
  - destruct i1; discriminate.
Qed.
(** the wrong proof is such a command *)
Example C86_example_unique : exists b, typable_sources false (bl_earlier b) /\ ~ typable_sources false (bl_including b).
Proof.
  destruct two_plain as (srcs & H1 & H2). destruct (C86_kocheck _ _ _ _ _ _ _ H1 two_kocheck) as (b & _ & _ & _ & _ & _ & _ & _ & _ & _ & H). exists b. exact (H H2).
Qed.
