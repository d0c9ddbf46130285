(** * Properties of reading files: C76

    kocheck reads bytes, line by line.  [utf8] is the definition of the Unicode standard; [kocheck] is the model of
    kocheck on texts, of which C43-C46 and others speak; [kocheck_bytes] is kocheck on what can be read from files. *)

From Verif Require Import Base ModelTerm ModelGctx ModelCommand ModelSubst ModelSyntax ModelSymbols ModelShare ModelLex ModelParse ModelMake ModelProcess ModelMain ModelRead
  SpecTerm SpecTyping SpecParse SpecSyntax SpecMake SpecUtf8 SpecProcess SpecProgram SpecRead
  Samples SamplesProcess SamplesParse SamplesProgram MainRead.

(** ** C76: what kocheck does with files that are not texts *)
Theorem C76_utf8 : forall s, valid_utf8 s = true <-> utf8 s.
Proof. exact valid_utf8_iff. Qed.
Print Assumptions C76_utf8.
(** On texts, including files that cannot be opened, kocheck does what the model for texts says. *)
Theorem C76_same : forall junk K o channel inputs texts r, Forall2 has_text_if_open inputs texts -> r <> Panic ->
  (kocheck_bytes junk K o channel inputs r <-> kocheck junk K o channel texts r).
Proof. exact main_bytes_same. Qed.
Print Assumptions C76_same.
(** kocheck accepts only texts: all files can be opened, are read completely and are UTF-8.  This holds in all modes,
    with all stages omitted. *)
Theorem C76_accepted : forall junk K o channel inputs, kocheck_bytes junk K o channel inputs (Ok tt) <->
  exists texts, Forall2 has_text inputs texts /\ kocheck junk K o channel texts (Ok tt).
Proof. exact main_bytes_accepted. Qed.
Print Assumptions C76_accepted.
Theorem C76_sound : forall junk O n eta jobs channel inputs,
  kocheck_bytes junk (real_kernel O n) (Opts eta None jobs) channel inputs (Ok tt) ->
  exists texts srcs vs sg, Forall2 has_text inputs texts /\
    Forall2 (source_of junk) texts srcs /\ elaborates srcs vs /\ verified_all (empty_sig eta) vs sg.
Proof. exact main_bytes_sound. Qed.
Print Assumptions C76_sound.

(** Every file is a text or consists of complete lines, followed by a line that cannot be read. *)
Theorem C76_cases : forall bytes fails,
  (utf8 bytes /\ fails = false) \/ exists b1 b2, bytes = b1 ++ b2 /\ utf8 b1 /\ whole_lines b1 /\ bad_start b2 fails.
Proof. exact main_bytes_cases. Qed.
Print Assumptions C76_cases.
(** In the second case, the parser returns what it returns for the complete lines, but panics at their end:
    the commands of these lines are not lost, and an error in these lines is reported. *)
Theorem C76_cut : forall junk b1 b2 fails items0 items, utf8 b1 -> whole_lines b1 -> bad_start b2 fails ->
  parse_text junk b1 items0 -> parse_bytes junk (b1 ++ b2) fails items ->
  (exists cmds, (items0 = map Ok cmds \/ items0 = map Ok cmds ++ [Err ExpectedInput]) /\ items = map Ok cmds ++ [Panic]) \/
  (exists cmds e, items0 = map Ok cmds ++ [Err e] /\ items = items0).
Proof. exact main_bytes_cut. Qed.
Print Assumptions C76_cut.
(** If everything before the line is accepted, then kocheck panics; this may happen in all modes... *)
Theorem C76_panics : forall junk K o channel inputs texts path b1 b2 fails more,
  Forall2 has_text inputs texts -> utf8 b1 -> whole_lines b1 -> bad_start b2 fails ->
  kocheck junk K o false (texts ++ [(path, Some b1)]) (Ok tt) ->
  kocheck_bytes junk K o channel (inputs ++ (path, Opened (b1 ++ b2) fails) :: more) Panic.
Proof.
  intros junk K o channel inputs texts path b1 b2 fails more H1 H2 H3 H4 H5.
  exact (main_bytes_panic junk K o inputs texts path b1 b2 fails more channel (conj H1 (conj H2 (conj H3 (conj H4 H5))))).
Qed.
Print Assumptions C76_panics.
(** ... and nothing else can happen if files are processed sequentially. *)
Theorem C76_panics_only : forall junk K o inputs texts path b1 b2 fails more r, o_jobs o = false ->
  Forall2 has_text inputs texts -> utf8 b1 -> whole_lines b1 -> bad_start b2 fails ->
  kocheck junk K o false (texts ++ [(path, Some b1)]) (Ok tt) ->
  kocheck_bytes junk K o false (inputs ++ (path, Opened (b1 ++ b2) fails) :: more) r -> r = Panic.
Proof.
  intros junk K o inputs texts path b1 b2 fails more r Hj H1 H2 H3 H4 H5.
  exact (main_bytes_panic_only junk K o inputs texts path b1 b2 fails more r Hj (conj H1 (conj H2 (conj H3 (conj H4 H5))))).
Qed.
Print Assumptions C76_panics_only.

(** a text with a character outside of ASCII in a comment *)
Definition accented : str := $"(; caf" ++ ["195"%char; "169"%char] ++ $" ;)" ++ ["010"%char] ++ $"a : Type.".
Example C76_example_text : utf8 accented /\
  kocheck_bytes junk0 sample_kernel (Opts false None false) false [($"a.dk", Opened accented false)] (Ok tt).
Proof.
  assert (U : utf8 accented) by (apply C76_utf8; vm_compute; reflexivity). split; [exact U|].
  apply C76_accepted. exists [($"a.dk", Some accented)]. split.
  - constructor; [|constructor]. exists accented. auto.
  - eexists. split.
    + constructor; [|constructor]. eapply opens_text; [reflexivity|]. apply run_results_ok with (n := 20). vm_compute. reflexivity.
    + eapply run_ok; [unfold infer_checks; cbn [o_jobs]; eexists; vm_compute; reflexivity|]. constructor.
Qed.

(** The same comment in the encoding Latin-1, and a directory: kocheck panics instead of returning an error. *)
Definition latin1 : str := $"(; caf" ++ ["233"%char] ++ $" ;)" ++ ["010"%char] ++ $"a : Type.".
Lemma empty_accepted path m : ModelPath.path_read path = Some m -> forall K o, kocheck junk0 K o false [(path, Some [])] (Ok tt).
Proof.
  intros H K o. destruct m as [m stdin]. exists [(Ok m, [])]. split.
  - constructor; [|constructor]. eapply opens_text; [exact H|]. apply results_end. reflexivity.
  - eapply run_ok; [|constructor]. unfold infer_checks. destruct (o_jobs o).
    + exists (Par _ _ [] (PSt (set_path (ps_syms (pst_new o)) m) (ps_next (pst_new o)) (ps_gc (pst_new o))) [] []). split; [constructor|]. split; [reflexivity|]. repeat split.
    + eexists. reflexivity.
Qed.
Theorem C76_no_panic_refuted : forall K o channel,
  kocheck_bytes junk0 K o channel [($"a.dk", Opened latin1 false)] Panic /\
  kocheck_bytes junk0 K o channel [($"dir", Opened [] true)] Panic.
Proof.
  intros K o channel. split.
  - apply (C76_panics junk0 K o channel [] [] ($"a.dk") [] latin1 false []).
    + constructor.
    + constructor.
    + left. reflexivity.
    + apply (bs_line ($"(; caf" ++ ["233"%char] ++ $" ;)") ($"a : Type.") false).
      * vm_compute. intuition discriminate.
      * rewrite <- C76_utf8. vm_compute. discriminate.
    + apply (empty_accepted _ ([$"a"], false)). reflexivity.
  - apply (C76_panics junk0 K o channel [] [] ($"dir") [] [] true []).
    + constructor.
    + constructor.
    + left. reflexivity.
    + apply bs_fails. intros [].
    + apply (empty_accepted _ ([$"dir"], false)). reflexivity.
Qed.
Print Assumptions C76_no_panic_refuted.

(** An error before such a line is reported, unless a channel is used: then the thread that reads files may panic
    before the other thread has found the error. *)
Definition wrong_then_bad : str := $"a : b." ++ ["010"%char] ++ latin1.
Lemma error_then_panic K o path m stdin bytes c e st rest : ModelPath.path_read path = Some (m, stdin) -> o_jobs o = false ->
  parse_bytes junk0 bytes false [Ok c; Panic] ->
  infer_checks_seq parse_error K o _ (run_item parse_error o) [Ok c; Panic]
    (PSt (set_path (ps_syms (pst_new o)) m) (ps_next (pst_new o)) (ps_gc (pst_new o))) = (st, rest, Err e) ->
  (forall r, kocheck_bytes junk0 K o false [(path, Opened bytes false)] r -> r = Err e) /\
  kocheck_bytes junk0 K o false [(path, Opened bytes false)] (Err e) /\
  kocheck_bytes junk0 K o true [(path, Opened bytes false)] Panic.
Proof.
  intros Hm Hj Hp Hs.
  assert (Ho : opens_bytes junk0 (path, Opened bytes false) (Ok m, [Ok c; Panic])).
  { eapply ob_bytes; [exact Hm|exact Hp]. }
  split; [|split].
  - intros r (files & Hf & H). rewrite (opens_all_det junk0 _ _ _ (Forall2_cons _ _ Ho (Forall2_nil _)) Hf) in H.
    inversion H as [|e0 i fs s|p0 i fs s st' r' H1 H2|p0 i fs s st' r' H1 H2]; subst;
      (destruct H1 as [H1|(H1 & _)]; [|congruence]); unfold infer_checks in H1; rewrite Hj in H1; destruct H1 as [rest' H1]; rewrite Hs in H1.
    + injection H1 as _ _ <-. reflexivity.
    + discriminate.
  - eexists. split; [constructor; [exact Ho|constructor]|]. eapply rr_err; [|reflexivity]. left. unfold infer_checks. rewrite Hj. exists rest. exact Hs.
  - eexists. split; [constructor; [exact Ho|constructor]|]. exists None. eexists _, Panic, false. split; [reflexivity|]. reflexivity.
Qed.
Theorem C76_channel_refuted : exists e,
  (forall r, kocheck_bytes junk0 sample_kernel (Opts false None false) false [($"a.dk", Opened wrong_then_bad false)] r -> r = Err e) /\
  kocheck_bytes junk0 sample_kernel (Opts false None false) false [($"a.dk", Opened wrong_then_bad false)] (Err e) /\
  kocheck_bytes junk0 sample_kernel (Opts false None false) true [($"a.dk", Opened wrong_then_bad false)] Panic.
Proof.
  exists (PKo (KoShare (UndeclaredSymbol ($"b")))).
  eapply (error_then_panic sample_kernel (Opts false None false) ($"a.dk") [$"a"] false); [reflexivity|reflexivity| |].
  - eapply results_ok; [vm_compute; reflexivity|apply results_panic; vm_compute; reflexivity].
  - vm_compute. reflexivity.
Qed.
Print Assumptions C76_channel_refuted.
