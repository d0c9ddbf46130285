(** * Property C63: counting constants and inlining definitions

    The programs [symcount] and [inline] in [dedukti-parse/examples], see [ModelTools].  [junk] is the number of characters
    that the lexer skips after unrecognised ones. *)

From Verif Require Import Base ModelTerm ModelGctx ModelCommand ModelSubst ModelInfer ModelSyntax ModelLex ModelParse ModelMake ModelProcess ModelMain ModelFmt ModelTools
  SpecSyntax SpecMake SpecShare SpecParse SpecProgram SpecTools Samples SamplesProcess SamplesParse SamplesProgram MainVerify MainTools SamplesWhole SamplesTools.

(** For a file where all names are declared, [symcount] gives for each constant of the file the number of its
    occurrences (without module) in declarations, definitions and theorems. *)
Theorem C63_count : forall junk path text m cs vs, source_of junk (path, Some text) (m, cs) -> elaborates [(m, cs)] vs ->
  exists counts, (forall counts', symcount_file junk text counts' <-> counts' = counts) /\
  forall c x, In c cs -> introduces c x -> counts (symb_new x) = Some (occurrences (symb_new x) (intro_uses (map scope_command cs))).
Proof. exact main_count_file. Qed.
Print Assumptions C63_count.

(** The output of [inline] is always a file that can be parsed.  When each of the listed definitions is used at most once, its
    commands are those of the input where the listed definitions are removed and put in place of their names, except in rules. *)
Theorem C63_inline : forall junk listed text out, inline_file junk listed text out ->
  exists cs cs', gfile (lex junk text) cs /\ gfile (lex junk out) cs' /\ (at_most_once listed cs -> inlined listed sm_empty cs cs').
Proof. exact main_inline_file. Qed.
Print Assumptions C63_inline.

(** Both programs together remove the definitions used exactly once, when no bound variable has the name of a constant. *)
Theorem C63_pipeline : forall junk text out m cs vs, ~ In CR text -> line_wise (lex junk text) -> gfile (lex junk text) cs -> elaborates [(m, cs)] vs ->
  (forall c x, In c cs -> introduces c x -> x <> $"Type" /\ forall c', In c' cs -> ~ In x (cmd_bound c')) ->
  pipeline junk text out ->
  exists cs', gfile (lex junk out) cs' /\ inlined (fun x => Nat.eqb (occurrences (symb_new x) (intro_uses (map scope_command cs))) 1) sm_empty cs cs'.
Proof. exact main_pipeline_file. Qed.
Print Assumptions C63_pipeline.

(** two definitions used once *)
Example C63_example : exists cs vs, ~ In CR once_text /\ line_wise (lex junk0 once_text) /\ gfile (lex junk0 once_text) cs /\ elaborates [([$"m"], cs)] vs /\
  (forall c x, In c cs -> introduces c x -> x <> $"Type" /\ forall c', In c' cs -> ~ In x (cmd_bound c')) /\
  pipeline junk0 once_text once_out /\ checks_to once_text (Ok tt) /\ checks_to once_out (Ok tt).
Proof.
  destruct once_hyps as (H1 & H2 & H3 & (vs & H4) & H5). exists once_cmds, vs. repeat (split; [assumption|]).
  split; [apply run_pipeline_ok; vm_compute; reflexivity|]. split; [exact once_ok|exact once_out_ok].
Qed.

(** README.md:11: "A count of 0 means that the constant was declared, but never used." It may be used in rules. *)
Theorem C63_count_rules_refuted : exists text cmds counts c x, checks_to text (Ok tt) /\ parse_text junk0 text (map Ok cmds) /\
  symcount_file junk0 text counts /\ In c cmds /\ introduces c x /\ counts (symb_new x) = Some 0 /\ In (symb_new x) (all_uses cmds).
Proof.
  exists zero_text, zero_cmds. eexists. eexists. exists ($"a"). split; [exact zero_ok|].
  split; [apply run_results_ok with (n := 20); vm_compute; reflexivity|].
  split; [eexists; split; [apply run_unwrapped_ok with (n := 20); vm_compute; reflexivity|reflexivity]|].
  split; [right; left; reflexivity|]. split; [eexists; eexists; reflexivity|]. split; [vm_compute; reflexivity|]. vm_compute. auto 10.
Qed.
Print Assumptions C63_count_rules_refuted.

(** It may also be used with the name of its module, and is then counted as another constant. *)
Theorem C63_count_module_refuted : exists text counts, checks_to text (Ok tt) /\ symcount_file junk0 text counts /\
  counts (symb_new ($"A")) = Some 0 /\ counts (Symb [$"m"] ($"A")) = Some 1 /\ forall c, counts c <> None -> sy_name c = $"A" \/ sy_name c = $"a".
Proof.
  exists own_text. eexists. split; [exact own_ok|].
  split; [eexists; split; [apply run_unwrapped_ok with (n := 20); vm_compute; reflexivity|reflexivity]|].
  split; [vm_compute; reflexivity|]. split; [vm_compute; reflexivity|].
  intros c. unfold symcount. cbn. unfold sm_set. repeat (destruct (symb_eq_dec _ _) as [->|]; [auto|]). intros []. reflexivity.
Qed.
Print Assumptions C63_count_module_refuted.

(** Both programs together do not preserve typing: the removed definition is used in a rule, or its type is needed, or the
    definition is put in place of a bound variable of the same name. *)
Theorem C63_typing_refuted : forall text out, In (text, out) [(rule_text, rule_out); (annotation_text, annotation_out); (bound_text, bound_out)] ->
  pipeline junk0 text out /\ checks_to text (Ok tt) /\ exists e, checks_to out (Err e).
Proof.
  intros text out H. repeat destruct H as [[= <- <-]|H]; [| | |destruct H]; (split; [apply run_pipeline_ok; vm_compute; reflexivity|]).
  - split; [exact rule_ok|exact rule_out_err].
  - split; [exact annotation_ok|exact annotation_out_err].
  - split; [exact bound_ok|exact bound_out_err].
Qed.
Print Assumptions C63_typing_refuted.

(** Nor do they preserve errors: the wrong type of a definition disappears. *)
Theorem C63_error_refuted : exists text out e, pipeline junk0 text out /\ checks_to text (Err e) /\ checks_to out (Ok tt).
Proof.
  destruct untypable_err as [e He]. exists untypable_text, untypable_out, e. split; [apply run_pipeline_ok; vm_compute; reflexivity|].
  split; [exact He|exact untypable_out_ok].
Qed.
Print Assumptions C63_error_refuted.
