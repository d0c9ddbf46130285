(** * Properties of kofmt together with kocheck and koweb: C78 *)

From Verif Require Import Base ModelTerm ModelGctx ModelCommand ModelSubst ModelSyntax ModelSymbols ModelShare ModelLex ModelParse ModelFmt ModelMake ModelProcess ModelMain ModelRead ModelKofmt
  SpecTerm SpecTyping SpecUtf8 SpecMake SpecParse SpecSyntax SpecProcess SpecProgram SpecKofmt SpecFormat
  Samples SamplesProcess SamplesParse SamplesProgram MainRead MainKofmt MainProgram MainFormat.

(** ** C78: formatting with kofmt does not change what is checked *)

(** kocheck accepts the formatted files exactly if it accepts the files, for all options (and all kernels). *)
Theorem C78_accepted : forall junk K o channel inputs inputs', Forall2 (formatted junk) inputs inputs' ->
  (kocheck junk K o channel inputs (Ok tt) <-> kocheck junk K o channel inputs' (Ok tt)).
Proof. exact main_format_accepted. Qed.
Print Assumptions C78_accepted.
(** If the files are in the grammar, then also errors are the same. *)
Theorem C78_verdict : forall junk K o channel inputs inputs' srcs r, Forall2 (formatted junk) inputs inputs' -> Forall2 (source_of junk) inputs srcs ->
  (kocheck junk K o channel inputs r <-> kocheck junk K o channel inputs' r).
Proof. exact main_format_verdict. Qed.
Print Assumptions C78_verdict.
(** Indeed, any two lists of files with the same modules and commands are treated alike: spaces, ends of lines, comments, pragmas,
    and parentheses that are not needed do not matter. *)
Theorem C78_layout : forall junk K o channel inputs inputs' srcs r, Forall2 (source_of junk) inputs srcs -> Forall2 (source_of junk) inputs' srcs ->
  (kocheck junk K o channel inputs r <-> kocheck junk K o channel inputs' r).
Proof. exact main_same_sources. Qed.
Print Assumptions C78_layout.
(** For koweb, all results are the same, without conditions on lines and grammar. *)
Theorem C78_web : forall junk K o modules modules' r, Forall2 (web_formatted junk) modules modules' ->
  (web_check junk K o modules r <-> web_check junk K o modules' r).
Proof. exact main_format_web. Qed.
Print Assumptions C78_web.

(** ** Cases *)
Definition end_line : str := ["010"%char].
Definition loose : str := $"(; numbers" ++ end_line ++ $";) nat:Type." ++ end_line ++ $"def z:nat .".
Definition neat : str := $"nat : Type." ++ end_line ++ $"def z : nat." ++ end_line.
Example C78_example : formatted junk0 ($"a.dk", Some loose) ($"a.dk", Some neat) /\
  kocheck junk0 sample_kernel (Opts false None false) false [($"a.dk", Some neat)] (Ok tt) /\
  kocheck junk0 sample_kernel (Opts false None false) false [($"a.dk", Some loose)] (Ok tt).
Proof.
  assert (F : formatted junk0 ($"a.dk", Some loose) ($"a.dk", Some neat)).
  { split; [reflexivity|]. cbn [snd]. split; [split|split; [|vm_compute; reflexivity]].
    - apply main_kofmt_one. eapply ff_lex; vm_compute; reflexivity.
    - intros n Hi. vm_compute in Hi. intuition discriminate.
    - intros t Hi. vm_compute in Hi. repeat (destruct Hi as [<-|Hi]; [split; [discriminate|]; intros s E; try discriminate;
        injection E as <-; intros p [<-|[]]; vm_compute; intuition discriminate|]). destruct Hi. }
  assert (A : kocheck junk0 sample_kernel (Opts false None false) false [($"a.dk", Some neat)] (Ok tt)).
  { eexists. split.
    - constructor; [|constructor]. eapply opens_text; [reflexivity|]. apply run_results_ok with (n := 20). vm_compute. reflexivity.
    - eapply run_ok; [unfold infer_checks; cbn [o_jobs]; eexists; vm_compute; reflexivity|]. constructor. }
  split; [exact F|]. split; [exact A|]. apply (C78_accepted _ _ _ _ _ _ (Forall2_cons _ _ F (Forall2_nil _))). exact A.
Qed.

(** Wanted: the same for all texts that kofmt formats.  Refuted: an unclosed comment is an error for kocheck, but kofmt removes it. *)
Definition unclosed : str := $"a : Type." ++ end_line ++ $"(; b : c.".
Definition unclosed_out : str := $"a : Type." ++ end_line ++ $" ".
Theorem C78_comment_refuted : forall K,
  kofmt junk0 false FLex [Opened unclosed false] unclosed_out FOk /\
  ~ kocheck junk0 K (Opts false (Some StShare) false) false [($"a.dk", Some unclosed)] (Ok tt) /\
  kocheck junk0 K (Opts false (Some StShare) false) false [($"a.dk", Some unclosed_out)] (Ok tt).
Proof.
  intros K. split; [|split].
  - apply main_kofmt_one. eapply ff_lex; vm_compute; reflexivity.
  - rewrite main_kocheck_share. intros (srcs & H). inversion H as [|? [m cs] ? ? (text & toks & Et & _ & Hr & Hg) _]; subst. cbn [snd] in Et, Hg. injection Et as <-.
    assert (X : parse_text junk0 unclosed (map Ok (map scope_command cs))) by (apply parse_text_source; eauto).
    assert (Y : exists c e, parse_text junk0 unclosed [Ok c; Err e]).
    { eexists _, _. eapply results_ok; [vm_compute; reflexivity|]. apply results_err. vm_compute. reflexivity. }
    destruct Y as (c & e & Y). assert (Z := results_det _ _ _ X _ Y).
    destruct cs as [|c1 [|c2 cs]]; discriminate Z.
  - rewrite main_kocheck_share.
    assert (Y : exists c, parse_text junk0 unclosed_out [Ok c]).
    { eexists _. eapply results_ok; [vm_compute; reflexivity|]. apply results_end. vm_compute. reflexivity. }
    destruct Y as [c Y]. change [Ok c] with (map (@Ok parse_error scoped) [c]) in Y. apply parse_text_source in Y as (toks & cs & H1 & H2 & _).
    exists [([$"a"], cs)]. constructor; [|constructor]. exists unclosed_out, toks. split; [reflexivity|]. split; [|split; assumption].
    apply MainPath.main_module_path. vm_compute. reflexivity.
Qed.
Print Assumptions C78_comment_refuted.
(** Wanted: kofmt formats all texts that kocheck accepts.  Refuted: lines that end with CR LF. *)
Definition windows : str := $"a : Type." ++ ["013"%char; "010"%char].
Theorem C78_crlf_refuted :
  kocheck junk0 sample_kernel (Opts false None false) false [($"a.dk", Some windows)] (Ok tt) /\
  kofmt junk0 false FLex [Opened windows false] ($"a : Type." ++ end_line) FPanic.
Proof.
  split.
  - eexists. split.
    + constructor; [|constructor]. eapply opens_text; [reflexivity|]. apply run_results_ok with (n := 20). vm_compute. reflexivity.
    + eapply run_ok; [unfold infer_checks; cbn [o_jobs]; eexists; vm_compute; reflexivity|]. constructor.
  - apply main_kofmt_one. eapply ff_lex; vm_compute; reflexivity.
Qed.
Print Assumptions C78_crlf_refuted.
