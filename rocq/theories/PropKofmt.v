(** * Properties of the program kofmt: C77

    The properties about formatting speak of lists of tokens and commands; here kofmt is a program that reads files. *)

From Verif Require Import Base ModelTerm ModelSyntax ModelCommand ModelLex ModelParse ModelFmt ModelMake ModelRead ModelUtf8 ModelKofmt
  SpecUtf8 SpecMake SpecRead SpecParse SpecSyntax SpecProgram SpecKofmt SamplesParse MainRead MainKofmt PropUtf8.

(** ** C77: what kofmt prints and how it ends *)

(** It always ends, in one way, with one text printed. *)
Theorem C77_unique : forall junk quiet mode inputs, exists out e, forall out' e',
  kofmt junk quiet mode inputs out' e' <-> out' = out /\ e' = e.
Proof. exact main_kofmt_unique. Qed.
Print Assumptions C77_unique.
(** It succeeds if it succeeds for each file, and prints what it prints for each file. *)
Theorem C77_files : forall junk quiet mode inputs out, kofmt junk quiet mode inputs out FOk <->
  exists outs, Forall2 (fun i o => kofmt junk quiet mode [i] o FOk) inputs outs /\ out = concat outs.
Proof. exact main_kofmt_each. Qed.
Print Assumptions C77_files.
(** If it does not succeed, then it has printed what it prints for the files up to the first on which it does not succeed. *)
Theorem C77_first : forall junk quiet mode inputs out e, e <> FOk -> (kofmt junk quiet mode inputs out e <->
  exists before i after out1 out2, inputs = before ++ i :: after /\ out = out1 ++ out2 /\
    kofmt junk quiet mode before out1 FOk /\ kofmt junk quiet mode [i] out2 e).
Proof. exact main_kofmt_first. Qed.
Print Assumptions C77_first.

(** One file, only lexed: exactly the texts without unrecognised characters are printed. *)
Theorem C77_lex : forall junk i out, kofmt junk false FLex [i] out FOk <->
  exists text, is_text i text /\ ~ In TError (lex junk text) /\ print_tokens (lex junk text) = Ok out.
Proof. intros. rewrite main_kofmt_one. exact (main_file_lex junk i out). Qed.
Print Assumptions C77_lex.
(** One file, parsed at once: exactly the texts in the grammar; the commands are printed one after the other. *)
Theorem C77_strict : forall junk scope i out, kofmt junk false (FParse false scope) [i] out FOk <->
  exists text cs, is_text i text /\ gfile (lex junk text) cs /\ out = shown scope cs.
Proof. intros. rewrite main_kofmt_one. exact (main_file_strict junk scope i out). Qed.
Print Assumptions C77_strict.
(** One file, parsed line by line. *)
Theorem C77_lazy : forall junk scope i out, kofmt junk false (FParse true scope) [i] out FOk <->
  exists text toks cs, is_text i text /\ read_as junk text toks /\ gsource toks cs /\ out = shown scope cs.
Proof. intros. rewrite main_kofmt_one. exact (main_file_lazy junk scope i out). Qed.
Print Assumptions C77_lazy.
(** On an error of syntax, all commands before it are printed, and kofmt panics. *)
Theorem C77_error : forall junk by_lines scope text cs err, utf8 text -> parsed junk by_lines text cs (Some err) ->
  kofmt junk false (FParse by_lines scope) [Opened text false] (shown scope cs) FPanic.
Proof. exact main_kofmt_error. Qed.
Print Assumptions C77_error.

(** Files that are not texts: an error if the file is read at once or cannot be opened; a panic if it is read line by line,
    after the commands in the complete lines before were printed. *)
Theorem C77_io : forall junk mode i, (forall text, ~ is_text i text) -> i = Closed \/ mode = FLex \/ (exists scope, mode = FParse false scope) ->
  kofmt junk false mode [i] [] FIo.
Proof. exact main_kofmt_io. Qed.
Print Assumptions C77_io.
Theorem C77_cut : forall junk scope b1 b2 fails cs r, utf8 b1 -> whole_lines b1 -> bad_start b2 fails -> parsed junk true b1 cs r ->
  kofmt junk false (FParse true scope) [Opened (b1 ++ b2) fails] (shown scope cs) FPanic.
Proof. exact main_kofmt_cut. Qed.
Print Assumptions C77_cut.
(** An error is returned only for such files. *)
Theorem C77_io_only : forall junk quiet mode inputs out, kofmt junk quiet mode inputs out FIo ->
  exists i, In i inputs /\ forall text, ~ is_text i text.
Proof. exact main_kofmt_io_only. Qed.
Print Assumptions C77_io_only.

(** Formatting: the output of several files, each ending with a command, has the tokens of the files one after the other,
    and formatting it again does not change it. *)
Theorem C77_again : forall junk inputs texts, whole_chars junk -> Forall2 is_text inputs texts -> Forall (formattable junk) texts ->
  exists out, kofmt junk false FLex inputs out FOk /\ lex junk out = flat_map (lex junk) texts /\
    kofmt junk false FLex [Opened out false] out FOk.
Proof. exact main_kofmt_again. Qed.
Print Assumptions C77_again.

(** [--quiet]: nothing is printed.  When parsing, the program ends in the same way. *)
Theorem C77_quiet : forall junk mode inputs out e, kofmt junk true mode inputs out e -> out = [].
Proof. exact quiet_nothing. Qed.
Print Assumptions C77_quiet.
Theorem C77_quiet_parse : forall junk by_lines scope inputs e,
  kofmt junk true (FParse by_lines scope) inputs [] e <-> exists out, kofmt junk false (FParse by_lines scope) inputs out e.
Proof. exact main_quiet_parse. Qed.
Print Assumptions C77_quiet_parse.
Theorem C77_quiet_lex : forall junk inputs, kofmt junk true FLex inputs [] FOk <-> Forall (fun i => exists text, is_text i text) inputs.
Proof. exact main_quiet_lex. Qed.
Print Assumptions C77_quiet_lex.

(** ** Cases *)
Definition LF1 : str := ["010"%char].
Definition two : str := $"a:Type. def b  :a." ++ LF1 ++ $"(;c;)c:b.".
Definition two_out : str := $"a : Type." ++ LF1 ++ $"def b : a." ++ LF1 ++ $"c : b." ++ LF1.
Example C77_example_lex : kofmt junk0 false FLex [Opened two false; Opened two_out false] (two_out ++ two_out) FOk /\
  kofmt junk0 false FLex [Opened (two_out ++ two_out) false] (two_out ++ two_out) FOk.
Proof.
  split; [|rewrite <- (app_nil_r (two_out ++ two_out)) at 2].
  - change (two_out ++ two_out) with (two_out ++ two_out ++ []). repeat apply kf_next; try apply kf_nil; (eapply ff_lex; vm_compute; reflexivity).
  - apply kf_next; [|apply kf_nil]. eapply ff_lex; vm_compute; reflexivity.
Qed.
Example C77_example_formattable : formattable junk0 two /\ is_text (Opened two false) two /\ whole_chars junk_char.
Proof.
  split; [|split].
  - split; [|right; eexists [_;_;_;_;_;_;_;_;_;_;_;_]; vm_compute; reflexivity]. intros t H.
    assert (B : forallb (fun t => match t with TError | TComment _ => false | _ => true end) (lex junk0 two) = true) by (vm_compute; reflexivity).
    rewrite forallb_forall in B. specialize (B t H). destruct t; try discriminate; (split; [discriminate|intros n; discriminate]).
  - split; [reflexivity|]. apply valid_utf8_iff. vm_compute. reflexivity.
  - exact (proj1 C60_example).
Qed.
(** an error in the second line: the first command is printed *)
Definition wrong : str := $"a : Type." ++ LF1 ++ $"b a : .".
Example C77_example_error : exists cs err, parsed junk0 true wrong cs (Some err) /\
  shown true cs = $"a : Type".
Proof.
  eexists [_], _. split; [cbn [parsed]; eapply outcome_ok; [vm_compute; reflexivity|]; eapply outcome_err; vm_compute; reflexivity|].
  vm_compute. reflexivity.
Qed.

(** Wanted: kofmt returns errors.  Refuted: it panics on every error of syntax, and on files that are not texts if read line by line,
    where it returns an error if they are read at once. *)
Definition latin1_line : str := ["233"%char].
Theorem C77_no_panic_refuted : forall scope,
  kofmt junk0 false (FParse true scope) [Opened wrong false] ($"a : Type") FPanic /\
  kofmt junk0 false (FParse true scope) [Opened latin1_line false] [] FPanic /\
  kofmt junk0 false (FParse false scope) [Opened latin1_line false] [] FIo.
Proof.
  intros scope. assert (N : ~ utf8 latin1_line) by (rewrite <- valid_utf8_iff; vm_compute; discriminate). split; [|split].
  - destruct scope; apply main_kofmt_one.
    + apply ff_lazy_scope. 
      eapply (puts_cmd_eq _ _ _ _ _ []); [vm_compute; reflexivity..|]. eapply puts_err. vm_compute. reflexivity.
    + apply ff_lazy. 
      eapply (puts_cmd_eq _ _ _ _ _ []); [vm_compute; reflexivity..|]. eapply puts_err. vm_compute. reflexivity.
  - assert (X := C77_cut junk0 scope [] latin1_line false [] None). destruct scope; (apply X;
      [constructor|left; reflexivity|apply bs_last; [vm_compute; intuition discriminate|exact N]|apply outcome_end; vm_compute; reflexivity]).
  - apply C77_io; [intros text [[= <-] H]; exact (N H)|right; right; eauto].
Qed.
Print Assumptions C77_no_panic_refuted.
(** Wanted: [--quiet] changes only what is printed.  Refuted when lexing: unrecognised characters are an error only if they are printed. *)
Theorem C77_quiet_refuted : forall inputs, inputs = [Opened ($"a ; b.") false] ->
  kofmt junk0 true FLex inputs [] FOk /\ kofmt junk0 false FLex inputs ($"a ") FPanic.
Proof.
  intros inputs ->. split.
  - change (@nil ascii) with (@nil ascii ++ []). apply kf_next; [eapply fq_lex; vm_compute; reflexivity|apply kf_nil].
  - apply kf_stop; [|discriminate]. eapply ff_lex; vm_compute; reflexivity.
Qed.
Print Assumptions C77_quiet_refuted.
(** Wanted: the tokens of the output are those of the files.  Refuted if a file does not end with a command: its last token
    and the first of the next file become one. *)
Theorem C77_files_refuted : forall inputs, inputs = [Opened ($"a") false; Opened ($"b.") false] ->
  kofmt junk0 false FLex inputs ($"ab." ++ LF1) FOk /\
  lex junk0 ($"ab." ++ LF1) = [TSymb (Symb [] ($"ab")); TDot] /\
  lex junk0 ($"a") ++ lex junk0 ($"b.") = [TSymb (Symb [] ($"a")); TSymb (Symb [] ($"b")); TDot].
Proof.
  intros inputs ->. split; [|split; vm_compute; reflexivity].
  change ($"ab." ++ LF1) with ($"a" ++ ($"b." ++ LF1) ++ []). repeat apply kf_next; try apply kf_nil; (eapply ff_lex; vm_compute; reflexivity).
Qed.
Print Assumptions C77_files_refuted.
(** Wanted (main.rs:1): one command per line is printed.  Refuted when parsing: neither the dot nor the end of the line is printed,
    so that two commands become a text that kofmt itself does not parse. *)
Definition two_commands : str := $"a : Type." ++ LF1 ++ $"b : a." ++ LF1.
Theorem C77_lines_refuted : forall by_lines scope,
  kofmt junk0 false (FParse by_lines scope) [Opened two_commands false] ($"a : Typeb : a") FOk /\
  kofmt junk0 false (FParse by_lines scope) [Opened ($"a : Typeb : a") false] [] FPanic /\
  kofmt junk0 false FLex [Opened two_commands false] two_commands FOk.
Proof.
  intros by_lines scope. split; [|split].
  - destruct by_lines, scope; apply main_kofmt_one;
      [apply ff_lazy_scope|apply ff_lazy|eapply ff_strict_scope; [vm_compute; reflexivity|]|eapply ff_strict; [vm_compute; reflexivity|]];
      (eapply (puts_cmd_eq _ _ _ _ _ ($"b : a")); [vm_compute; reflexivity..|]; eapply (puts_cmd_eq _ _ _ _ _ []); [vm_compute; reflexivity..|]; apply puts_end; vm_compute; reflexivity).
  - destruct by_lines, scope; apply main_kofmt_one;
      [apply ff_lazy_scope|apply ff_lazy|eapply ff_strict_scope; [vm_compute; reflexivity|]|eapply ff_strict; [vm_compute; reflexivity|]];
      (eapply puts_err; vm_compute; reflexivity).
  - apply main_kofmt_one. eapply ff_lex; vm_compute; reflexivity.
Qed.
Print Assumptions C77_lines_refuted.
