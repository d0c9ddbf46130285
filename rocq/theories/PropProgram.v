(** * Properties of whole programs: C34 (exact form), C43-C46

    These theorems start from the texts of files.  [junk] is the number of characters that the lexer
    skips after unrecognised ones; [O] and [n] are the shape of references and the fuel of the kernel. *)

From Verif Require Import Base ModelTerm ModelGctx ModelCommand ModelSubst ModelSyntax ModelSymbols ModelShare ModelLex ModelParse ModelMake ModelProcess ModelMain
  SpecTerm SpecTyping SpecParse SpecSyntax SpecMake SpecProcess SpecProgram
  Samples SamplesProcess SamplesParse SamplesProgram MainPath MainReads MainProgram.

(** ** C34: what the parser for lines accepts *)

(** The parser for lines accepts exactly the commands, with pragmas between and after them, in the
    tokens that result from reading the lines one after the other. *)
Theorem C34_source : forall junk lines cs,
  outcome (lazy_next scope_symb junk) (lazy_new lines) cs None <->
  exists toks, reads junk 0 lines toks /\ gsource toks cs.
Proof. exact main_source. Qed.
Print Assumptions C34_source.
(** If names do not extend over lines and there is no unrecognised character, these are the tokens of the text. *)
Theorem C34_tokens : forall junk text lines toks, splits text lines -> line_wise (lex junk text) ->
  (reads junk 0 lines toks <-> toks = lex junk text).
Proof. exact main_reads. Qed.
Print Assumptions C34_tokens.

(** a comment over two lines, and a pragma at the end *)
Example C34_source_example :
  let lines := [$"(; one"; $" ;) a : Type. b"; $" : a. #PRAGMA."] in
  reads junk0 0 lines [TSymb (symb_new ($"a")); TColon; TSymb (symb_new ($"Type")); TDot; TSymb (symb_new ($"b"));
    TColon; TSymb (symb_new ($"a")); TDot; THash; TSymb (symb_new ($"PRAGMA")); TDot] /\
  outcome (lazy_next scope_symb junk0) (lazy_new lines)
    [PIntro ($"a") [] (IDeclaration false (cn ($"Type"))); PIntro ($"b") [] (IDeclaration false (cn ($"a")))] None.
Proof.
  split.
  - apply (reads_line_open junk0 0 ($"(; one") ($"(; one") [] 1); [reflexivity|vm_compute; reflexivity|constructor|].
    apply (reads_line junk0 1 ($" ;) a : Type. b") ($" a : Type. b") [$" : a. #PRAGMA."]
      [TColon; TSymb (symb_new ($"a")); TDot; THash; TSymb (symb_new ($"PRAGMA")); TDot]);
      [reflexivity|vm_compute; repeat constructor; intros k; discriminate|].
    apply (reads_line junk0 0 ($" : a. #PRAGMA.") ($" : a. #PRAGMA.") [] []);
      [reflexivity|vm_compute; repeat constructor; intros k; discriminate|constructor].
  - apply first_error_outcome with (n := 9). vm_compute. reflexivity.
Qed.

(** ** C43: kocheck accepts only well-typed programs *)
Theorem C43_kocheck : forall junk O n eta jobs channel inputs,
  kocheck junk (real_kernel O n) (Opts eta None jobs) channel inputs (Ok tt) ->
  exists srcs vs sg, Forall2 (source_of junk) inputs srcs /\ elaborates srcs vs /\ verified_all (empty_sig eta) vs sg.
Proof. exact main_kocheck_sound. Qed.
Print Assumptions C43_kocheck.

Example C43_example : kocheck junk0 sample_kernel (Opts false None false) false sample_inputs (Ok tt).
Proof.
  eexists. split.
  - constructor; [|constructor; [|constructor]].
    + eapply opens_text; [reflexivity|]. apply run_results_ok with (n := 20). vm_compute. reflexivity.
    + eapply opens_text; [reflexivity|]. apply run_results_ok with (n := 20). vm_compute. reflexivity.
  - eapply run_ok; [unfold infer_checks; cbn [o_jobs]; eexists; vm_compute; reflexivity|].
    eapply run_ok; [unfold infer_checks; cbn [o_jobs]; eexists; vm_compute; reflexivity|]. constructor.
Qed.
Example C43_example_wrong :
  kocheck junk0 sample_kernel (Opts false None false) false (sample_inputs ++ [($"wrong.dk", Some wrong_text)])
    (Err (PKo (KoTyping Unconvertible))).
Proof.
  eexists. split.
  - constructor; [|constructor; [|constructor; [|constructor]]].
    + eapply opens_text; [reflexivity|]. apply run_results_ok with (n := 20). vm_compute. reflexivity.
    + eapply opens_text; [reflexivity|]. apply run_results_ok with (n := 20). vm_compute. reflexivity.
    + eapply opens_text; [reflexivity|]. apply run_results_ok with (n := 20). vm_compute. reflexivity.
  - eapply run_ok; [unfold infer_checks; cbn [o_jobs]; eexists; vm_compute; reflexivity|].
    eapply run_ok; [unfold infer_checks; cbn [o_jobs]; eexists; vm_compute; reflexivity|].
    eapply run_err; [unfold infer_checks; cbn [o_jobs]; eexists; vm_compute; reflexivity|]. reflexivity.
Qed.

(** ** C44: with a stage omitted, kocheck accepts exactly the programs that elaborate, or just parse *)
Theorem C44_infer : forall junk K eta jobs channel inputs,
  kocheck junk K (Opts eta (Some StInfer) jobs) channel inputs (Ok tt) <->
  exists srcs vs, Forall2 (source_of junk) inputs srcs /\ elaborates srcs vs.
Proof. exact main_kocheck_infer. Qed.
Print Assumptions C44_infer.
Theorem C44_share : forall junk K eta jobs channel inputs,
  kocheck junk K (Opts eta (Some StShare) jobs) channel inputs (Ok tt) <->
  exists srcs, Forall2 (source_of junk) inputs srcs.
Proof. exact main_kocheck_share. Qed.
Print Assumptions C44_share.

(** a wrong proof elaborates; an unknown name only parses *)
Example C44_example :
  kocheck junk0 sample_kernel (Opts false (Some StInfer) false) false (sample_inputs ++ [($"wrong.dk", Some wrong_text)]) (Ok tt) /\
  kocheck junk0 sample_kernel (Opts false (Some StShare) false) false [($"a.dk", Some ($"a : unknown."))] (Ok tt) /\
  kocheck junk0 sample_kernel (Opts false (Some StInfer) false) false [($"a.dk", Some ($"a : unknown."))] (Err (PKo (KoShare (UndeclaredSymbol ($"unknown"))))).
Proof.
  split; [|split].
  - eexists. split.
    + constructor; [|constructor; [|constructor; [|constructor]]];
        (eapply opens_text; [reflexivity|]; apply run_results_ok with (n := 20); vm_compute; reflexivity).
    + do 3 (eapply run_ok; [unfold infer_checks; cbn [o_jobs]; eexists; vm_compute; reflexivity|]). constructor.
  - eexists. split.
    + constructor; [|constructor]. eapply opens_text; [reflexivity|]; apply run_results_ok with (n := 20); vm_compute; reflexivity.
    + eapply run_ok; [unfold infer_checks; cbn [o_jobs]; eexists; vm_compute; reflexivity|]. constructor.
  - eexists. split.
    + constructor; [|constructor]. eapply opens_text; [reflexivity|]; apply run_results_ok with (n := 20); vm_compute; reflexivity.
    + eapply run_err; [unfold infer_checks; cbn [o_jobs]; eexists; vm_compute; reflexivity|]. reflexivity.
Qed.

(** ** C45: koweb accepts only well-typed programs *)
Theorem C45_single : forall junk O n text eta, check_single junk (real_kernel O n) text eta 3 (Ok tt) ->
  exists cs vs sg, gfile (lex junk text) cs /\ elaborates [([$"main"], cs)] vs /\ verified_all (empty_sig eta) vs sg.
Proof. exact main_single_sound. Qed.
Print Assumptions C45_single.
(** If there is a program of the given name, its dependencies are fetched; the names of the modules
    are the names of the files without the last three characters. *)
Theorem C45_multiple : forall junk O n fetch programs to_run eta,
  check_multiple junk (real_kernel O n) fetch programs to_run eta 3 (Ok tt) ->
  ~ In to_run (map pg_name programs) \/
  exists p1 main p2 modules srcs vs sg,
    programs = p1 ++ main :: p2 /\ pg_name main = to_run /\ ~ In to_run (map pg_name p1) /\
    Forall2 (fun d m => (exists suffix, length suffix = 3 /\ fst d = fst m ++ suffix) /\ fetch (snd d) = Some (snd m))
      (combine (pg_deps main) (pg_urls main)) modules /\
    Forall2 (web_source junk) modules srcs /\ elaborates srcs vs /\ verified_all (empty_sig eta) vs sg.
Proof. exact main_multiple_sound. Qed.
Print Assumptions C45_multiple.
Theorem C45_infer : forall junk K eta modules,
  web_check junk K (Opts eta (Some StInfer) false) modules (Ok tt) <->
  exists srcs vs, Forall2 (web_source junk) modules srcs /\ elaborates srcs vs.
Proof. exact main_web_infer. Qed.
Print Assumptions C45_infer.
(** The four levels of checking: only parsing; also elaboration; also inference of types, but all checks are
    taken to succeed; everything (above).  Other levels are errors of the page. *)
Theorem C45_stages : forall junk K text eta,
  (check_single junk K text eta 0 (Ok tt) <-> exists cs, gfile (lex junk text) cs) /\
  (check_single junk K text eta 1 (Ok tt) <-> exists cs vs, gfile (lex junk text) cs /\ elaborates [([$"main"], cs)] vs) /\
  (check_single junk K text eta 2 (Ok tt) <->
   check_single junk (Kernel (k_intro K) (k_rewrite K) (fun _ _ => Ok tt)) text eta 3 (Ok tt)) /\
  (forall omit r, 3 < omit -> (check_single junk K text eta omit r <-> r = Panic)).
Proof. exact main_single_stages. Qed.
Print Assumptions C45_stages.
(** If there is no program of the given name, nothing is checked and no error is reported. *)
Theorem C45_unknown_refuted : exists fetch programs to_run,
  forall junk K eta, check_multiple junk K fetch programs to_run eta 3 (Ok tt) /\ ~ In to_run (map pg_name programs).
Proof.
  exists sample_fetch, sample_programs, ($"sue"). intros junk K eta. split; [reflexivity|].
  cbn. intros [H|[H|[]]]; discriminate.
Qed.
Print Assumptions C45_unknown_refuted.
(** If dependencies are listed without their addresses, they are left out. *)
Theorem C45_zip_refuted : exists fetch main, pg_deps main <> [] /\ forall junk K eta,
  check_multiple junk K fetch [main] (pg_name main) eta 3 (Ok tt).
Proof.
  exists sample_fetch, (Program ($"use") [$"nat.dk"; $"use.dk"] []). split; [discriminate|]. intros junk K eta.
  exists []. split; [constructor|]. eexists. unfold infer_checks. cbn [o_jobs]. eexists. reflexivity.
Qed.
Print Assumptions C45_zip_refuted.

Example C45_example :
  check_single junk0 sample_kernel nat_text' false 3 (Ok tt) /\
  check_multiple junk0 sample_kernel sample_fetch sample_programs ($"use") false 3 (Ok tt).
Proof.
  split.
  - eexists. split.
    + constructor; [|constructor]. constructor. apply run_results_ok with (n := 20). vm_compute. reflexivity.
    + eexists. unfold infer_checks. cbn [o_jobs]. eexists. vm_compute. reflexivity.
  - eexists. split.
    + constructor; [|constructor; [|constructor]]; constructor; apply run_results_ok with (n := 20); vm_compute; reflexivity.
    + eexists. unfold infer_checks. cbn [o_jobs]. eexists. vm_compute. reflexivity.
Qed.

(** a wrong proof, at the last two levels *)
Example C45_example_stages :
  let text := $"A : Type. a : A. thm t : A := A." in
  check_single junk0 sample_kernel text false 2 (Ok tt) /\
  check_single junk0 sample_kernel text false 3 (Err (PKo (KoTyping Unconvertible))).
Proof.
  split; (eexists; split;
    [constructor; [constructor; apply run_results_ok with (n := 20); vm_compute; reflexivity|constructor]
    |eexists; unfold infer_checks; cbn [o_jobs]; eexists; vm_compute; reflexivity]).
Qed.

(** ** C46: koweb and kocheck agree

    Given the same texts (without CR, without names over several lines), what koweb accepts is accepted
    by kocheck, and conversely if all texts are sequences of commands. *)
Theorem C46_agree : forall junk K o channel modules inputs,
  Forall2 (fun md input => snd input = Some (snd md) /\ module_of (fst input) [fst md] /\ ~ In CR (snd md) /\ line_wise (lex junk (snd md))) modules inputs ->
  (web_check junk K o modules (Ok tt) -> kocheck junk K o channel inputs (Ok tt)) /\
  (kocheck junk K o channel inputs (Ok tt) ->
   (forall md, In md modules -> exists cs, gfile (lex junk (snd md)) cs) -> web_check junk K o modules (Ok tt)).
Proof. exact main_web_kocheck. Qed.
Print Assumptions C46_agree.
(** In general they do not agree: kocheck accepts a text that ends with a pragma, koweb does not. *)
Theorem C46_pragma_refuted : exists text, ~ In CR text /\ forall junk K,
  line_wise (lex junk text) /\
  kocheck junk K (Opts false (Some StShare) false) false [($"main.dk", Some text)] (Ok tt) /\
  ~ check_single junk K text false 0 (Ok tt).
Proof.
  exists ($"a : Type. #PRAGMA."). split; [cbn; intuition discriminate|]. intros junk K. split; [|split].
  - intros t Ht. vm_compute in Ht. repeat (destruct Ht as [<-|Ht]; [split; [discriminate|intros s E; try discriminate; injection E as <-;
      intros p Hp; cbn in Hp; repeat (destruct Hp as [<-|Hp]; [cbn; intuition discriminate|]); destruct Hp]|]). destruct Ht.
  - eexists. split.
    + constructor; [|constructor]. eapply opens_text; [reflexivity|]; apply run_results_ok with (n := 20); vm_compute; reflexivity.
    + eapply run_ok; [unfold infer_checks; cbn [o_jobs]; eexists; vm_compute; reflexivity|]. constructor.
  - eapply web_reject. apply first_error_outcome with (n := 9). vm_compute. reflexivity.
Qed.
Print Assumptions C46_pragma_refuted.

Example C46_example : kocheck junk0 sample_kernel (Opts false None false) true
  [($"nat.dk", Some nat_text'); ($"use.dk", Some use_text)] (Ok tt).
Proof.
  apply (C46_agree junk0 sample_kernel _ true sample_modules).
  - assert (W : forall text, forallb (fun t => match t with TError => false
      | TSymb s => forallb (fun p => negb (existsb (Ascii.eqb newline) p)) (sy_path s ++ [sy_name s]) | _ => true end) (lex junk0 text) = true ->
      line_wise (lex junk0 text)).
    { intros text H t Ht. rewrite forallb_forall in H. specialize (H t Ht). split; [intros ->; discriminate|]. intros s -> p Hp Hi.
      rewrite forallb_forall in H. specialize (H p Hp). apply Bool.negb_true_iff in H.
      assert (existsb (Ascii.eqb newline) p = true) by (apply existsb_exists; exists newline; auto). congruence. }
    constructor; [|constructor; [|constructor]]; (split; [reflexivity|]); (split; [apply main_module_path; reflexivity|]);
      (split; [vm_compute; intuition discriminate|]); apply W; vm_compute; reflexivity.
  - exact (proj2 C45_example).
Qed.
