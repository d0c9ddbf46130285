(** * Properties of lexing, parsing and printing: C28-C38

    The parameter [junk] of the lexer is the number of characters that an unrecognised token extends
    over, which is determined by the library logos; all theorems hold for any such number. *)

From Verif Require Import Base ModelSyntax ModelCommand ModelLex ModelParse ModelFmt
  SpecParse SpecSyntax ParseAuto ParseLex ParsePrint ParseCmd ParseScope MainParse MainFmt MainLines SamplesParse.

(** ** C28: parsing does not panic

    [Panic] stands for a panic of the code; [Fuel] is the error of the model if a loop has not ended
    within the number of steps that the model allows. *)
Theorem C28_strict : forall A (scope : symb -> tctx A -> A) junk s l p,
  reaches (strict_next scope) (strict_new junk s) l p ->
  fst (strict_next scope p) <> Panic /\ fst (strict_next scope p) <> Fuel.
Proof. intros A scope junk s l p _. exact (strict_next_fine A scope p). Qed.
Print Assumptions C28_strict.
Theorem C28_lazy : forall A (scope : symb -> tctx A -> A) junk lines l p,
  reaches (lazy_next scope junk) (lazy_new lines) l p ->
  fst (lazy_next scope junk p) <> Panic /\ fst (lazy_next scope junk p) <> Fuel.
Proof. intros A scope junk. exact (lazy_fine A scope junk). Qed.
Print Assumptions C28_lazy.

Example C28_example :
  exists c, collect (strict_next scope_symb) 20 (strict_new junk0 ($"def x : a := ) f b. ] c : d. [ x. ] y"))
    = ([inr (EParseTerm ExpectedIdentOrLPar); inr (EParseCmd UnexpectedToken); inr (EParseCmd ExpectedCmd);
        inr (EParseCmd ExpectedCmd); inl c; inr (EParseCmd ExpectedCommaOrRBrk);
        inr (EParseCmd ExpectedCmd); inr ExpectedInput], true).
Proof. eexists. vm_compute. reflexivity. Qed.

(** ** C29: the strict iterator ends *)
Theorem C29_progress : forall A (scope : symb -> tctx A -> A) p r p',
  strict_next scope p = (r, p') ->
  (r = Ok None /\ st_toks p = [] /\ p' = p) \/ length (st_toks p') < length (st_toks p).
Proof. exact strict_next_progress. Qed.
Print Assumptions C29_progress.
Theorem C29_ends : forall A (scope : symb -> tctx A -> A) p,
  exists l, yields (strict_next scope) p l /\ length l <= length (st_toks p).
Proof. exact strict_yields. Qed.
Print Assumptions C29_ends.

Example C29_example :
  yields (strict_next scope_symb) (strict_new junk0 sample_text) (map inl sample_cmds) /\ length sample_cmds = 7.
Proof. split; [|reflexivity]. apply collect_yields with (n := 20). vm_compute. reflexivity. Qed.

(** ** C30: the lazy iterator ends

    This does not hold: if the input ends within a command or comment, the iterator returns the same
    error over and over.  What holds is that after finitely many results, it either ends or does that. *)
Theorem C30_ends_refuted : exists lines, forall A (scope : symb -> tctx A -> A) junk l,
  ~ yields (lazy_next scope junk) (lazy_new lines) l.
Proof.
  exists [$"a"]. intros A scope junk l (p & H & He).
  inversion H as [s0 E0|s0 i s1 l1 s2 H1 H2 E0|s0 e s1 l1 s2 H1 H2 E0]; subst.
  - vm_compute in He. discriminate.
  - vm_compute in H1. discriminate.
  - vm_compute in H1. injection H1 as <- <-. revert He H2. intros He H2.
    eapply (never_yields (lazy_next scope junk)); [|exists p; split; [exact H2|exact He]]. vm_compute. reflexivity.
Qed.
Print Assumptions C30_ends_refuted.
Theorem C30_partial : forall A (scope : symb -> tctx A -> A) junk lines,
  (exists l, yields (lazy_next scope junk) (lazy_new lines) l)
  \/ (exists l p, reaches (lazy_next scope junk) (lazy_new lines) l p /\
                  lazy_next scope junk p = (Err ExpectedInput, p)).
Proof. intros A scope junk. exact (lazy_ends_or_repeats A scope junk). Qed.
Print Assumptions C30_partial.

Example C30_example :
  yields (lazy_next scope_symb junk0) (lazy_new sample_lines) (map inl sample_cmds).
Proof. apply collect_yields with (n := 20). vm_compute. reflexivity. Qed.

(** ** C31: scoping while parsing is the same as scoping afterwards

    Up to the first error, the parser that resolves names returns what the parser that does not
    resolve names returns, with names resolved as specified by [scope_command].  Both return the
    same first error or both end. *)
Theorem C31_strict : forall toks l r,
  outcome (strict_next scope_symb) (MkStrict toks tctx_default) l r ->
  outcome (strict_next scope_atom) (MkStrict toks tctx_default) (map scope_command l) r.
Proof. exact main_scoping_strict. Qed.
Print Assumptions C31_strict.
Theorem C31_lazy : forall junk lines l r,
  outcome (lazy_next scope_symb junk) (lazy_new lines) l r ->
  outcome (lazy_next scope_atom junk) (lazy_new lines) (map scope_command l) r.
Proof. exact main_scoping_lazy. Qed.
Print Assumptions C31_lazy.
(** After an error, the names bound in the failed command are still in scope. *)
Theorem C31_after_error_refuted : exists s, forall junk,
  exists l, yields (strict_next scope_symb) (strict_new junk s) l /\
    ~ yields (strict_next scope_atom) (strict_new junk s)
        (map (fun i => match i with inl c => inl (scope_command c) | inr e => inr e end) l).
Proof.
  exists ($"f (x : a) b. g : x."). intros junk. eexists. split.
  - apply collect_yields with (n := 9). vm_compute. reflexivity.
  - intros H. eassert (H' : yields (strict_next scope_atom) (strict_new junk ($"f (x : a) b. g : x.")) _)
      by (apply collect_yields with (n := 9); vm_compute; reflexivity).
    apply (yields_det _ _ _ H') in H. vm_compute in H. discriminate.
Qed.
Print Assumptions C31_after_error_refuted.

Example C31_example :
  outcome (strict_next scope_symb) (strict_new junk0 sample_text) sample_cmds None /\
  outcome (strict_next scope_atom) (strict_new junk0 sample_text) sample_scoped None /\
  nth_error sample_scoped 5 =
    Some (PIntro ($"twice") [($"f", PTm (HProd None (PTm (HAtom (AConst (symb_new ($"nat")))) []) (PTm (HAtom (AConst (symb_new ($"nat")))) [])) [])]
      (IDefinition None (Some (PTm (HAbst ($"x") (Some (PTm (HAtom (AConst (symb_new ($"nat")))) []))
        (PTm (HAtom (AVar 1)) [PTm (HAtom (AVar 1)) [PTm (HAtom (AVar 0)) []]])) [])))).
Proof.
  split; [apply first_error_outcome with (n := 20); vm_compute; reflexivity|].
  split; [apply first_error_outcome with (n := 20); vm_compute; reflexivity|]. vm_compute. reflexivity.
Qed.

(** ** C32: the parser accepts exactly the grammar

    [TComment 0] is not a token of any text. *)
Theorem C32_command : forall toks c rest, ~ In (TComment 0) toks ->
  (exists ctx, strict_next scope_symb (MkStrict toks tctx_default) = (Ok (Some c), MkStrict rest ctx))
  <-> (exists ps ts, toks = ps ++ ts ++ rest /\ gpragmas ps /\ gcommand ts c).
Proof. exact main_grammar. Qed.
Print Assumptions C32_command.
Theorem C32_file : forall junk s cs,
  yields (strict_next scope_symb) (strict_new junk s) (map inl cs) <-> gfile (lex junk s) cs.
Proof. intros junk s cs. exact (main_grammar_file cs (lex junk s) (lex_no_comment0 junk s)). Qed.
Print Assumptions C32_file.

Example C32_example : gfile (lex junk0 sample_text) sample_cmds.
Proof. apply C32_file. apply collect_yields with (n := 20). vm_compute. reflexivity. Qed.
(** precedences: application binds tighter than arrows, arrows associate to the right *)
Example C32_precedence :
  let x := symb_new ($"x") in let y := symb_new ($"y") in let z := symb_new ($"z") in
  gterm [TSymb x; TSymb y; TArrow; TSymb y; TArrow; TSymb z]
    (PTm (HProd None (PTm (HAtom x) [PTm (HAtom y) []]) (PTm (HProd None (PTm (HAtom y) []) (PTm (HAtom z) [])) [])) []).
Proof.
  intros x y z. apply (g_prod [TSymb x; TSymb y] _ [TSymb y; TArrow; TSymb z]).
  - apply (ga_more [TSymb x] (PTm (HAtom x) []) [TSymb y] (PTm (HAtom y) [])); [apply ga_one; apply gat_symb|apply gat_symb].
  - apply (g_prod [TSymb y] _ [TSymb z]); [apply ga_one; apply gat_symb|apply g_app; apply ga_one; apply gat_symb].
Qed.

(** ** C33: displayed commands can be parsed again *)
Theorem C33_command : forall junk c, good_command c ->
  yields (strict_next scope_symb) (strict_new junk (cmd_show (term_show symb_show) c ++ $".")) [inl c].
Proof. exact main_print. Qed.
Print Assumptions C33_command.
Theorem C33_parsed : forall junk s l r c,
  outcome (strict_next scope_symb) (strict_new junk s) l r -> In c l ->
  yields (strict_next scope_symb) (strict_new junk (cmd_show (term_show symb_show) c ++ $".")) [inl c].
Proof. exact main_print_parsed. Qed.
Print Assumptions C33_parsed.

Example C33_example : forall c, In c sample_cmds ->
  yields (strict_next scope_symb) (strict_new junk0 (cmd_show (term_show symb_show) c ++ $".")) [inl c].
Proof.
  intros c. apply (C33_parsed junk0 sample_text sample_cmds None).
  apply first_error_outcome with (n := 20). vm_compute. reflexivity.
Qed.
Example C33_shown : map (cmd_show (term_show symb_show)) (skipn 4 sample_cmds) =
  [$"[n] (plus zero n) --> n[m, n: nat] (plus (succ m) n) --> (succ (plus m n))";
   $"def twice (f : (nat -> nat)) := (x : nat => (f (f x)))";
   $"thm t : (eq.of {|the one|} (plus zero zero) zero) := (eq.refl nat zero)"].
Proof. vm_compute. reflexivity. Qed.

(** ** C34: parsing line by line

    In general, this does not yield the same as parsing the whole text (see the refutations below).
    If no name extends over several lines and no character is unrecognised, then the parser for lines
    returns the same commands without error, if the parser for texts does; and if the latter fails,
    then the former returns the same error, possibly before some of the commands.
    If the input ends prematurely, the parser for lines may not fail (after a pragma). *)
Theorem C34_partial : forall A (scope : symb -> tctx A -> A) junk text lines,
  splits text lines -> line_wise (lex junk text) ->
  forall l r, outcome (strict_next scope) (strict_new junk text) l r ->
    match r with
    | None => outcome (lazy_next scope junk) (lazy_new lines) l None
    | Some ExpectedInput =>
        outcome (lazy_next scope junk) (lazy_new lines) l None \/
        outcome (lazy_next scope junk) (lazy_new lines) l (Some ExpectedInput)
    | Some e => exists l1 l2, l = l1 ++ l2 /\ outcome (lazy_next scope junk) (lazy_new lines) l1 (Some e)
    end.
Proof. intros A scope junk. exact (main_lines junk A scope). Qed.
Print Assumptions C34_partial.
Theorem C34_back_partial : forall A (scope : symb -> tctx A -> A) junk text lines,
  splits text lines -> line_wise (lex junk text) ->
  forall l, outcome (lazy_next scope junk) (lazy_new lines) l None ->
    outcome (strict_next scope) (strict_new junk text) l None \/
    outcome (strict_next scope) (strict_new junk text) l (Some ExpectedInput).
Proof. intros A scope junk. exact (main_lines_back junk A scope). Qed.
Print Assumptions C34_back_partial.

(** a name over two lines *)
Theorem C34_name_refuted : exists text lines l, splits text lines /\ forall junk,
  outcome (strict_next scope_symb) (strict_new junk text) l None /\
  ~ outcome (lazy_next scope_symb junk) (lazy_new lines) l None.
Proof.
  exists ($"a : {|x" ++ nl ++ $"y|}."), [$"a : {|x"; $"y|}."]. eexists. split.
  - apply (splits_cons ($"a : {|x") ($"y|}.")); [cbn; intuition discriminate|]. apply splits_last. cbn. intuition discriminate.
  - intros junk. split; [apply first_error_outcome with (n := 9); vm_compute; reflexivity|].
    intros H. inversion H as [s0 H1|s0 e H1|s0 i s1 l1 r1 H1 H2]; vm_compute in H1; discriminate.
Qed.
Print Assumptions C34_name_refuted.
(** input that ends with a pragma *)
Theorem C34_pragma_refuted : exists text lines l, splits text lines /\ forall junk,
  outcome (lazy_next scope_symb junk) (lazy_new lines) l None /\
  ~ outcome (strict_next scope_symb) (strict_new junk text) l None.
Proof.
  exists ($"a : b. #PRAGMA."), [$"a : b. #PRAGMA."]. eexists. split.
  - apply splits_last. cbn. intuition discriminate.
  - intros junk. split; [apply first_error_outcome with (n := 9); vm_compute; reflexivity|].
    intros H. eassert (H' : outcome (strict_next scope_symb) (strict_new junk ($"a : b. #PRAGMA.")) _ _)
      by (apply first_error_outcome with (n := 9); vm_compute; reflexivity).
    destruct (outcome_det _ _ _ _ H' _ _ H) as [_ E]. discriminate.
Qed.
Print Assumptions C34_pragma_refuted.
(** after an error in a line, the commands that precede the error in this line come in reverse order *)
Theorem C34_order_refuted : exists text c1 c2 e, c1 <> c2 /\ splits text [text] /\ forall junk,
  yields (strict_next scope_symb) (strict_new junk text) [inl c1; inl c2; inr e] /\
  yields (lazy_next scope_symb junk) (lazy_new [text]) [inr e; inl c2; inl c1].
Proof.
  exists ($"a : b. c : d. )"). do 3 eexists. split; [|split; [|intros junk; split]].
  4: apply collect_yields with (n := 9); vm_compute; reflexivity.
  3: apply collect_yields with (n := 9); vm_compute; reflexivity.
  - discriminate.
  - apply splits_last. cbn. intuition discriminate.
Qed.
Print Assumptions C34_order_refuted.

Example C34_example :
  splits sample_text sample_lines /\ line_wise (lex junk0 sample_text) /\
  outcome (strict_next scope_symb) (strict_new junk0 sample_text) sample_cmds None /\
  outcome (lazy_next scope_symb junk0) (lazy_new sample_lines) sample_cmds None.
Proof.
  split.
  { unfold sample_text, sample_lines, nl. repeat rewrite <- app_assoc. cbn [app].
    repeat (apply splits_cons with (l := list_ascii_of_string _); [cbn; intuition discriminate|]). apply splits_nil. }
  split.
  { intros t Ht. vm_compute in Ht. repeat (destruct Ht as [<-|Ht]; [split; [discriminate|intros s E; try discriminate; injection E as <-;
      intros p Hp; cbn in Hp; repeat (destruct Hp as [<-|Hp]; [cbn; intuition discriminate|]); destruct Hp]|]). destruct Ht. }
  split; apply first_error_outcome with (n := 20); vm_compute; reflexivity.
Qed.

(** ** C35: interruptions do not matter *)
Theorem C35_chunks : forall A (scope : symb -> tctx A -> A) ctx buf open chunks,
  feed_chunks scope pstate_default ctx buf open chunks = feed_line scope pstate_default ctx buf open (concat chunks).
Proof. intros A scope ctx buf open chunks. exact (feed_chunks_concat A scope chunks pstate_default ctx buf open (ok_default A)). Qed.
Print Assumptions C35_chunks.

Example C35_example :
  let toks := lex junk0 sample_text in
  let chunks := map (fun t => [t]) toks in
  length chunks = 93 /\
  snd (feed_chunks scope_symb pstate_default tctx_default [] 0 chunks) = rev sample_cmds.
Proof. vm_compute. auto. Qed.

(** ** C36: comments *)

(** after the opening of a comment, there is a balanced text and the end of the comment, or the comment remains open *)
Theorem C36_cases : forall t,
  (exists b s, balanced (Some ";"%char) b /\ t = b ++ $";)" ++ s) \/ (exists k, unclosed k t).
Proof. exact main_comment_cases. Qed.
Print Assumptions C36_cases.
Theorem C36_balanced : forall junk b s, balanced (Some ";"%char) b ->
  lex junk ($"(;" ++ b ++ $";)" ++ s) = lex junk s.
Proof. exact main_comment_balanced. Qed.
Print Assumptions C36_balanced.
Theorem C36_unclosed : forall junk n t, unclosed n t -> lex junk ($"(;" ++ t) = [TComment n].
Proof. exact main_comment_unclosed. Qed.
Print Assumptions C36_unclosed.

Example C36_example :
  balanced (Some ";"%char) ($"a (;b;) ( ;") /\ unclosed 2 ($"a (; (;b;) c") /\
  lex junk0 ($"(;a (;b;) ( ;;)d") = [TSymb (symb_new ($"d"))] /\ lex junk0 ($"(;a (; (;b;) c") = [TComment 2].
Proof.
  split; [|split; [|vm_compute; auto]].
  - apply bal_char; [discriminate|discriminate|]. apply bal_char; [discriminate|discriminate|].
    apply (bal_comment _ ($"b") ($" ( ;")).
    + apply bal_char; [discriminate|discriminate|]. apply bal_nil.
    + apply bal_char; [discriminate|discriminate|]. apply bal_par; [discriminate|].
      apply bal_char; [discriminate|discriminate|]. apply bal_semi; [discriminate|]. apply bal_nil.
  - apply (unclosed_more 1 ($"a ") ($" (;b;) c")).
    + apply bal_char; [discriminate|discriminate|]. apply bal_char; [discriminate|discriminate|]. apply bal_nil.
    + apply unclosed_one. apply bal_char; [discriminate|discriminate|]. apply (bal_comment _ ($"b") ($" c")).
      * apply bal_char; [discriminate|discriminate|]. apply bal_nil.
      * apply bal_char; [discriminate|discriminate|]. apply bal_char; [discriminate|discriminate|]. apply bal_nil.
Qed.

(** ** C37: printed tokens are lexed to the same tokens

    for texts without unrecognised characters and unclosed comments *)
Theorem C37_roundtrip : forall junk s, (forall t, In t (lex junk s) -> t <> TError /\ forall n, t <> TComment n) ->
  exists out, print_tokens (lex junk s) = Ok out /\ lex junk out = lex junk s /\ print_tokens (lex junk out) = Ok out.
Proof.
  intros junk s H. destruct (main_fmt_total junk s H) as [out E]. exists out. split; [exact E|]. exact (main_fmt junk s out H E).
Qed.
Print Assumptions C37_roundtrip.
(** An unclosed comment is lost, and a space remains. *)
Theorem C37_unclosed_comment_refuted : exists s out, forall junk,
  ~ In TError (lex junk s) /\ print_tokens (lex junk s) = Ok out /\ lex junk out <> lex junk s /\
  print_tokens (lex junk out) <> Ok out.
Proof.
  exists ($"a (; b"). eexists. intros junk. split; [|split; [vm_compute; reflexivity|split]].
  - vm_compute. intuition discriminate.
  - vm_compute. discriminate.
  - vm_compute. discriminate.
Qed.
Print Assumptions C37_unclosed_comment_refuted.

Example C37_example : print_tokens (lex junk0 ($"def  twice( f:nat->nat ) :=x:nat=>f (f x) .(;c;) [x,y]a.b x-->y.")) =
  Ok ($"def twice (f : nat -> nat) := x : nat => f (f x)." ++ nl ++ $"[x, y] a.b x --> y." ++ nl).
Proof. vm_compute. reflexivity. Qed.

(** ** C38: output of kofmt --parse

    It does not contain the final dots of commands, hence it can in general not be parsed again.
    If the dots (and ends of lines) are added, the same commands are parsed. *)
Theorem C38_no_dots_refuted : exists s c1 c2, forall junk,
  yields (strict_next scope_symb) (strict_new junk s) [inl c1; inl c2] /\
  ~ yields (strict_next scope_symb) (strict_new junk (print_cmds (term_show symb_show) [c1; c2])) [inl c1; inl c2].
Proof.
  exists ($"a : b. c : d."). do 2 eexists. intros junk. split; [apply collect_yields with (n := 9); vm_compute; reflexivity|].
  intros (p & H & _). inversion H as [s0 E0|s0 i s1 l1 s2 H1 H2 E0|s0 e s1 l1 s2 H1 H2 E0]; vm_compute in H1; discriminate.
Qed.
Print Assumptions C38_no_dots_refuted.
Theorem C38_dots_partial : forall junk s cs,
  yields (strict_next scope_symb) (strict_new junk s) (map inl cs) ->
  yields (strict_next scope_symb) (strict_new junk (dotted_lines cs)) (map inl cs).
Proof. exact main_print_file. Qed.
Print Assumptions C38_dots_partial.

Example C38_example :
  dotted_lines (firstn 3 sample_cmds) = $"nat : Type." ++ nl ++ $"zero : nat." ++ nl ++ $"injective succ : (nat -> nat)." ++ nl /\
  yields (strict_next scope_symb) (strict_new junk0 (dotted_lines sample_cmds)) (map inl sample_cmds).
Proof.
  split; [vm_compute; reflexivity|]. apply (C38_dots_partial junk0 sample_text). apply collect_yields with (n := 20).
  vm_compute. reflexivity.
Qed.
