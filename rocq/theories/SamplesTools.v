(** * Sample texts for the tools *)

From Verif Require Import Base ModelTerm ModelGctx ModelCommand ModelSubst ModelInfer ModelSyntax ModelLex ModelParse ModelMake ModelProcess ModelMain ModelFmt ModelTools
  SpecSyntax SpecMake SpecParse SpecProgram SpecTools Samples SamplesProcess SamplesParse SamplesProgram MainVerify MainTools SamplesWhole.

Section Unwrap.
  Context {S I E : Type}.
  Variable next : S -> res E (option I) * S.
  Fixpoint run_unwrapped (n : nat) (s : S) : option (list I) :=
    match n with
    | 0 => None
    | Datatypes.S n =>
      match next s with
      | (Ok None, _) => Some []
      | (Ok (Some c), s) => option_map (cons c) (run_unwrapped n s)
      | _ => None
      end
    end.
  Lemma run_unwrapped_ok n : forall s l, run_unwrapped n s = Some l -> unwrapped next s l.
  Proof.
    induction n as [|n IH]; intros s l; cbn [run_unwrapped]; [discriminate|].
    destruct (next s) as [[[c|]|e| |] s'] eqn:E0; intros H; try discriminate.
    - destruct (run_unwrapped n s') as [l'|] eqn:E'; [|discriminate]. injection H as <-. eapply uw_cons; eauto.
    - injection H as <-. apply uw_end. rewrite E0. reflexivity.
  Qed.
End Unwrap.
Definition run_symcount (text : str) : option (smap nat) :=
  option_map symcount (run_unwrapped (lazy_next scope_atom junk0) 20 (lazy_new (text_lines text))).
Definition run_pipeline (text : str) : option str :=
  match run_symcount text with
  | Some counts => option_map (fun cs => inline_text (inline (used_once counts) cs)) (run_unwrapped (strict_next scope_symb) 20 (strict_new junk0 text))
  | None => None
  end.
Lemma run_pipeline_ok text out : run_pipeline text = Some out -> pipeline junk0 text out.
Proof.
  unfold run_pipeline, run_symcount. destruct (run_unwrapped (lazy_next scope_atom junk0) 20 _) as [cmds|] eqn:E1; [|discriminate]. cbn [option_map].
  destruct (run_unwrapped (strict_next scope_symb) 20 _) as [cs|] eqn:E2; [|discriminate]. intros [= <-].
  exists (symcount cmds). split; [exists cmds; split; [|reflexivity]|exists cs; split; [|reflexivity]]; eapply run_unwrapped_ok; eassumption.
Qed.

Definition once_text : str := $"A : Type. a : A. f : A -> A." ++ nl ++ $"def b : A := f a. def c := f b. thm d : A := c.".
(** [b] and [c] are used once. *)
Definition once_out : str := $"A : Type." ++ nl ++ $"a : A." ++ nl ++ $"f : (A -> A)." ++ nl ++ $"thm d : A := (f (f a))." ++ nl.
(** [c] is used once, and in a rule. *)
Definition rule_text : str := $"A : Type. a : A. def f : A -> A. def c : A := a. thm d : A := c. [] f a --> c.".
Definition rule_out : str := $"A : Type." ++ nl ++ $"a : A." ++ nl ++ $"def f : (A -> A)." ++ nl ++ $"thm d : A := a." ++ nl ++ $"[] (f a) --> c." ++ nl.
(** The type of [f] gives the type of its parameter. *)
Definition annotation_text : str := $"A : Type. a : A. def f : A -> A := x => x. def b := f a.".
Definition annotation_out : str := $"A : Type." ++ nl ++ $"a : A." ++ nl ++ $"def b := ((x => x) a)." ++ nl.
(** [x] is both defined and bound. *)
Definition bound_text : str := $"A : Type. a : A. def x : A := a. thm id : A -> A := x : A => x. thm z : A := x.".
Definition bound_out : str := $"A : Type." ++ nl ++ $"a : A." ++ nl ++ $"thm id : (A -> A) := (x : A => a)." ++ nl ++ $"thm z : A := x." ++ nl.
(** The type of [x] is wrong. *)
Definition untypable_text : str := $"A : Type. B : Type. a : A. def x : B := a. thm z : A := x.".
Definition untypable_out : str := $"A : Type." ++ nl ++ $"B : Type." ++ nl ++ $"a : A." ++ nl ++ $"thm z : A := a." ++ nl.
(** [a] is used in a rule only. *)
Definition zero_text : str := $"A : Type. a : A. def f : A -> A. [x] f x --> a.".
(** [A] is used with the name of its own module. *)
Definition own_text : str := $"A : Type. a : m.A.".

Definition checks_to (text : str) (r : res (perr parse_error) unit) : Prop :=
  kocheck junk0 sample_kernel (Opts false None false) false [($"m.dk", Some text)] r.
Ltac checks_ok := eexists; (split; [whole_opens|]); (eapply run_ok; [unfold infer_checks; cbn [o_jobs]; eexists; vm_compute; reflexivity|]); constructor.
Ltac checks_err := eexists; eexists; (split; [whole_opens|]); eapply run_err; [unfold infer_checks; cbn [o_jobs]; eexists; vm_compute; reflexivity|]; reflexivity.
Lemma once_ok : checks_to once_text (Ok tt). Proof. checks_ok. Qed.
Lemma once_out_ok : checks_to once_out (Ok tt). Proof. checks_ok. Qed.
Lemma rule_ok : checks_to rule_text (Ok tt). Proof. checks_ok. Qed.
Lemma rule_out_err : exists e, checks_to rule_out (Err e). Proof. checks_err. Qed.
Lemma annotation_ok : checks_to annotation_text (Ok tt). Proof. checks_ok. Qed.
Lemma annotation_out_err : exists e, checks_to annotation_out (Err e). Proof. checks_err. Qed.
Lemma bound_ok : checks_to bound_text (Ok tt). Proof. checks_ok. Qed.
Lemma bound_out_err : exists e, checks_to bound_out (Err e). Proof. checks_err. Qed.
Lemma untypable_err : exists e, checks_to untypable_text (Err e). Proof. checks_err. Qed.
Lemma untypable_out_ok : checks_to untypable_out (Ok tt). Proof. checks_ok. Qed.
Lemma zero_ok : checks_to zero_text (Ok tt). Proof. checks_ok. Qed.
Lemma own_ok : checks_to own_text (Ok tt). Proof. checks_ok. Qed.

Lemma line_wise_ok text : forallb (fun t => match t with TError => false
  | TSymb s => forallb (fun p => negb (existsb (Ascii.eqb newline) p)) (sy_path s ++ [sy_name s]) | _ => true end) (lex junk0 text) = true ->
  line_wise (lex junk0 text).
Proof.
  intros H t Ht. rewrite forallb_forall in H. specialize (H t Ht). split; [intros ->; discriminate|]. intros s -> p Hp Hi.
  rewrite forallb_forall in H. specialize (H p Hp). apply Bool.negb_true_iff in H.
  assert (existsb (Ascii.eqb newline) p = true) by (apply existsb_exists; exists newline; auto). congruence.
Qed.
Lemma parsed_ok text cs : run_unwrapped (strict_next scope_symb) 20 (strict_new junk0 text) = Some cs -> gfile (lex junk0 text) cs.
Proof.
  intros H. apply run_unwrapped_ok in H.
  apply unwrapped_outcome, MainProgram.outcome_yields in H. apply ParseCmd.main_grammar_file; [apply ParsePrint.lex_no_comment0|exact H].
Qed.
Definition once_cmds : list (pcommand (pterm symb)) := match run_unwrapped (strict_next scope_symb) 20 (strict_new junk0 once_text) with Some cs => cs | None => [] end.
Lemma once_hyps : ~ In CR once_text /\ line_wise (lex junk0 once_text) /\ gfile (lex junk0 once_text) once_cmds /\ (exists vs, elaborates [([$"m"], once_cmds)] vs) /\
  (forall c x, In c once_cmds -> introduces c x -> x <> $"Type" /\ forall c', In c' once_cmds -> ~ In x (cmd_bound c')).
Proof.
  assert (H1 : ~ In CR once_text) by (vm_compute; intuition discriminate).
  assert (H2 : line_wise (lex junk0 once_text)) by (apply line_wise_ok; vm_compute; reflexivity).
  assert (H3 : gfile (lex junk0 once_text) once_cmds) by (apply parsed_ok; vm_compute; reflexivity).
  split; [exact H1|]. split; [exact H2|]. split; [exact H3|]. split.
  - exact (accepted_elaborates junk0 _ _ ($"m.dk") once_text [$"m"] once_cmds H1 H2 H3 eq_refl once_ok).
  - intros c x Hc (args & it & E). split.
    + vm_compute in Hc. repeat (destruct Hc as [<-|Hc]; [injection E as <- _ _; discriminate|]). contradiction.
    + intros c' Hc'. replace (cmd_bound c') with (@nil str); [intros []|].
      vm_compute in Hc'. repeat (destruct Hc' as [<-|Hc']; [reflexivity|]). contradiction.
Qed.
Definition zero_cmds : list scoped := match run_unwrapped (lazy_next scope_atom junk0) 20 (lazy_new (text_lines zero_text)) with Some cs => cs | None => [] end.
