(** * Property C81: accepted theorems hold in all models of the assumptions

    Types are read as propositions: a product is an implication, and a symbol with arguments is a propositional variable
    (the arguments are ignored).  Models are Kripke models of intuitionistic logic. *)

From Verif Require Import Base ModelTerm ModelGctx ModelCommand ModelSubst ModelInfer ModelSyntax ModelLex ModelParse ModelProcess ModelMain
  SpecTerm SpecConv SpecRed SpecType SpecProcess SpecDomain SpecDef SpecProgram SpecRec SpecInd SpecWhole SpecWholeRec SpecSem
  Samples SamplesProcess SamplesParse SamplesProgram SamplesWholeRec MainVerify MainProgram MainRec MainSem SamplesSem.

(** If kocheck accepts a program without rewrite rules, then the theorems (and the types of definitions) hold in all
    models in which the declared types hold, and in which symbols are equivalent with their definitions. *)
Theorem C81_sound : forall junk O n eta jobs channel inputs srcs vs W le v, Forall2 (source_of junk) inputs srcs -> without_rules srcs -> elaborates srcs vs ->
  kocheck junk (real_kernel O n) (Opts eta None jobs) channel inputs (Ok tt) ->
  kripke W le v -> Forall (models W le v) vs -> forall cmd A, In cmd vs -> proves cmd A -> valid W le v A.
Proof. exact main_sem_sound. Qed.
Print Assumptions C81_sound.
(** The same with rewrite rules, for the programs of C69, in models in which both sides of rules are equivalent *)
Theorem C81_rules : forall junk O n jobs channel inputs srcs vs W le v, Forall2 (source_of junk) inputs srcs -> sources_in recursive_sig srcs -> elaborates srcs vs ->
  kocheck junk (real_kernel O n) (Opts false None jobs) channel inputs (Ok tt) ->
  kripke W le v -> Forall (models W le v) vs -> forall cmd A, In cmd vs -> proves cmd A -> valid W le v A.
Proof. exact (main_sem_rec recursive_sig recursive_class). Qed.
Print Assumptions C81_rules.
(** The same for koweb *)
Theorem C81_web : forall junk O eta modules srcs vs W le v, Forall2 (web_source junk) modules srcs -> without_rules srcs -> elaborates srcs vs ->
  kripke W le v -> Forall (models W le v) vs ->
  exists n0, forall n, n0 <= n -> web_check junk (real_kernel O n) (Opts eta None false) modules (Ok tt) -> forall cmd A, In cmd vs -> proves cmd A -> valid W le v A.
Proof. exact main_sem_web. Qed.
Print Assumptions C81_web.
(** On the level of signatures *)
Theorem C81_typing : forall sg W le v, definitional sg -> kripke W le v ->
  (forall c A, sg_type sg c = Some A -> valid W le v A) -> (forall c r, rule_of sg c r -> forall w, v c w <-> holds W le v (sr_rhs r) w) ->
  forall t A s, well_typed sg [] t (strip A) -> s = Typ \/ s = Kind -> well_typed sg [] (strip A) s -> valid W le v A.
Proof. exact main_sem_definitional. Qed.
Print Assumptions C81_typing.

(** The definitions of an accepted program can be satisfied, whatever its other symbols mean. *)
Theorem C81_extends : forall junk O n eta jobs channel inputs srcs vs W le v, Forall2 (source_of junk) inputs srcs -> without_rules srcs -> elaborates srcs vs ->
  kocheck junk (real_kernel O n) (Opts eta None jobs) channel inputs (Ok tt) -> kripke W le v ->
  exists v', kripke W le v' /\ (forall c, (forall cmd, In cmd vs -> ~ defines cmd c) -> forall w, v' c w <-> v c w) /\
    forall cmd c, In cmd vs -> defines cmd c -> models W le v' cmd.
Proof. exact main_sem_extends_run. Qed.
Print Assumptions C81_extends.

(** Consistency: a symbol that is not at the end of any declared type has no inhabitants.  (Other declared types may
    only end in symbols that are not defined.) *)
Theorem C81_consistent : forall junk O n eta jobs channel inputs srcs vs c, Forall2 (source_of junk) inputs srcs -> without_rules srcs -> elaborates srcs vs ->
  kocheck junk (real_kernel O n) (Opts eta None jobs) channel inputs (Ok tt) ->
  (forall cmd, In cmd vs -> ~ defines cmd c) ->
  (forall cmd d A e, In cmd vs -> assumes cmd d A -> tip A = Some e -> e <> c /\ forall cmd', In cmd' vs -> ~ defines cmd' e) ->
  forall cmd A, In cmd vs -> proves cmd A -> head A <> Const c.
Proof. exact main_sem_consistent. Qed.
Print Assumptions C81_consistent.
(** The same with rewrite rules; here definitions and rules also have to avoid the symbol. *)
Theorem C81_avoids : forall junk O n jobs channel inputs srcs vs c, Forall2 (source_of junk) inputs srcs -> sources_in recursive_sig srcs -> elaborates srcs vs ->
  kocheck junk (real_kernel O n) (Opts false None jobs) channel inputs (Ok tt) -> Forall (avoids c) vs ->
  forall cmd A, In cmd vs -> proves cmd A -> head A <> Const c.
Proof. exact (main_sem_avoids recursive_sig recursive_class). Qed.
Print Assumptions C81_avoids.
(** Kocheck is not classical: if only types are declared, no accepted program proves Peirce's law. *)
Theorem C81_peirce : forall junk O n eta jobs channel inputs srcs vs a b, Forall2 (source_of junk) inputs srcs -> without_rules srcs -> elaborates srcs vs ->
  kocheck junk (real_kernel O n) (Opts eta None jobs) channel inputs (Ok tt) ->
  (forall cmd d A, In cmd vs -> assumes cmd d A -> A = Typ) -> a <> b ->
  (forall cmd, In cmd vs -> ~ defines cmd a /\ ~ defines cmd b) ->
  forall cmd, In cmd vs -> ~ proves cmd (peirce a b).
Proof. exact main_sem_peirce. Qed.
Print Assumptions C81_peirce.

(** It does not hold for arbitrary rules: those with jokers or with variables without types are not checked, and
    make kocheck accept a proof of a type that is empty in a model. *)
Theorem C81_unchecked_refuted : exists junk O n inputs srcs vs W le v, Forall2 (source_of junk) inputs srcs /\ elaborates srcs vs /\
  kocheck junk (real_kernel O n) (Opts false None false) false inputs (Ok tt) /\ kripke W le v /\ Forall (models W le v) vs /\
  exists cmd A, In cmd vs /\ proves cmd A /\ ~ valid W le v A.
Proof. exact unchecked_refuted. Qed.
Print Assumptions C81_unchecked_refuted.

(** a program with an empty type [bot], and negation defined by it: [bot] is not proved, but implications that end in it are *)
Example C81_example : exists srcs, Forall2 (source_of junk0) [eq_source] srcs /\ without_rules srcs /\ elaborates srcs eq_vs /\
  kocheck junk0 sample_kernel (Opts false None false) false [eq_source] (Ok tt) /\
  (forall cmd, In cmd eq_vs -> ~ defines cmd 3) /\
  (forall cmd d A e, In cmd eq_vs -> assumes cmd d A -> tip A = Some e -> e <> 3 /\ forall cmd', In cmd' eq_vs -> ~ defines cmd' e) /\
  In (VIntro 3 (IDeclaration false Typ)) eq_vs /\ exists cmd, In cmd eq_vs /\ proves cmd (Pi (App (Const 7) (Const 1)) (Const 3)).
Proof.
  destruct eq_sem as (srcs & H1 & H2 & H3). exists srcs. repeat (split; [assumption|]). split; [exact eq_kocheck|]. split; [exact eq_not_defined|]. split; [exact eq_assumes|].
  split; [cbn; tauto|]. eexists. split; [do 9 right; left; reflexivity|constructor].
Qed.
(** Peirce's law cannot be proved; a weaker statement can *)
Example C81_example_imp : exists srcs, Forall2 (source_of junk0) [imp_source] srcs /\ without_rules srcs /\ elaborates srcs imp_vs /\
  kocheck junk0 sample_kernel (Opts false None false) false [imp_source] (Ok tt) /\
  (forall cmd d A, In cmd imp_vs -> assumes cmd d A -> A = Typ) /\ (forall cmd, In cmd imp_vs -> ~ defines cmd 0 /\ ~ defines cmd 1) /\
  exists cmd, In cmd imp_vs /\ proves cmd (Pi (Pi (Pi (Const 2) (Const 0)) (Const 1)) (Const 1)).
Proof.
  destruct imp_sem as (srcs & H1 & H2 & H3). exists srcs. repeat (split; [assumption|]). split; [exact imp_kocheck|]. split; [exact imp_assumes|]. split; [exact imp_not_defined|].
  eexists. split; [do 4 right; left; reflexivity|constructor].
Qed.
Example C81_example_wrong : kocheck junk0 sample_kernel (Opts false None false) false [classical_source] (Err (PKo (KoTyping Unconvertible))).
Proof. exact classical_kocheck. Qed.
(** arithmetic with rewrite rules, and an empty type *)
Example C81_example_rules : exists srcs, Forall2 (source_of junk0) [fun_source; bot_source] srcs /\ sources_in recursive_sig srcs /\ elaborates srcs bot_vs /\
  kocheck junk0 rec_kernel (Opts false None false) false [fun_source; bot_source] (Ok tt) /\ Forall (avoids 10) bot_vs /\ In (VIntro 10 (IDeclaration false Typ)) bot_vs.
Proof.
  destruct bot_sem as (srcs & H1 & H2 & H3). exists srcs. split; [exact H1|]. split.
  { intros s1 m c1 c c2 s2 vs sg E1 E2 E3. destruct (H2 s1 m c1 c c2 s2 vs sg E1 E2 E3) as [X Y]. split; [left; exact X|exact Y]. }
  split; [exact H3|]. split; [exact bot_kocheck|]. split; [exact bot_avoids|]. cbn. tauto.
Qed.
