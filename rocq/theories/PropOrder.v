(** * Property C83: the order of introductions

    Introductions that follow each other may be exchanged if the second one does not refer to the first one. *)

From Verif Require Import Base ModelTerm ModelGctx ModelCommand ModelSubst ModelInfer ModelSyntax ModelParse ModelMake ModelProcess ModelMain SpecTerm SpecConv SpecProcess SpecProgram SpecWhole SpecEmbed SpecOrder
  Samples SamplesProcess SamplesParse SamplesProgram SamplesEmbed SamplesOrder MainOrderProg.

(** If kocheck accepts a program, then it does not reject the program in the other order. *)
Theorem C83_exchanged : forall junk junk' O1 O2 n1 n2 eta jobs channel inputs inputs' srcs srcs' vs vs' r,
  Forall2 (source_of junk) inputs srcs -> Forall2 (source_of junk') inputs' srcs' -> elaborates srcs vs -> elaborates srcs' vs' -> exchanged vs vs' ->
  kocheck junk (real_kernel O2 n2) (Opts eta None jobs) channel inputs (Ok tt) ->
  kocheck junk' (real_kernel O1 n1) (Opts eta None false) false inputs' r -> r = Ok tt \/ r = Fuel.
Proof. exact main_order. Qed.
Print Assumptions C83_exchanged.
(** Without rewrite rules, kocheck accepts it. *)
Theorem C83_simple : forall junk junk' O1 O2 n2 eta jobs jobs' channel channel' inputs inputs' srcs srcs' vs vs',
  Forall2 (source_of junk) inputs srcs -> Forall2 (source_of junk') inputs' srcs' -> elaborates srcs vs -> elaborates srcs' vs' -> exchanged vs vs' -> without_rules srcs' ->
  kocheck junk (real_kernel O2 n2) (Opts eta None jobs) channel inputs (Ok tt) ->
  exists n0, forall n, n0 <= n -> kocheck junk' (real_kernel O1 n) (Opts eta None jobs') channel' inputs' (Ok tt).
Proof. exact main_order_simple. Qed.
Print Assumptions C83_simple.
(** koweb *)
Theorem C83_web : forall junk junk' O1 O2 n1 n2 eta modules modules' srcs srcs' vs vs' r,
  Forall2 (web_source junk) modules srcs -> Forall2 (web_source junk') modules' srcs' -> elaborates srcs vs -> elaborates srcs' vs' -> exchanged vs vs' ->
  web_check junk (real_kernel O2 n2) (Opts eta None false) modules (Ok tt) ->
  web_check junk' (real_kernel O1 n1) (Opts eta None false) modules' r -> r = Ok tt \/ r = Fuel.
Proof. exact main_order_web. Qed.
Print Assumptions C83_web.

(** A command with rules may not be moved behind an introduction that does not mention the symbols of its left-hand sides: here, symbol 2 ... *)
Theorem C83_rules_refuted : exists A rs d jt B srcs srcs',
  Forall2 (source_of junk0) [need_source] srcs /\ elaborates srcs (A ++ VRules rs :: VIntro d jt :: B) /\
  Forall2 (source_of junk0) [early_source] srcs' /\ elaborates srcs' (A ++ VIntro d jt :: VRules rs :: B) /\
  (forall r, In r rs -> v_head r = 2) /\ ~ occurs_intro 2 jt /\
  kocheck junk0 sample_kernel (Opts false None false) false [need_source] (Ok tt) /\
  kocheck junk0 sample_kernel (Opts false None false) false [early_source] (Err (PKo (KoTyping Unconvertible))).
Proof.
  destruct need_elaborates as (srcs & H1 & H2), early_elaborates as (srcs' & H3 & H4). exists (firstn 5 need_vs). eexists. eexists. eexists. exists [], srcs, srcs'.
  split; [exact H1|]. split; [exact H2|]. split; [exact H3|]. split; [exact H4|]. split; [intros r [<-|[]]; reflexivity|]. split; [cbn; lia|]. split; [exact need_kocheck|exact early_kocheck].
Qed.
Print Assumptions C83_rules_refuted.
(** ... nor before it: here, symbol 3. *)
Theorem C83_before_refuted : exists A rs d jt B srcs srcs',
  Forall2 (source_of junk0) [before_source] srcs /\ elaborates srcs (A ++ VIntro d jt :: VRules rs :: B) /\
  Forall2 (source_of junk0) [after_source] srcs' /\ elaborates srcs' (A ++ VRules rs :: VIntro d jt :: B) /\
  (forall r, In r rs -> v_head r = 3) /\ ~ occurs_intro 3 jt /\
  kocheck junk0 sample_kernel (Opts false None false) false [before_source] (Ok tt) /\
  kocheck junk0 sample_kernel (Opts false None false) false [after_source] (Err (PKo (KoTyping Unconvertible))).
Proof.
  destruct before_elaborates as (srcs & H1 & H2), after_elaborates as (srcs' & H3 & H4). exists (firstn 8 before_vs). eexists. eexists. eexists. exists [], srcs, srcs'.
  split; [exact H1|]. split; [exact H2|]. split; [exact H3|]. split; [exact H4|]. split; [intros r [<-|[]]; reflexivity|]. split; [cbn; lia|]. split; [exact before_kocheck|exact after_kocheck].
Qed.
Print Assumptions C83_before_refuted.

(** The introductions of two constructors of the natural numbers are exchanged, before rules and a proof about them. *)
Example C83_example : exists srcs srcs', Forall2 (source_of junk0) [order1_source] srcs /\ Forall2 (source_of junk0) [order2_source] srcs' /\
  elaborates srcs order1_vs /\ elaborates srcs' order2_vs /\ exchanged order1_vs order2_vs /\
  kocheck junk0 sample_kernel (Opts false None false) false [order1_source] (Ok tt) /\ kocheck junk0 sample_kernel (Opts false None false) false [order2_source] (Ok tt).
Proof.
  destruct order1_elaborates as (srcs & H1 & H2), order2_elaborates as (srcs' & H3 & H4). exists srcs, srcs'.
  exact (conj H1 (conj H3 (conj H2 (conj H4 (conj order_exchanged (conj order1_kocheck order2_kocheck)))))).
Qed.
