(** * Property C85: programs without rewrite rules in any order

    If two programs without rewrite rules have the same introductions, in any order in which the names of both can be resolved, then kocheck accepts both or none. *)

From Verif Require Import Base ModelTerm ModelGctx ModelCommand ModelSubst ModelInfer ModelSyntax ModelParse ModelMake ModelProcess ModelMain SpecTerm SpecConv SpecProcess SpecProgram SpecWhole SpecEmbed SpecReorder
  Samples SamplesProcess SamplesParse SamplesProgram SamplesEmbed SamplesOrder SamplesReorder MainReorder.

(** The files, their number, the names and the numbers of threads may differ, too. *)
Theorem C85_reordered : forall junk junk' O1 O2 eta jobs jobs' channel channel' inputs inputs' srcs srcs' vs vs',
  Forall2 (source_of junk) inputs srcs -> Forall2 (source_of junk') inputs' srcs' -> elaborates srcs vs -> elaborates srcs' vs' -> reordered vs vs' -> without_rules srcs ->
  ((exists n, kocheck junk (real_kernel O1 n) (Opts eta None jobs) channel inputs (Ok tt)) <->
   (exists n, kocheck junk' (real_kernel O2 n) (Opts eta None jobs') channel' inputs' (Ok tt))).
Proof. exact main_reorder_iff. Qed.
Print Assumptions C85_reordered.
(** Once accepted, it is accepted in the other order with all larger numbers of steps. *)
Theorem C85_accepted : forall junk junk' O1 O2 n2 eta jobs jobs' channel channel' inputs inputs' srcs srcs' vs vs',
  Forall2 (source_of junk) inputs srcs -> Forall2 (source_of junk') inputs' srcs' -> elaborates srcs vs -> elaborates srcs' vs' -> reordered vs vs' -> without_rules srcs ->
  kocheck junk (real_kernel O2 n2) (Opts eta None jobs) channel inputs (Ok tt) ->
  exists n0, forall n, n0 <= n -> kocheck junk' (real_kernel O1 n) (Opts eta None jobs') channel' inputs' (Ok tt).
Proof. exact main_reorder. Qed.
Print Assumptions C85_accepted.
(** koweb *)
Theorem C85_web : forall junk junk' O1 O2 eta modules modules' srcs srcs' vs vs',
  Forall2 (web_source junk) modules srcs -> Forall2 (web_source junk') modules' srcs' -> elaborates srcs vs -> elaborates srcs' vs' -> reordered vs vs' -> without_rules srcs ->
  ((exists n, web_check junk (real_kernel O1 n) (Opts eta None false) modules (Ok tt)) <-> (exists n, web_check junk' (real_kernel O2 n) (Opts eta None false) modules' (Ok tt))).
Proof. exact main_reorder_web_iff. Qed.
Print Assumptions C85_web.

(** With rewrite rules, the order matters even if the names can be resolved in both orders. *)
Theorem C85_rules_refuted : exists vs vs' srcs srcs',
  Forall2 (source_of junk0) [need_source] srcs /\ Forall2 (source_of junk0) [early_source] srcs' /\ elaborates srcs vs /\ elaborates srcs' vs' /\ reordered vs vs' /\
  kocheck junk0 sample_kernel (Opts false None false) false [need_source] (Ok tt) /\
  kocheck junk0 sample_kernel (Opts false None false) false [early_source] (Err (PKo (KoTyping Unconvertible))).
Proof.
  destruct need_elaborates as (srcs & H1 & H2), early_elaborates as (srcs' & H3 & H4). exists need_vs, early_vs, srcs, srcs'.
  exact (conj H1 (conj H3 (conj H2 (conj H4 (conj need_reordered (conj need_kocheck early_kocheck)))))).
Qed.
Print Assumptions C85_rules_refuted.

(** Nine introductions in another order, and in two files instead of one *)
Example C85_example : exists srcs srcs', Forall2 (source_of junk0) [mix_source] srcs /\ Forall2 (source_of junk0) [mix1_source; mix2_source] srcs' /\
  elaborates srcs mix_vs /\ elaborates srcs' mixed_vs /\ reordered mix_vs mixed_vs /\ without_rules srcs /\ length mix_vs = 9 /\
  kocheck junk0 sample_kernel (Opts false None false) false [mix_source] (Ok tt) /\ kocheck junk0 sample_kernel (Opts false None false) false [mix1_source; mix2_source] (Ok tt).
Proof.
  destruct mix_elaborates as (srcs & H1 & H2), mixed_elaborates as (srcs' & H3 & H4). exists srcs, srcs'. split; [exact H1|]. split; [exact H3|]. split; [exact H2|]. split; [exact H4|]. split; [exact mix_reordered|].
  split; [exact (mix_rules srcs H2)|]. split; [reflexivity|]. split; [exact mix_kocheck|exact mixed_kocheck].
Qed.
