(** * Property C82: programs that contain other programs

    One may remove commands from an accepted program, if the other commands do not refer to what they introduce. *)

From Verif Require Import Base ModelTerm ModelGctx ModelCommand ModelSubst ModelInfer ModelSyntax ModelParse ModelMake ModelProcess ModelMain SpecTerm SpecConv SpecProcess SpecProgram SpecWhole SpecEmbed
  Samples SamplesProcess SamplesParse SamplesProgram SamplesEmbed MainEmbedProg.

(** If kocheck accepts the larger program, then it does not reject the smaller one. *)
Theorem C82_removed : forall f junk junk' O1 O2 n1 n2 eta jobs channel inputs inputs' srcs srcs' vs vs' r,
  injective f -> Forall2 (source_of junk) inputs srcs -> Forall2 (source_of junk') inputs' srcs' -> elaborates srcs vs -> elaborates srcs' vs' -> embeds f vs vs' ->
  kocheck junk' (real_kernel O2 n2) (Opts eta None jobs) channel inputs' (Ok tt) ->
  kocheck junk (real_kernel O1 n1) (Opts eta None false) false inputs r -> r = Ok tt \/ r = Fuel.
Proof. exact main_embed. Qed.
Print Assumptions C82_removed.
(** Without rewrite rules in the smaller program, kocheck accepts it. *)
Theorem C82_simple : forall f junk junk' O1 O2 n2 eta jobs jobs' channel channel' inputs inputs' srcs srcs' vs vs',
  injective f -> Forall2 (source_of junk) inputs srcs -> Forall2 (source_of junk') inputs' srcs' -> elaborates srcs vs -> elaborates srcs' vs' -> embeds f vs vs' -> without_rules srcs ->
  kocheck junk' (real_kernel O2 n2) (Opts eta None jobs') channel' inputs' (Ok tt) ->
  exists n0, forall n, n0 <= n -> kocheck junk (real_kernel O1 n) (Opts eta None jobs) channel inputs (Ok tt).
Proof. exact main_embed_simple. Qed.
Print Assumptions C82_simple.
(** A program that is rejected cannot be made accepted by adding commands for other symbols. *)
Theorem C82_rejected : forall f junk junk' O1 O2 n1 n2 eta jobs channel inputs inputs' srcs srcs' vs vs' r,
  injective f -> Forall2 (source_of junk) inputs srcs -> Forall2 (source_of junk') inputs' srcs' -> elaborates srcs vs -> elaborates srcs' vs' -> embeds f vs vs' ->
  kocheck junk (real_kernel O1 n1) (Opts eta None false) false inputs r -> r <> Ok tt -> r <> Fuel ->
  ~ kocheck junk' (real_kernel O2 n2) (Opts eta None jobs) channel inputs' (Ok tt).
Proof. exact main_embed_rejected. Qed.
Print Assumptions C82_rejected.
(** koweb *)
Theorem C82_web : forall f junk junk' O1 O2 n1 n2 eta modules modules' srcs srcs' vs vs' r,
  injective f -> Forall2 (web_source junk) modules srcs -> Forall2 (web_source junk') modules' srcs' -> elaborates srcs vs -> elaborates srcs' vs' -> embeds f vs vs' ->
  web_check junk' (real_kernel O2 n2) (Opts eta None false) modules' (Ok tt) ->
  web_check junk (real_kernel O1 n1) (Opts eta None false) modules r -> r = Ok tt \/ r = Fuel.
Proof. exact main_embed_web. Qed.
Print Assumptions C82_web.

(** It is not enough that no later command mentions the symbol: here the rule for symbol 2, which is [d], is removed. *)
Theorem C82_rules_refuted : exists A rs B srcs srcs',
  Forall2 (source_of junk0) [need_source] srcs /\ elaborates srcs (A ++ VRules rs :: B) /\ Forall2 (source_of junk0) [lack_source] srcs' /\ elaborates srcs' (A ++ B) /\
  (forall r, In r rs -> v_head r = 2) /\ B = [VIntro 5 (IDefinition (Some (App (Const 3) (Const 1))) (Some (Const 4)))] /\
  kocheck junk0 sample_kernel (Opts false None false) false [need_source] (Ok tt) /\
  kocheck junk0 sample_kernel (Opts false None false) false [lack_source] (Err (PKo (KoTyping Unconvertible))).
Proof.
  destruct need_elaborates as (srcs & H1 & H2), lack_elaborates as (srcs' & H3 & H4). exists (firstn 5 lack_vs). eexists. exists (skipn 5 lack_vs), srcs, srcs'.
  split; [exact H1|]. split; [exact H2|]. split; [exact H3|]. split; [exact H4|]. split; [intros r [<-|[]]; reflexivity|]. split; [reflexivity|]. split; [exact need_kocheck|exact lack_kocheck].
Qed.
Print Assumptions C82_rules_refuted.

(** A definition with its rules and a theorem about it are removed. *)
Example C82_example : exists srcs srcs', injective large_f /\ Forall2 (source_of junk0) [small_source] srcs /\ Forall2 (source_of junk0) [large_source] srcs' /\
  elaborates srcs small_vs /\ elaborates srcs' large_vs /\ embeds large_f small_vs large_vs /\
  kocheck junk0 sample_kernel (Opts false None false) false [large_source] (Ok tt) /\ kocheck junk0 sample_kernel (Opts false None false) false [small_source] (Ok tt).
Proof.
  destruct small_elaborates as (srcs & H1 & H2), large_elaborates as (srcs' & H3 & H4). exists srcs, srcs'.
  exact (conj large_inj (conj H1 (conj H3 (conj H2 (conj H4 (conj small_embeds (conj large_kocheck small_kocheck))))))).
Qed.
(** A program with a wrong proof is rejected, whatever is declared in between. *)
Example C82_example_rejected : exists srcs srcs', Forall2 (source_of junk0) [wrong_source] srcs /\ Forall2 (source_of junk0) [hide_source] srcs' /\
  elaborates srcs wrong_vs /\ elaborates srcs' hide_vs /\ embeds large_f wrong_vs hide_vs /\
  kocheck junk0 sample_kernel (Opts false None false) false [wrong_source] (Err (PKo (KoTyping Unconvertible))) /\
  forall O n jobs channel, ~ kocheck junk0 (real_kernel O n) (Opts false None jobs) channel [hide_source] (Ok tt).
Proof.
  destruct wrong_elaborates as (srcs & H1 & H2), hide_elaborates as (srcs' & H3 & H4). exists srcs, srcs'.
  refine (conj H1 (conj H3 (conj H2 (conj H4 (conj wrong_embeds (conj wrong_kocheck _)))))). intros O n jobs channel.
  eapply (C82_rejected large_f junk0 junk0 (fun _ => shared) O); [exact large_inj|exact H1|exact H3|exact H2|exact H4|exact wrong_embeds|exact wrong_kocheck|discriminate|discriminate].
Qed.
