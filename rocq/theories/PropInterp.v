(** * Property C84: terms instead of symbols

    For programs without rewrite rules: definitions and theorems may be replaced by their terms, and assumptions by symbols of a
    program that have their types. *)

From Verif Require Import Base ModelTerm ModelGctx ModelCommand ModelSubst ModelInfer ModelSyntax ModelParse ModelMake ModelProcess ModelMain SpecTerm SpecConv SpecRed SpecProcess SpecProgram SpecWhole SpecInterp
  Samples SamplesProcess SamplesParse SamplesProgram SamplesInterp MainInterp.

(** If kocheck accepts a program, then also the program in which symbols are replaced by their terms and not introduced any more. *)
Theorem C84_unfold : forall s junk junk' O O' n eta jobs jobs' channel channel' inputs inputs' srcs srcs' vs vs',
  Forall2 (source_of junk) inputs srcs -> Forall2 (source_of junk') inputs' srcs' -> without_rules srcs -> without_rules srcs' -> elaborates srcs vs -> elaborates srcs' vs' ->
  closed_terms s -> interprets s [] vs vs' ->
  kocheck junk (real_kernel O n) (Opts eta None jobs) channel inputs (Ok tt) ->
  exists n0, forall n', n0 <= n' -> kocheck junk' (real_kernel O' n') (Opts eta None jobs') channel' inputs' (Ok tt).
Proof. exact main_unfold. Qed.
Print Assumptions C84_unfold.
(** If kocheck accepts a theory and a program [Q] that has symbols for the assumptions of the theory, then it accepts the
    rest of the theory after [Q], with these symbols. *)
Theorem C84_instance : forall s junk junkq junk' O Oq O' n nq eta jobs jobsq jobs' channel channelq channel' inputs inputsq inputs' srcs srcq srcs' vs Q vs',
  Forall2 (source_of junk) inputs srcs -> Forall2 (source_of junkq) inputsq srcq -> Forall2 (source_of junk') inputs' srcs' ->
  without_rules srcs -> without_rules srcq -> without_rules srcs' -> elaborates srcs vs -> elaborates srcq Q -> elaborates srcs' (Q ++ vs') ->
  closed_terms s -> interprets s Q vs vs' ->
  kocheck junk (real_kernel O n) (Opts eta None jobs) channel inputs (Ok tt) ->
  kocheck junkq (real_kernel Oq nq) (Opts eta None jobsq) channelq inputsq (Ok tt) ->
  exists n0, forall n', n0 <= n' -> kocheck junk' (real_kernel O' n') (Opts eta None jobs') channel' inputs' (Ok tt).
Proof. exact main_interp. Qed.
Print Assumptions C84_instance.
(** koweb *)
Theorem C84_web : forall s junk junkq junk' O Oq O' n nq eta modules modulesq modules' srcs srcq srcs' vs Q vs',
  Forall2 (web_source junk) modules srcs -> Forall2 (web_source junkq) modulesq srcq -> Forall2 (web_source junk') modules' srcs' ->
  without_rules srcs -> without_rules srcq -> without_rules srcs' -> elaborates srcs vs -> elaborates srcq Q -> elaborates srcs' (Q ++ vs') ->
  closed_terms s -> interprets s Q vs vs' ->
  web_check junk (real_kernel O n) (Opts eta None false) modules (Ok tt) ->
  web_check junkq (real_kernel Oq nq) (Opts eta None false) modulesq (Ok tt) ->
  exists n0, forall n', n0 <= n' -> web_check junk' (real_kernel O' n') (Opts eta None false) modules' (Ok tt).
Proof. exact main_interp_web. Qed.
Print Assumptions C84_web.

(** The domains of abstractions are necessary: [x => x] may be the term of a definition, but not stand in its place. *)
Theorem C84_domains_refuted : exists s srcs srcs' vs vs' e, (forall c, scoped 0 (s c)) /\ interprets s [] vs vs' /\
  Forall2 (source_of junk0) [short_source] srcs /\ without_rules srcs /\ elaborates srcs vs /\
  Forall2 (source_of junk0) [long_source] srcs' /\ without_rules srcs' /\ elaborates srcs' vs' /\
  kocheck junk0 sample_kernel (Opts false None false) false [short_source] (Ok tt) /\
  kocheck junk0 sample_kernel (Opts false None false) false [long_source] (Err (PKo (KoTyping e))).
Proof.
  destruct short_elaborates as (srcs & H1 & H2 & H3), long_elaborates as (srcs' & H4 & H5 & H6), long_kocheck as (e & H7). exists short_s, srcs, srcs', short_vs, long_vs, e.
  exact (conj short_closed (conj short_interprets (conj H1 (conj H2 (conj H3 (conj H4 (conj H5 (conj H6 (conj short_kocheck H7))))))))).
Qed.
Print Assumptions C84_domains_refuted.

(** Two definitions and a theorem are unfolded. *)
Example C84_example : exists srcs srcs', Forall2 (source_of junk0) [defs_source] srcs /\ Forall2 (source_of junk0) [unfolded_source] srcs' /\
  without_rules srcs /\ without_rules srcs' /\ elaborates srcs defs_vs /\ elaborates srcs' unfolded_vs /\ closed_terms defs_s /\ interprets defs_s [] defs_vs unfolded_vs /\
  kocheck junk0 sample_kernel (Opts false None false) false [defs_source] (Ok tt) /\ kocheck junk0 sample_kernel (Opts false None false) false [unfolded_source] (Ok tt).
Proof.
  destruct defs_elaborates as (srcs & H1 & H2 & H3), unfolded_elaborates as (srcs' & H4 & H5 & H6). exists srcs, srcs'.
  exact (conj H1 (conj H4 (conj H2 (conj H5 (conj H3 (conj H6 (conj defs_closed (conj defs_interprets (conj defs_kocheck unfolded_kocheck))))))))).
Qed.
(** Theorems about operations with a neutral element are obtained for the conjunction of booleans. *)
Example C84_example_instance : exists srcs srcq srcs', Forall2 (source_of junk0) [theory_source] srcs /\ Forall2 (source_of junk0) [bool_source] srcq /\ Forall2 (source_of junk0) [instance_source] srcs' /\
  without_rules srcs /\ without_rules srcq /\ without_rules srcs' /\ elaborates srcs theory_vs /\ elaborates srcq bool_vs /\ elaborates srcs' (bool_vs ++ instance_vs) /\
  closed_terms theory_s /\ interprets theory_s bool_vs theory_vs instance_vs /\
  kocheck junk0 sample_kernel (Opts false None false) false [theory_source] (Ok tt) /\ kocheck junk0 sample_kernel (Opts false None false) false [bool_source] (Ok tt) /\
  kocheck junk0 sample_kernel (Opts false None false) false [instance_source] (Ok tt).
Proof.
  destruct theory_elaborates as (srcs & H1 & H2 & H3), bool_elaborates as (srcq & H4 & H5 & H6), instance_elaborates as (srcs' & H7 & H8 & H9). exists srcs, srcq, srcs'.
  exact (conj H1 (conj H4 (conj H7 (conj H2 (conj H5 (conj H8 (conj H3 (conj H6 (conj H9 (conj theory_closed (conj theory_interprets (conj theory_kocheck (conj bool_kocheck instance_kocheck))))))))))))).
Qed.
