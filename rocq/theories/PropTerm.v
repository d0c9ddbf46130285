(** * Properties C54-C55: evaluation and comparison terminate *)

From Verif Require Import Base ModelTerm ModelGctx ModelCommand ModelSubst ModelReduce ModelInfer
  SpecTerm SpecConv SpecWhnf SpecRed SpecSN SpecQuery Erase RedCheck MainConv MainTerm Samples SamplesConv SamplesTerm.

(** ** C54: evaluation of a strongly normalising term terminates *)
(** From some amount of fuel on, the result is always the same term, so the recursion of the code,
    which has no fuel, comes to an end and returns that term.  There is no condition on eta. *)
Theorem C54_whnf_returns : forall uniq gc t,
  left_linear (er_gctx gc) -> strongly_normalising (er_gctx gc) (ers t) ->
  exists n0 t', forall n, n0 <= n -> run (whnf uniq gc n t) = Ok t'.
Proof. exact main_whnf_returns. Qed.
Print Assumptions C54_whnf_returns.

(** The result is a reduct: evaluation only ever does steps of reduction, from left to right. *)
Theorem C54_whnf_reduces : forall uniq gc n t t',
  left_linear (er_gctx gc) -> run (whnf uniq gc n t) = Ok t' ->
  reds (er_gctx gc) (strip (ers t)) (strip (ers t')).
Proof. exact main_whnf_reduces. Qed.
Print Assumptions C54_whnf_reduces.

Example C54_example : left_linear (er_gctx orth_gc) /\ strongly_normalising (er_gctx orth_gc) (erl sn_tm) /\
  exists t', run (whnf sometimes orth_gc fuel (sterm_of_lterm sn_tm)) = Ok t' /\
    ers t' = erl (SUCC (PLUS (num 1) (num 1))) /\ ers t' <> erl sn_tm.
Proof.
  split; [exact orth_linear|]. split; [exact sn_tm_sn|]. eexists.
  split; [vm_compute; reflexivity|]. split; [vm_compute; reflexivity|]. vm_compute. discriminate.
Qed.

(** Evaluation of other terms need not terminate: [f c] with the rule [f x --> f x]. *)
Theorem C54_loop_refuted : exists gc t,
  left_linear (er_gctx gc) /\ orthogonal (er_gctx gc) /\ g_eta gc = false /\
  forall uniq n, run (whnf uniq gc n t) = Fuel.
Proof. exact loop_refuted. Qed.
Print Assumptions C54_loop_refuted.

(** ** C55: comparison of strongly normalising terms terminates *)
Theorem C55_convertible_returns : forall uniq gc t u,
  left_linear (er_gctx gc) -> eta_safe (er_gctx gc) ->
  strongly_normalising (er_gctx gc) (ers t) -> strongly_normalising (er_gctx gc) (ers u) ->
  exists n0 b, forall n, n0 <= n -> run (convertible uniq gc n t u) = Ok b.
Proof. exact main_convertible_returns. Qed.
Print Assumptions C55_convertible_returns.

(** So for orthogonal rules, comparison decides convertibility of strongly normalising terms. *)
Theorem C55_convertible_decides : forall uniq gc t u,
  left_linear (er_gctx gc) -> orthogonal (er_gctx gc) -> eta_safe (er_gctx gc) ->
  strongly_normalising (er_gctx gc) (ers t) -> strongly_normalising (er_gctx gc) (ers u) ->
  exists n0 b, (forall n, n0 <= n -> run (convertible uniq gc n t u) = Ok b) /\
    (b = true <-> conv (er_gctx gc) (ers t) (ers u)).
Proof. exact main_convertible_decides. Qed.
Print Assumptions C55_convertible_decides.

Example C55_example :
  left_linear (er_gctx orth_gc) /\ orthogonal (er_gctx orth_gc) /\ g_eta orth_gc = false /\
  strongly_normalising (er_gctx orth_gc) (erl sn_tm) /\
  strongly_normalising (er_gctx orth_gc) (erl (SUCC (PLUS (num 1) (num 1)))) /\
  strongly_normalising (er_gctx orth_gc) (erl (num 2)) /\
  run (convertible owned orth_gc fuel (sterm_of_lterm sn_tm) (sterm_of_lterm (SUCC (PLUS (num 1) (num 1))))) = Ok true /\
  run (convertible owned orth_gc fuel (sterm_of_lterm sn_tm) (sterm_of_lterm (num 2))) = Ok false.
Proof.
  split; [exact orth_linear|]. split; [apply gctx_orthogonal; vm_compute; reflexivity|]. split; [reflexivity|].
  split; [exact sn_tm_sn|]. split; [exact succ_sn|]. split; [exact num_sn|]. split; vm_compute; reflexivity.
Qed.

(** With eta, comparison of strongly normalising terms need not terminate: [f] and [x => c] with the rule
    [f x --> f x], where [f] alone cannot be reduced. *)
Theorem C55_eta_refuted : exists gc t u,
  left_linear (er_gctx gc) /\ orthogonal (er_gctx gc) /\
  strongly_normalising (er_gctx gc) (ers t) /\ strongly_normalising (er_gctx gc) (ers u) /\
  forall uniq n, run (convertible uniq gc n t u) = Fuel.
Proof. exact eta_loop_refuted. Qed.
Print Assumptions C55_eta_refuted.
