(** * Samples for termination *)

From Verif Require Import Base ModelTerm ModelGctx ModelCommand ModelSubst ModelReduce ModelInfer SpecTerm SpecConv SpecWhnf SpecRed SpecSN
  SpecQuery Erase RedCheck RedEnum MainKernel MainConv MainTerm Samples SamplesConv.

(** [(n => 7 + n) 1], where [7] stands for [2] *)
Definition sn_tm : lterm := lapp (lulam (PLUS (LConst 7) (LVar 0))) [num 1].

Lemma orth_linear : left_linear (er_gctx orth_gc).
Proof. apply gctx_left_linear. vm_compute. reflexivity. Qed.
Lemma sn_tm_sn : strongly_normalising (er_gctx orth_gc) (erl sn_tm).
Proof. apply gctx_sn with (n := 20); vm_compute; reflexivity. Qed.
Lemma succ_sn : strongly_normalising (er_gctx orth_gc) (erl (SUCC (PLUS (num 1) (num 1)))).
Proof. apply gctx_sn with (n := 20); vm_compute; reflexivity. Qed.
Lemma num_sn : strongly_normalising (er_gctx orth_gc) (erl (num 2)).
Proof. apply gctx_sn with (n := 20); vm_compute; reflexivity. Qed.

(** [0: A, 1: f, 2: c] with [f x --> f x] *)
Definition loop_gc (eta : bool) : gctx := let gc := fst (ghist gctx_new
  [ OInsert 0 (typing_new LType None) false;
    OInsert 1 (typing_new (larr (LConst 0) (LConst 0)) None) true;
    OInsert 2 (typing_new (LConst 0) None) false;
    OAddRule (MkRule [(nm, None)] (TopPat 1 [PMVar 0]) (lapp (LConst 1) [LVar 0])) ]) in
  GCtx (g_types gc) (g_rules gc) eta.

Lemma loop_refuted : exists gc t,
  left_linear (er_gctx gc) /\ orthogonal (er_gctx gc) /\ g_eta gc = false /\
  forall uniq n, run (whnf uniq gc n t) = Fuel.
Proof.
  exists (loop_gc false), (sterm_of_lterm (lapp (LConst 1) [LConst 2])).
  split; [apply gctx_left_linear; vm_compute; reflexivity|]. split; [apply gctx_orthogonal; vm_compute; reflexivity|].
  split; [reflexivity|]. intros uniq n. apply (loop_whnf_fuel uniq (loop_gc false) 1 n _ (Const 2)); reflexivity.
Qed.
Lemma eta_loop_refuted : exists gc t u,
  left_linear (er_gctx gc) /\ orthogonal (er_gctx gc) /\
  strongly_normalising (er_gctx gc) (ers t) /\ strongly_normalising (er_gctx gc) (ers u) /\
  forall uniq n, run (convertible uniq gc n t u) = Fuel.
Proof.
  exists (loop_gc true), (SConst 1), (sterm_of_lterm (lulam (LConst 2))).
  split; [apply gctx_left_linear; vm_compute; reflexivity|]. split; [apply gctx_orthogonal; vm_compute; reflexivity|].
  split; [apply gctx_sn with (n := 1); vm_compute; reflexivity|]. split; [apply gctx_sn with (n := 1); vm_compute; reflexivity|].
  intros uniq n. apply (loop_eta_fuel uniq (loop_gc true) 1 2 n); try reflexivity. left. reflexivity.
Qed.
