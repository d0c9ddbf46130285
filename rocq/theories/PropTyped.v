(** * Properties C51-C53: types under evaluation *)

From Verif Require Import Base ModelTerm ModelGctx ModelCommand ModelSubst ModelReduce ModelInfer ModelSyntax ModelShare ModelProcess
  SpecTerm SpecConv SpecTyping SpecRed SpecType SpecQuery SpecProcess Erase RedConfl MainKernel MainVerify MainTyped
  Samples SamplesConv SamplesProcess SamplesTyped.

(** ** C51: evaluation preserves types *)
Theorem C51_whnf : forall uniq gc n t t',
  closed_types (er_gctx gc) -> pi_injective (er_gctx gc) -> rules_typed (er_gctx gc) ->
  ModelInfer.run (whnf uniq gc n t) = Ok t' ->
  forall G T, has_type (er_gctx gc) G (ers t) T -> has_type (er_gctx gc) G (ers t') T.
Proof. exact main_whnf_type. Qed.
Print Assumptions C51_whnf.

(** Products can be compared by parts if the rules are orthogonal and there is no eta. *)
Theorem C51_products : forall sg, orthogonal sg -> sg_eta sg = false -> pi_injective sg.
Proof. exact orthogonal_pi. Qed.
Print Assumptions C51_products.

(** After a successful run over a program with annotated rules, the conditions on types and rules are met. *)
Theorem C51_program : forall O k PE eta jobs evs st',
  infer_checks_seq PE (real_kernel O k) (Opts eta None jobs) _ (consume_item PE (Opts eta None jobs))
    (map Ok evs) (pst_new (Opts eta None jobs)) = (st', [], Ok tt) ->
  (forall cmds, share_results evs (pst_new (Opts eta None jobs)) = map Ok cmds -> Forall annotated (map er_cmd cmds)) ->
  pi_injective (er_gctx (ps_gc st')) ->
  forall uniq n t t', ModelInfer.run (whnf uniq (ps_gc st') n t) = Ok t' ->
  forall G T, has_type (er_gctx (ps_gc st')) G (ers t) T -> has_type (er_gctx (ps_gc st')) G (ers t') T.
Proof. exact main_program_type. Qed.
Print Assumptions C51_program.

Example C51_example_gctx : closed_types (er_gctx orth_gc) /\ pi_injective (er_gctx orth_gc) /\ rules_typed (er_gctx orth_gc).
Proof. exact (conj orth_closed (conj orth_pi orth_rules)). Qed.
(** [fun (1 + 1)] evaluates to [Nat -> fun (0 + 1)], which is a type as well *)
Example C51_example : exists t',
  ModelInfer.run (whnf sometimes orth_gc fuel (sterm_of_lterm (lapp (LConst 8) [PLUS (num 1) (num 1)]))) = Ok t' /\
  ers t' = Pi (Const 0) (App (Const 8) (App (App (Const 3) (Const 1)) (App (Const 2) (Const 1)))) /\
  has_type (er_gctx orth_gc) [] (ers t') Typ.
Proof.
  eexists. split; [vm_compute; reflexivity|]. split; [reflexivity|].
  eapply (C51_whnf sometimes orth_gc fuel (sterm_of_lterm (lapp (LConst 8) [PLUS (num 1) (num 1)]))); [exact orth_closed|exact orth_pi|exact orth_rules|vm_compute; reflexivity|].
  rewrite ers_sterm_of_lterm. apply (by_infer orth_gc [] (lapp (LConst 8) [PLUS (num 1) (num 1)]) SType). vm_compute. reflexivity.
Qed.
Example C51_example_program : exists st',
  infer_checks_seq unit sample_kernel seq_opts _ (consume_item unit seq_opts) (map Ok sample_events) (pst_new seq_opts) = (st', [], Ok tt) /\
  (forall cmds, share_results sample_events (pst_new seq_opts) = map Ok cmds -> Forall annotated (map er_cmd cmds)) /\
  pi_injective (er_gctx (ps_gc st')).
Proof. exists typed_st. split; [vm_compute; reflexivity|]. split; [exact typed_annotated|exact typed_pi]. Qed.

(** Rules with jokers are not checked, and evaluation with them may change the type of a term:
    [f : Nat -> Nat] with [f _ --> true] is accepted. *)
Theorem C51_joker_refuted : exists st' n t t' T,
  infer_checks_seq unit sample_kernel seq_opts _ (consume_item unit seq_opts) (map Ok joker_events) (pst_new seq_opts) = (st', [], Ok tt) /\
  orthogonal (er_gctx (ps_gc st')) /\ ModelInfer.run (whnf shared (ps_gc st') n t) = Ok t' /\
  has_type (er_gctx (ps_gc st')) [] (ers t) T /\ ~ has_type (er_gctx (ps_gc st')) [] (ers t') T.
Proof. exact joker_refuted. Qed.
Print Assumptions C51_joker_refuted.

(** ** C52: inferred types are types *)
Theorem C52_sorted : forall uniq gc n lc t ty,
  closed_types (er_gctx gc) -> pi_injective (er_gctx gc) -> rules_typed (er_gctx gc) -> sorted_types (er_gctx gc) ->
  Forall kind_free lc -> kind_free t -> sorted_ctx (er_gctx gc) (map ers lc) ->
  ModelInfer.run (ModelInfer.infer uniq gc n lc t) = Ok ty -> sorted (er_gctx gc) (map ers lc) (ers ty).
Proof. exact main_sorted. Qed.
Print Assumptions C52_sorted.
Theorem C52_program : forall O k PE eta jobs evs st',
  infer_checks_seq PE (real_kernel O k) (Opts eta None jobs) _ (consume_item PE (Opts eta None jobs))
    (map Ok evs) (pst_new (Opts eta None jobs)) = (st', [], Ok tt) ->
  (forall cmds, share_results evs (pst_new (Opts eta None jobs)) = map Ok cmds -> Forall annotated (map er_cmd cmds)) ->
  pi_injective (er_gctx (ps_gc st')) -> 
  forall uniq n lc t ty, sorted_types (er_gctx (ps_gc st')) ->
  Forall kind_free lc -> kind_free t -> sorted_ctx (er_gctx (ps_gc st')) (map ers lc) ->
  ModelInfer.run (ModelInfer.infer uniq (ps_gc st') n lc t) = Ok ty -> sorted (er_gctx (ps_gc st')) (map ers lc) (ers ty).
Proof. exact main_program_sorted. Qed.
Print Assumptions C52_program.

Example C52_example_gctx : sorted_types (er_gctx orth_gc) /\ sorted_ctx (er_gctx orth_gc) [App (Const 8) (Const 1); Const 0].
Proof.
  split; [exact orth_sorted|]. constructor; [|right; left; apply (by_infer orth_gc [NAT] (lapp (LConst 8) [ZERO]) SType); vm_compute; reflexivity|discriminate].
  constructor; [constructor|right; left; apply (by_infer orth_gc [] NAT SType); vm_compute; reflexivity|discriminate].
Qed.
(** with [f : fun (succ n)], the inferred type of [f n] is [fun n], and that is a type *)
Example C52_example : exists ty,
  ModelInfer.run (ModelInfer.infer sometimes orth_gc fuel (lctx_of [NAT; lapp (LConst 8) [SUCC (LVar 0)]]) (sterm_of_lterm (lapp (LVar 0) [LVar 1]))) = Ok ty /\
  ers ty = App (Const 8) (Var 1) /\
  sorted (er_gctx orth_gc) [App (Const 8) (App (Const 2) (Var 0)); Const 0] (App (Const 8) (Var 1)).
Proof.
  eassert (H : ModelInfer.run (ModelInfer.infer sometimes orth_gc fuel (lctx_of [NAT; lapp (LConst 8) [SUCC (LVar 0)]]) (sterm_of_lterm (lapp (LVar 0) [LVar 1]))) =
    Ok _) by (vm_compute; reflexivity).
  eexists. split; [exact H|]. split; [reflexivity|].
  refine (C52_sorted _ _ _ _ _ _ orth_closed orth_pi orth_rules orth_sorted _ _ _ H).
  - repeat constructor.
  - repeat constructor.
  - constructor; [|right; left; apply (by_infer orth_gc [NAT] (lapp (LConst 8) [SUCC (LVar 0)]) SType); vm_compute; reflexivity|discriminate].
    constructor; [constructor|right; left; apply (by_infer orth_gc [] NAT SType); vm_compute; reflexivity|discriminate].
Qed.

(** ** C53: inferred types are unique *)
Theorem C53_unique : forall uniq gc n lc t ty B,
  pi_injective (er_gctx gc) -> Forall kind_free lc -> kind_free t ->
  ModelInfer.run (ModelInfer.infer uniq gc n lc t) = Ok ty -> has_type (er_gctx gc) (map ers lc) (ers t) B ->
  conv (er_gctx gc) (ers ty) B.
Proof. exact main_infer_unique. Qed.
Print Assumptions C53_unique.
(** Inference before and after evaluation gives convertible types. *)
Theorem C53_whnf : forall uniq1 uniq2 uniq3 gc n1 n2 n3 lc t t' ty ty',
  closed_types (er_gctx gc) -> pi_injective (er_gctx gc) -> rules_typed (er_gctx gc) -> Forall kind_free lc -> kind_free t ->
  ModelInfer.run (ModelInfer.infer uniq1 gc n1 lc t) = Ok ty -> ModelInfer.run (whnf uniq2 gc n2 t) = Ok t' ->
  ModelInfer.run (ModelInfer.infer uniq3 gc n3 lc t') = Ok ty' ->
  conv (er_gctx gc) (ers ty) (ers ty').
Proof. exact main_infer_whnf. Qed.
Print Assumptions C53_whnf.
Theorem C53_program : forall O k PE eta jobs evs st',
  infer_checks_seq PE (real_kernel O k) (Opts eta None jobs) _ (consume_item PE (Opts eta None jobs))
    (map Ok evs) (pst_new (Opts eta None jobs)) = (st', [], Ok tt) ->
  (forall cmds, share_results evs (pst_new (Opts eta None jobs)) = map Ok cmds -> Forall annotated (map er_cmd cmds)) ->
  pi_injective (er_gctx (ps_gc st')) -> 
  forall uniq1 uniq2 uniq3 n1 n2 n3 lc t t' ty ty', Forall kind_free lc -> kind_free t ->
  ModelInfer.run (ModelInfer.infer uniq1 (ps_gc st') n1 lc t) = Ok ty -> ModelInfer.run (whnf uniq2 (ps_gc st') n2 t) = Ok t' ->
  ModelInfer.run (ModelInfer.infer uniq3 (ps_gc st') n3 lc t') = Ok ty' ->
  conv (er_gctx (ps_gc st')) (ers ty) (ers ty').
Proof. exact main_program_infer. Qed.
Print Assumptions C53_program.

(** with [f : fun 2], the type of [f 0] is inferred as [fun 1]; [f 0] also has the type [Nat -> Nat] *)
Example C53_example :
  let lc := lctx_of [lapp (LConst 8) [num 2]] in let t := sterm_of_lterm (lapp (LVar 0) [ZERO]) in
  (exists ty, ModelInfer.run (ModelInfer.infer shared orth_gc fuel lc t) = Ok ty /\ ers ty = App (Const 8) (App (Const 2) (Const 1))) /\
  has_type (er_gctx orth_gc) (map ers lc) (ers t) (Pi (Const 0) (Const 0)).
Proof.
  split; [eexists; split; vm_compute; reflexivity|].
  refine (main_check_s shared orth_gc fuel _ _ (sterm_of_lterm (larr NAT NAT)) _ _ _ _); [repeat constructor..|vm_compute; reflexivity].
Qed.
