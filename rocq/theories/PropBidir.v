(** * Properties C01, C02 (typing in two modes) and C49: acceptance and rejection of terms *)

From Verif Require Import Base ModelTerm ModelGctx ModelCommand ModelSubst ModelReduce ModelInfer
  SpecTerm SpecConv SpecBidir SpecRed SpecQuery Erase RedConfl EtaConfl RedCheck MainBidir Samples SamplesConv.

(** ** C01: what is inferred, precisely *)
Theorem C01_infer_modes : forall uniq gc n lc t ty,
  run (infer uniq gc n (lctx_of lc) (sterm_of_lterm t)) = Ok ty ->
  infers (er_gctx gc) (map erl (rev lc)) (erl t) (ers ty).
Proof. exact main_infers. Qed.
Print Assumptions C01_infer_modes.
Theorem C01_infer_modes_short : forall uniq gc n lc t ty,
  Forall kind_free lc -> kind_free t ->
  run (infer uniq gc n lc t) = Ok ty ->
  infers (er_gctx gc) (map ers lc) (ers t) (ers ty).
Proof. exact main_infers_s. Qed.
Print Assumptions C01_infer_modes_short.

(** ** C02: what is checked, precisely *)
Theorem C02_check_modes : forall uniq gc n c,
  run (check_check uniq gc n c) = Ok tt ->
  checks (er_gctx gc) (map erl (rev (t_lc c))) (erl (t_tm c)) (erl (t_ty c)).
Proof. exact main_checks. Qed.
Print Assumptions C02_check_modes.
Theorem C02_check_modes_short : forall uniq gc n lc t ty,
  Forall kind_free lc -> kind_free t -> kind_free ty ->
  run (check uniq gc n lc t ty) = Ok true ->
  checks (er_gctx gc) (map ers lc) (ers t) (ers ty).
Proof. exact main_checks_s. Qed.
Print Assumptions C02_check_modes_short.

(** an abstraction whose domain is a sort has no inferable type *)
Example C01_example_domain :
  run (infer sometimes sample_gc fuel (lctx_of []) (sterm_of_lterm (llam LType (LVar 0)))) = Err BindNoType.
Proof. vm_compute. reflexivity. Qed.

(** ** C49: typable terms are rejected only for want of a sort *)
(** [BindNoType], [SortExpected], [UnexpectedKind] compare inferred types with sorts without evaluation. *)
Theorem C49_infer_complete : forall uniq gc,
  church_rosser (er_gctx gc) -> g_eta gc = false -> proper_gctx gc ->
  forall n lc t A, Forall proper_s lc -> proper_s t ->
  infers (er_gctx gc) (map ers lc) (ers t) A ->
  match run (infer uniq gc n lc t) with
  | Ok ty => conv (er_gctx gc) A (ers ty)
  | Err e => e = BindNoType \/ e = SortExpected \/ e = UnexpectedKind
  | _ => True
  end.
Proof. exact main_infer_complete. Qed.
Print Assumptions C49_infer_complete.

Theorem C49_check_complete : forall uniq gc,
  church_rosser (er_gctx gc) -> g_eta gc = false -> proper_gctx gc ->
  forall n lc t ty, Forall proper_s lc -> proper_s t -> proper_s ty ->
  checks (er_gctx gc) (map ers lc) (ers t) (ers ty) ->
  match run (check uniq gc n lc t ty) with
  | Ok b => b = true
  | Err e => e = BindNoType \/ e = SortExpected \/ e = UnexpectedKind
  | _ => True
  end.
Proof. exact main_check_complete_s. Qed.
Print Assumptions C49_check_complete.

Theorem C49_check_rejects : forall uniq gc,
  church_rosser (er_gctx gc) -> g_eta gc = false -> proper_gctx gc ->
  forall n c, Forall proper_l (t_lc c) -> proper_l (t_tm c) -> proper_l (t_ty c) ->
  checks (er_gctx gc) (map erl (rev (t_lc c))) (erl (t_tm c)) (erl (t_ty c)) ->
  forall e, run (check_check uniq gc n c) = Err e -> e = BindNoType \/ e = SortExpected \/ e = UnexpectedKind.
Proof. exact main_check_complete. Qed.
Print Assumptions C49_check_rejects.

(** [x => x] does not have type [fun 2 -> fun 1] *)
Definition C49_wrong : ModelGctx.check := typing_new (larr (lapp (LConst 8) [num 2]) (lapp (LConst 8) [num 1])) (lulam (LVar 0)).
Example C49_example_gctx : church_rosser (er_gctx orth_gc) /\ g_eta orth_gc = false /\ proper_gctx orth_gc.
Proof.
  split; [apply orthogonal_church_rosser; [apply gctx_orthogonal; vm_compute; reflexivity|reflexivity]|]. split; [reflexivity|]. split.
  - intros c ty. unfold get_type. cbn. repeat (destruct (_ =? _); [intros [= <-]; cbn; tauto|]). discriminate.
  - intros c rs r. unfold get_rules. cbn. repeat (destruct (_ =? _); [intros [= <-] Hin; cbn in Hin; intuition; subst; cbn; tauto|]). discriminate.
Qed.
Example C49_example_wrong : ~ checks (er_gctx orth_gc) [] (erl (t_tm C49_wrong)) (erl (t_ty C49_wrong)).
Proof.
  destruct C49_example_gctx as (H1 & H2 & H3). intros H.
  pose proof (C49_check_rejects shared orth_gc H1 H2 H3 fuel C49_wrong (Forall_nil _) ltac:(cbn; tauto) ltac:(cbn; tauto) H Unconvertible) as Hr.
  destruct Hr as [Hr|[Hr|Hr]]; [vm_compute; reflexivity|discriminate..].
Qed.
Example C49_example_right : checks (er_gctx orth_gc) [] (erl (lulam (lapp (LVar 0) [ZERO; ZERO])))
    (erl (larr (lapp (LConst 8) [PLUS (num 1) (num 1)]) NAT)).
Proof.
  apply (C02_check_modes shared orth_gc fuel (typing_new (larr (lapp (LConst 8) [PLUS (num 1) (num 1)]) NAT) (lulam (lapp (LVar 0) [ZERO; ZERO])))).
  vm_compute. reflexivity.
Qed.

(** Without the exception for sorts the claim is false: with the (unverified) rule [F _ --> Type],
    the type of [f zero] is [F zero], which is convertible with [Type], but [f zero -> Nat] is rejected. *)
Theorem C49_sort_refuted : exists gc n t,
  orthogonal (er_gctx gc) /\ g_eta gc = false /\ proper_gctx gc /\ proper_l t /\
  infers (er_gctx gc) [] (erl t) Typ /\ run (infer shared gc n [] (sterm_of_lterm t)) = Err BindNoType.
Proof. exact main_sort_refuted. Qed.
Print Assumptions C49_sort_refuted.
