(** * Typing in two modes: soundness and completeness of queries *)

From Coq Require Import List Arith Lia Bool.
From Verif Require Import Base ModelTerm ModelGctx ModelCommand ModelSubst ModelReduce ModelInfer
  SpecTerm SpecConv SpecConvFacts SpecBidir SpecRed SpecQuery RedConfl RedCheck Erase SoundInfer SoundBidir RefInfer RefComplete KernelFacts MainKernel Samples SamplesConv.
Import ListNotations.

Section Typing.
  Variable uniq : nat -> bool.
  Variable gc : gctx.
  Notation sg := (er_gctx gc).

  Lemma main_infers_s n lc t ty : Forall kind_free lc -> kind_free t ->
    run (infer uniq gc n lc t) = Ok ty -> infers sg (map ers lc) (ers t) (ers ty).
  Proof.
    intros Hlc Ht Hr.
    assert (Hlc' : Forall kf lc) by (eapply Forall_impl; [|exact Hlc]; intros; now apply kind_free_kf).
    apply (run_ok0 _ _ _ (proj1 (bidir_sound uniq gc n) lc t Hlc' (proj1 (kind_free_kf t) Ht))) in Hr. apply Hr.
  Qed.
  Lemma main_checks_s n lc t ty : Forall kind_free lc -> kind_free t -> kind_free ty ->
    run (check uniq gc n lc t ty) = Ok true -> checks sg (map ers lc) (ers t) (ers ty).
  Proof.
    intros Hlc Ht Hty Hr.
    assert (Hlc' : Forall kf lc) by (eapply Forall_impl; [|exact Hlc]; intros; now apply kind_free_kf).
    exact (run_ok0 _ _ _ (proj2 (bidir_sound uniq gc n) lc t ty Hlc' (proj1 (kind_free_kf t) Ht) (proj1 (kind_free_kf ty) Hty)) Hr eq_refl).
  Qed.
  Lemma main_infers n lc t ty : run (infer uniq gc n (lctx_of lc) (sterm_of_lterm t)) = Ok ty ->
    infers sg (map erl (rev lc)) (erl t) (ers ty).
  Proof.
    intros H. apply main_infers_s in H; auto using lctx_of_kf, kind_free_lterm.
    rewrite ers_lctx_of, ers_sterm_of_lterm in H. exact H.
  Qed.
  Lemma main_kintro_infers n t ty chk : run (kintro uniq gc n (IDefinition None (Some t))) = Ok (ty, chk) ->
    infers sg [] (erl t) (erl (t_ty ty)).
  Proof.
    intros H. pose proof (main_infers n [] t) as Hi. unfold lctx_of in Hi. cbn [rev map] in Hi. cbn [kintro] in H. unfold define, run, bind in *.
    destruct (infer uniq gc n [] (sterm_of_lterm t) {| m_heap := []; m_tick := 0 |}) as [[k s]| | |]; try discriminate.
    destruct (lterm_of_sterm k) as [k'|] eqn:Ek; cbn in H; [|discriminate]. injection H as <- <-. cbn.
    rewrite (lterm_of_sterm_er _ _ Ek). apply Hi. reflexivity.
  Qed.
  Lemma run_check_check n c : run (check_check uniq gc n c) =
    match run (check uniq gc n (lctx_of (t_lc c)) (sterm_of_lterm (t_tm c)) (sterm_of_lterm (t_ty c))) with
    | Ok true => Ok tt
    | Ok false => Err Unconvertible
    | Err e => Err e
    | Panic => Panic
    | Fuel => Fuel
    end.
  Proof.
    unfold check_check, run, bind. destruct (check _ _ _ _ _ _ _) as [[[|] s']| | |]; reflexivity.
  Qed.
  Lemma main_checks n c : run (check_check uniq gc n c) = Ok tt ->
    checks sg (map erl (rev (t_lc c))) (erl (t_tm c)) (erl (t_ty c)).
  Proof.
    rewrite run_check_check. destruct (run (check _ _ _ _ _ _)) as [[|]| | |] eqn:E; try discriminate. intros _.
    apply main_checks_s in E; auto using lctx_of_kf, kind_free_lterm.
    rewrite ers_lctx_of, !ers_sterm_of_lterm in E. exact E.
  Qed.

  Hypothesis Hcr : church_rosser sg.
  Hypothesis Heta : g_eta gc = false.
  Hypothesis Hgc : proper_gctx gc.
  Lemma Forall2_conv_refl G : Forall2 (conv sg) G G.
  Proof. induction G; constructor; [apply conv_refl|assumption]. Qed.
  Lemma proper_all lc : Forall proper_s lc -> Forall nf lc.
  Proof. intros H; eapply Forall_impl; [|exact H]; apply proper_nf. Qed.

  Lemma main_infer_complete n lc t A : Forall proper_s lc -> proper_s t ->
    infers sg (map ers lc) (ers t) A ->
    match run (infer uniq gc n lc t) with
    | Ok ty => conv sg A (ers ty)
    | Err e => e = BindNoType \/ e = SortExpected \/ e = UnexpectedKind
    | _ => True
    end.
  Proof.
    intros Hlc Ht Hi. pose proof (run_sim0 _ _ _ _ (proj1 (infer_sim uniq gc (proper_gctx_nf _ Hgc) n) lc t (proper_all _ Hlc) (proper_nf _ Ht))) as Hr.
    pose proof (proj1 (complete sg Hcr Heta n) _ _ _ _ (Forall2_conv_refl _) Hi []) as Hc.
    destruct (run _); auto; rewrite Hr in Hc; exact Hc.
  Qed.
  Lemma main_check_complete_s n lc t ty : Forall proper_s lc -> proper_s t -> proper_s ty ->
    checks sg (map ers lc) (ers t) (ers ty) ->
    match run (check uniq gc n lc t ty) with
    | Ok b => b = true
    | Err e => e = BindNoType \/ e = SortExpected \/ e = UnexpectedKind
    | _ => True
    end.
  Proof.
    intros Hlc Ht Hty Hi.
    pose proof (run_sim0 _ _ _ _ (proj2 (infer_sim uniq gc (proper_gctx_nf _ Hgc) n) lc t ty (proper_all _ Hlc) (proper_nf _ Ht) (proper_nf _ Hty))) as Hr.
    pose proof (proj2 (complete sg Hcr Heta n) _ _ _ _ _ (Forall2_conv_refl _) Hi (conv_refl _ _) []) as Hc.
    destruct (run _); auto; rewrite Hr in Hc; exact Hc.
  Qed.
  Lemma main_check_complete n c :
    Forall proper_l (t_lc c) -> proper_l (t_tm c) -> proper_l (t_ty c) ->
    checks sg (map erl (rev (t_lc c))) (erl (t_tm c)) (erl (t_ty c)) ->
    forall e, run (check_check uniq gc n c) = Err e -> e = BindNoType \/ e = SortExpected \/ e = UnexpectedKind.
  Proof.
    intros Hlc Ht Hty Hc e. rewrite run_check_check.
    pose proof (main_check_complete_s n (lctx_of (t_lc c)) (sterm_of_lterm (t_tm c)) (sterm_of_lterm (t_ty c))) as H.
    rewrite ers_lctx_of, !ers_sterm_of_lterm in H.
    assert (Hp : forall t, proper_l t -> proper_s (sterm_of_lterm t)) by (intros [] ; cbn; auto).
    assert (Hl : Forall proper_s (lctx_of (t_lc c))).
    { unfold lctx_of. apply Forall_rev. apply Forall_map. eapply Forall_impl; [|exact Hlc]. exact Hp. }
    specialize (H Hl (Hp _ Ht) (Hp _ Hty) Hc).
    destruct (run _) as [[|]| | |]; try discriminate; congruence.
  Qed.
End Typing.

Lemma main_sort_refuted : exists gc n t,
  orthogonal (er_gctx gc) /\ g_eta gc = false /\ proper_gctx gc /\ proper_l t /\
  infers (er_gctx gc) [] (erl t) Typ /\ run (infer shared gc n [] (sterm_of_lterm t)) = Err BindNoType.
Proof.
  exists sort_gc, fuel, sort_tm. split; [apply gctx_orthogonal; vm_compute; reflexivity|]. split; [reflexivity|].
  split.
  { split.
    - intros c ty. unfold get_type. cbn. repeat (destruct (_ =? _); [intros [= <-]; cbn; tauto|]). discriminate.
    - intros c rs r. unfold get_rules. cbn. repeat (destruct (_ =? _); [intros [= <-] Hin; cbn in Hin; intuition; subst; exact I|]). discriminate. }
  split; [cbn; tauto|]. split; [|vm_compute; reflexivity].
  change (erl sort_tm) with (Pi (App (Const 3) (Const 1)) (Const 0)).
  assert (HF : forall t, conv (er_gctx sort_gc) (App (Const 2) t) Typ).
  { intros t. apply (conv_rule (er_gctx sort_gc) 2 [MkSRule 0 [PatJoker] Typ] (MkSRule 0 [PatJoker] Typ) Var [t]);
      [vm_compute; reflexivity|left; reflexivity|apply usable_none; reflexivity|repeat constructor]. }
  eapply inf_pi; [| |left; reflexivity].
  - change Typ with (subst1 (Const 1) Typ). eapply inf_app with (A := Const 0); [apply inf_const; reflexivity| |].
    + cbn. apply conv_pi; [apply conv_refl|]. apply HF.
    + eapply chk_infer; [apply inf_const; reflexivity|apply conv_refl].
  - apply inf_const. reflexivity.
Qed.
