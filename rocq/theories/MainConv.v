(** * Negative answers of convertibility *)

From Coq Require Import List Arith Lia Bool.
From Verif Require Import Base ModelTerm ModelGctx ModelCommand ModelSubst ModelReduce ModelInfer
  SpecTerm SpecConv SpecConvFacts SpecWhnf SpecRed RedConfl EtaConfl RedStuck RedCheck Erase RefMachine RefSound RefStuck MainKernel.
Import ListNotations.

Lemma main_not_convertible uniq gc n t u : church_rosser (er_gctx gc) -> eta_safe (er_gctx gc) ->
  run (convertible uniq gc n t u) = Ok false -> ~ conv (er_gctx gc) (ers t) (ers u).
Proof.
  intros Hcr He H. apply run_convertible_ref in H. destruct H as [h H]. eapply r_conv_complete; [exact Hcr|exact He|exact H].
Qed.
Lemma main_convertible_iff uniq gc n t u b : orthogonal (er_gctx gc) -> eta_safe (er_gctx gc) ->
  run (convertible uniq gc n t u) = Ok b -> (b = true <-> conv (er_gctx gc) (ers t) (ers u)).
Proof.
  intros Ho He H. pose proof (safe_church_rosser _ Ho He) as Hcr. destruct b.
  - split; [|reflexivity]. intros _. eapply main_convertible; exact H.
  - split; [discriminate|]. intros Hc. destruct (main_not_convertible _ _ _ _ _ Hcr He H Hc).
Qed.
Lemma main_transitive uniq1 uniq2 uniq3 gc n1 n2 n3 t u v b : church_rosser (er_gctx gc) -> eta_safe (er_gctx gc) ->
  run (convertible uniq1 gc n1 t u) = Ok true -> run (convertible uniq2 gc n2 u v) = Ok true ->
  run (convertible uniq3 gc n3 t v) = Ok b -> b = true.
Proof.
  intros Hcr He H1 H2 H3. destruct b; [reflexivity|]. exfalso. eapply main_not_convertible; try eassumption.
  eapply conv_trans; eapply main_convertible; eassumption.
Qed.

Lemma head_apps us : forall h, head (apps h us) = head h.
Proof. induction us; intros h; cbn; [reflexivity|]. rewrite IHus. reflexivity. Qed.
Lemma nargs_apps us : forall h, nargs (apps h us) = nargs h + length us.
Proof. induction us as [|u us IH]; intros h; cbn; [lia|]. rewrite IH. cbn. lia. Qed.
Lemma nargs_strip t : nargs (strip t) = nargs t.
Proof. induction t; cbn; congruence. Qed.
Lemma not_app_head h : not_app h -> head h = h /\ nargs h = 0.
Proof. destruct h; cbn; auto; contradiction. Qed.
Lemma stuck_head_normal sg t : stuck sg t -> head_normal sg t.
Proof.
  intros [h us Hr|a b|b].
  - pose proof (rigid_not_app _ _ _ Hr) as Hn. destruct (not_app_head _ Hn) as [H1 H2]. split.
    + intros b. rewrite strip_apps, head_apps, H1. intros E. rewrite E in Hr. destruct Hr.
    + intros v Hv. rewrite <- (nargs_strip (apps h us)). rewrite strip_apps in *. destruct (reds_apps_inv _ _ _ _ Hr Hv) as (h' & us' & -> & Hus & Hh).
      assert (Hn' : not_app h') by (eapply rigid_not_app; eapply hred_rigid; [exact Hh|exact Hus|exact Hr]).
      destruct (not_app_head _ Hn') as [H3 H4]. unfold same_head. rewrite !head_apps, !nargs_apps, H1, H2, H3, H4.
      rewrite <- (RefSound.Forall2_length Hus). split; [|reflexivity].
      destruct (strip h) eqn:E; cbn in Hh; try (subst h'; cbn; auto; fail); try (destruct Hr; fail).
      destruct Hh as (a' & b' & -> & _). exact I.
  - split; [reflexivity|]. intros v Hv. cbn [strip] in Hv. destruct (reds_ulam_inv _ _ _ Hv) as (b' & -> & _). split; [exact I|reflexivity].
  - split; [reflexivity|]. intros v Hv. cbn [strip] in Hv. destruct (reds_ulam_inv _ _ _ Hv) as (b' & -> & _). split; [exact I|reflexivity].
Qed.

Lemma main_whnf_stuck uniq gc n t t' : church_rosser (er_gctx gc) -> eta_safe (er_gctx gc) ->
  run (whnf uniq gc n t) = Ok t' -> stuck (er_gctx gc) (ers t').
Proof. intros Hcr He H. apply run_whnf_ref in H. destruct H as [h H]. eapply r_whnf_stuck; [exact Hcr|exact He|exact H]. Qed.
Lemma main_head_normal uniq gc n t t' : church_rosser (er_gctx gc) -> eta_safe (er_gctx gc) ->
  run (whnf uniq gc n t) = Ok t' -> head_normal (er_gctx gc) (ers t').
Proof. intros. apply stuck_head_normal. eapply main_whnf_stuck; eassumption. Qed.

Lemma stuck_conv_rigid sg t h : church_rosser sg -> sg_eta sg = false -> stuck sg t -> conv sg t h -> rigid sg (strip h) [] ->
  heads sg t h.
Proof.
  intros Hcr He Hs Hc Hr. destruct Hs as [k us Hk|a b|b].
  - change h with (apps h []) in Hc. destruct (conv_stuck sg (eta_off_safe _ He) Hcr k us h [] Hk Hr Hc) as [H1 H2].
    inversion H2; subst. exact H1.
  - exfalso. eapply (conv_stuck_lam sg Hcr b h [] He); [exact Hr|]. eapply conv_trans; [apply conv_sym; apply conv_annot|exact Hc].
  - exfalso. eapply (conv_stuck_lam sg Hcr b h [] He); [exact Hr|exact Hc].
Qed.
Lemma main_whnf_prod uniq gc n t t' a b : church_rosser (er_gctx gc) -> g_eta gc = false ->
  run (whnf uniq gc n t) = Ok t' -> conv (er_gctx gc) (ers t) (Pi a b) ->
  exists a' b', ers t' = Pi a' b' /\ conv (er_gctx gc) a' a /\ conv (er_gctx gc) b' b.
Proof.
  intros Hcr He H Hc. pose proof (main_whnf_stuck _ _ _ _ _ Hcr (eta_off_safe (er_gctx gc) He) H) as Hs. pose proof (main_whnf _ _ _ _ _ H) as Hw.
  assert (Hh : heads (er_gctx gc) (ers t') (Pi a b)).
  { apply stuck_conv_rigid; [exact Hcr|exact He|exact Hs| |exact I]. eapply conv_trans; [apply conv_sym; exact Hw|exact Hc]. }
  destruct (ers t'); cbn in Hh; try contradiction. destruct Hh. eauto.
Qed.
Lemma main_whnf_sort uniq gc n t t' s : church_rosser (er_gctx gc) -> g_eta gc = false -> s = Typ \/ s = Kind ->
  run (whnf uniq gc n t) = Ok t' -> conv (er_gctx gc) (ers t) s -> ers t' = s.
Proof.
  intros Hcr He Hsrt H Hc. pose proof (main_whnf_stuck _ _ _ _ _ Hcr (eta_off_safe (er_gctx gc) He) H) as Hs. pose proof (main_whnf _ _ _ _ _ H) as Hw.
  assert (Hh : heads (er_gctx gc) (ers t') s).
  { apply stuck_conv_rigid; [exact Hcr|exact He|exact Hs| |destruct Hsrt; subst; exact I]. eapply conv_trans; [apply conv_sym; exact Hw|exact Hc]. }
  destruct Hsrt; subst s; destruct (ers t'); cbn in Hh; try contradiction; try discriminate; reflexivity.
Qed.
Lemma main_convertible_complete uniq gc n t u b : complete (er_gctx gc) -> g_eta gc = false ->
  run (convertible uniq gc n t u) = Ok b -> (b = true <-> conv (er_gctx gc) (ers t) (ers u)).
Proof.
  intros Ho He H. pose proof (complete_church_rosser _ Ho He) as Hcr. destruct b.
  - split; [|reflexivity]. intros _. eapply main_convertible; exact H.
  - split; [discriminate|]. intros Hc. destruct (main_not_convertible _ _ _ _ _ Hcr (fun E => ltac:(cbn in E; congruence)) H Hc).
Qed.
