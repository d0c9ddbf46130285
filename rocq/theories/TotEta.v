(** * Comparison of strongly normalising terms returns, also with eta over definitions *)

From Verif Require Import Base LibMono ModelTerm ModelGctx ModelSubst ModelReduce ModelInfer
  SpecTerm SpecConv SpecConvFacts SpecWhnf SpecRed SpecSN RedConfl EtaConfl RedStuck RedSN Erase
  RefMachine RefSafe RefStuck SimReduce RefRed TotReduce TotConv EtaTyped EtaTerm.

Open Scope sm_scope.

Section Machine.
  Variable uniq : nat -> bool.
  Variable gc : gctx.
  Notation sg := (er_gctx gc).
  Hypothesis Hlin : left_linear sg.
  Hypothesis Hsafe : eta_safe sg.

  Section On.
    Hypothesis He : sg_eta sg = true.
    Let Hcr : church_rosser sg := safe_church_rosser sg (proj1 (Hsafe He)) Hsafe.

    Lemma whnf_part_stuck n t s t' s' : hinv s -> whnf uniq gc n t s = Ok (t', s') -> stuck sg (ers t').
    Proof.
      intros Hi E. pose proof (whnf_sim uniq gc n t s Hi) as H. rewrite E in H. destruct H as (H & _).
      eapply r_whnf_stuck; [exact Hcr|exact Hsafe|exact H].
    Qed.
    Lemma reds_sn t u : reds sg t u -> sn sg t -> sn sg u.
    Proof. induction 1; [auto|]. intros [Hs]. auto. Qed.

    Lemma pair_eta m : forall t u k l cns, k + l < m -> strongly_normalising sg (ers t) -> strongly_normalising sg (ers u) ->
      weighs sg (strip (ers t)) k -> weighs sg (strip (ers u)) l ->
      loop_tot uniq gc cns -> loop_tot uniq gc ((t, u) :: cns).
    Proof.
      induction m as [|m IH]; [intros; lia|]. intros t u k l cns Hm Ht Hu Wt Wu Hc s Hi.
      apply (tot_S _ _ (fun n => if sterm_eqb t u then convertible_loop uniq gc n cns
        else
        bind (whnf uniq gc n t) (fun t =>
        bind (whnf uniq gc n u) (fun u =>
        bind (step uniq (g_eta gc) t u) (fun o =>
        match o with
        | None => ret false
        | Some new => convertible_loop uniq gc n (new ++ cns)
        end))))); [intros; reflexivity|].
      destruct (sterm_eqb t u); [apply Hc; exact Hi|].
      apply (tot_bind s (fun n => whnf uniq gc n t)); [apply whnf_tot; assumption|]. intros n t' s1 E1.
      destruct (whnf_part uniq gc Hlin _ _ _ _ _ Hi E1) as (Hc1 & Hi1 & Hr1). pose proof (whnf_part_stuck _ _ _ _ _ Hi E1) as St1.
      apply (tot_bind s1 (fun n => whnf uniq gc n u)); [apply whnf_tot; assumption|]. intros p u' s2 E2.
      destruct (whnf_part uniq gc Hlin _ _ _ _ _ Hi1 E2) as (Hc2 & Hi2 & Hr2). pose proof (whnf_part_stuck _ _ _ _ _ Hi1 E2) as St2.
      apply (tot_bind s2 (fun _ => step uniq (g_eta gc) t' u')); [apply tot_const; apply step_fuel|]. intros _ o s3 E3.
      pose proof (step_sim uniq (g_eta gc) t' u' Hc1 Hc2 s2 Hi2) as H. rewrite E3 in H. destruct H as (H & _ & Hi3).
      destruct o as [new|]; [|apply tot_ret]. change (g_eta gc) with (sg_eta sg) in H. rewrite He in H. cbn in H. injection H as H _.
      apply (step_lighter sg Hsafe He _ _ _ k l St1 St2) in H;
        [|eapply reds_sn; [exact Hr1|exact Ht]|eapply reds_sn; [exact Hr2|exact Hu]
         |eapply (weighs_reds sg Hsafe He); [exact Wt|exact Hr1]|eapply (weighs_reds sg Hsafe He); [exact Wu|exact Hr2]].
      clear E3. apply Forall_map in H. revert s3 Hi3. change (loop_tot uniq gc (new ++ cns)).
      clear - H IH Hc Hm. induction new as [|[a b] new IHn]; [exact Hc|]. apply Forall_cons_iff in H. destruct H as [(Ha & Hb & i & j & Wa & Wb & Hij) H].
      cbn [app]. apply (IH a b i j); try assumption; [lia|]. apply IHn. exact H.
    Qed.
  End On.

  Lemma convertible_tot_safe t u s : strongly_normalising sg (ers t) -> strongly_normalising sg (ers u) -> hinv s ->
    tot s (fun n => convertible uniq gc n t u).
  Proof.
    intros Ht Hu Hi. destruct (sg_eta sg) eqn:He; [|apply convertible_tot; assumption].
    destruct (weighs_exists sg Hsafe He _ Ht) as [k Wk]. destruct (weighs_exists sg Hsafe He _ Hu) as [l Wl].
    unfold convertible. apply (pair_eta He (S (k + l)) t u k l []); auto using loop_nil.
  Qed.
End Machine.
