(** * Types of evaluated terms are unique; what has a typed term is a type *)

From Verif Require Import Base ModelTerm ModelGctx ModelCommand ModelSubst ModelReduce ModelInfer
  SpecTerm SpecConv SpecConvFacts SpecTyping SpecRed SpecSN SpecType SpecDomain RedConfl EtaConfl RedStuck RefMachine Erase SimReduce RefSound Inv SoundInfer
  RefRed TypeFacts DomFacts EtaTyped SoundDom.

Section Unique.
  Variable sg : sig.
  Notation conv := (conv sg).
  Notation wt := (well_typed sg).
  Notation reds := (reds sg).
  Hypothesis Hcr : church_rosser sg.
  Hypothesis Hpi : pi_injective sg.

  (** No abstraction is applied at the head of the term, or of the codomains of products. *)
  Fixpoint flat (t : tm) : Prop :=
    match t with
    | App t u => flat t /\ match t with ULam _ => False | _ => True end
    | Pi a b => flat b
    | _ => True
    end.

  Lemma reds_appl t t' u : reds t t' -> reds (App t u) (App t' u).
  Proof. induction 1; [constructor|]. econstructor; [apply red_appl; eassumption|assumption]. Qed.
  Lemma reds_pir a b b' : reds b b' -> reds (Pi a b) (Pi a b').
  Proof. induction 1; [constructor|]. econstructor; [apply red_pir; eassumption|assumption]. Qed.
  Lemma reds_app t u v : reds t u -> reds u v -> reds t v.
  Proof. induction 1; intros; [assumption|]. econstructor; eauto. Qed.
  Lemma sn_appl t u : sn sg (App t u) -> sn sg t.
  Proof.
    intros H. remember (App t u) as v eqn:E. revert t E. induction H as [v _ IH]. intros t ->. constructor. intros t' Ht.
    eapply IH; [apply red_appl; exact Ht|reflexivity].
  Qed.
  Lemma sn_pir a b : sn sg (Pi a b) -> sn sg b.
  Proof.
    intros H. remember (Pi a b) as v eqn:E. revert b E. induction H as [v _ IH]. intros b ->. constructor. intros b' Hb.
    eapply IH; [apply red_pir; exact Hb|reflexivity].
  Qed.
  Lemma flat_step t : flat t \/ exists u, red sg t u.
  Proof.
    induction t; cbn [flat]; try (left; exact I).
    - destruct IHt1 as [H|[u H]]; [|right; eexists; apply red_appl; exact H].
      destruct t1; try (left; split; [exact H|exact I]). right. eexists. apply red_beta.
    - destruct IHt2 as [H|[u H]]; [left; exact H|right; eexists; apply red_pir; exact H].
  Qed.
  Lemma flat_exists t : sn sg t -> exists u, reds t u /\ flat u.
  Proof.
    induction 1 as [t _ IH]. destruct (flat_step t) as [H|[u H]]; [exists t; split; [constructor|exact H]|].
    destruct (IH u H) as (v & H1 & H2). exists v. split; [econstructor; eassumption|exact H2].
  Qed.

  Lemma reds_sort s t : s = Typ \/ s = Kind -> reds s t -> t = s.
  Proof.
    intros Hs H. induction H as [|t u v H _ IH]; [reflexivity|]. exfalso. clear IH.
    destruct H as [| | | | | | | |]; try (destruct Hs; discriminate).
    destruct ts as [|x ts] using rev_ind; [cbn in Hs; destruct Hs; discriminate|]. rewrite apps_snoc in Hs. destruct Hs; discriminate.
  Qed.
  Lemma reds_pi a b t : reds (Pi a b) t -> exists a' b', t = Pi a' b' /\ reds a a' /\ reds b b'.
  Proof.
    intros H. remember (Pi a b) as p eqn:E. revert a b E. induction H as [|t u v H _ IH]; intros a b ->; [eauto 6 using reds_refl|].
    inversion H as [|c rs r s ts ? ? ? ? E1| | | | | |a0 a' b0 Ha E1 E2|a0 b0 b' Hb E1 E2]; subst.
    - exfalso. destruct ts as [|x ts] using rev_ind; [discriminate|]. rewrite apps_snoc in E1. discriminate.
    - destruct (IH _ _ eq_refl) as (a1 & b1 & -> & H1 & H2). exists a1, b1. split; [reflexivity|]. split; [econstructor; eassumption|exact H2].
    - destruct (IH _ _ eq_refl) as (a1 & b1 & -> & H1 & H2). exists a1, b1. split; [reflexivity|]. split; [exact H1|econstructor; eassumption].
  Qed.
  (** Only abstractions have several types. *)
  Lemma flat_unique t : flat t -> forall G A B, wt G t A -> wt G t B -> conv A B \/ exists b, t = ULam b.
  Proof.
    induction t; cbn [flat]; intros Hf G A B HA HB.
    - destruct (wgen_kind _ _ _ HA).
    - left. assert (X : forall T, wt G Typ T -> conv Kind T).
      { clear. intros T H. remember Typ as t eqn:E. induction H; try discriminate; [apply conv_refl|]. eapply conv_trans; [apply IHwell_typed; exact E|assumption]. }
      eapply conv_trans; [apply conv_sym|]; apply X; assumption.
    - destruct (wgen_const _ _ _ _ HA) as (T & E & H1). destruct (wgen_const _ _ _ _ HB) as (T' & E' & H2).
      left. assert (T' = T) as -> by congruence. eapply conv_trans; [apply conv_sym; exact H1|exact H2].
    - destruct (wgen_var _ _ _ _ HA) as (T & E & H1). destruct (wgen_var _ _ _ _ HB) as (T' & E' & H2).
      left. assert (T' = T) as -> by congruence. eapply conv_trans; [apply conv_sym; exact H1|exact H2].
    - destruct Hf as [Hf Hl]. destruct (wgen_app _ _ _ _ _ HA) as (A1 & B1 & H1 & _ & C1). destruct (wgen_app _ _ _ _ _ HB) as (A2 & B2 & H2 & _ & C2).
      destruct (IHt1 Hf G _ _ H1 H2) as [H|[b ->]]; [|contradiction]. left. destruct (Hpi _ _ _ _ H) as [_ HBs].
      eapply conv_trans; [apply conv_sym; exact C1|]. eapply conv_trans; [|exact C2]. apply conv_subst1; [apply conv_refl|exact HBs].
    - destruct (wgen_lam _ _ _ _ _ HA).
    - right. eauto.
    - destruct (wgen_pi _ _ _ _ _ HA) as (s1 & _ & H1 & S1 & C1). destruct (wgen_pi _ _ _ _ _ HB) as (s2 & _ & H2 & S2 & C2).
      left. destruct (IHt2 Hf _ _ _ H1 H2) as [H|[b ->]].
      + eapply conv_trans; [apply conv_sym; exact C1|]. eapply conv_trans; [exact H|exact C2].
      + exfalso. destruct (wgen_ulam _ _ _ _ H1) as (A0 & B0 & _ & _ & _ & C). exact (conv_pi_sort _ _ _ _ Hcr S1 C).
  Qed.

  Hypothesis Hst : stable_types sg.
  Hypothesis Hrules : good_rules sg.
  Hypothesis Hsn : normalising sg.
  Hypothesis Hsafe : eta_safe sg.

  (** A well-typed term that is convertible with a type is a type. *)
  Lemma conv_type G T U K : type_ctx sg G -> conv T U -> wt G (strip U) K ->
    T = Kind \/ (exists s, (s = Typ \/ s = Kind) /\ wt G (strip T) s) -> exists s, (s = Typ \/ s = Kind) /\ wt G (strip U) s.
  Proof.
    intros HG Hc HU HT. destruct (sg_eta sg) eqn:He.
    { assert (Hc' : conv (strip T) (strip U)) by (eapply conv_trans; [apply conv_sym, conv_strip|]; eapply conv_trans; [exact Hc|apply conv_strip]).
      destruct HT as [->|(s & Hs & HT)]; [destruct (eta_not_kind sg Hcr Hpi Hst Hrules Hsn Hsafe He _ _ _ HG HU (conv_sym _ _ _ Hc'))|].
      exists s. split; [exact Hs|]. eapply wt_conv; [exact HU|]. exact (eta_sort_unique sg Hcr Hpi Hst Hrules Hsn Hsafe He _ _ _ _ _ HG Hc' Hs HT HU). }
    destruct (Hcr _ _ Hc) as (v & H1 & H2). apply (redxs_reds _ _ _ He) in H1, H2. pose proof (wt_reds _ Hst Hpi Hrules _ _ H2 _ _ HU) as Hv.
    destruct HT as [->|(s & Hs & HT)].
    - exfalso. apply reds_sort in H1; [|right; reflexivity]. subst v. eapply wgen_kind; exact Hv.
    - pose proof (wt_reds _ Hst Hpi Hrules _ _ H1 _ _ HT) as Hv'.
      destruct (flat_exists v) as (w & H3 & Hf); [eapply Hsn; eassumption|].
      pose proof (wt_reds _ Hst Hpi Hrules _ _ H3 _ _ Hv) as Hw. pose proof (wt_reds _ Hst Hpi Hrules _ _ H3 _ _ Hv') as Hw'.
      exists s. split; [exact Hs|]. destruct (flat_unique w Hf _ _ _ Hw Hw') as [H|[b ->]]; [eapply wt_conv; eassumption|].
      exfalso. destruct (wgen_ulam _ _ _ _ Hw') as (A0 & B0 & _ & _ & _ & C). exact (conv_pi_sort _ _ _ _ Hcr Hs C).
  Qed.
End Unique.

(** ** The type of a successful check is a type. *)
Section Check.
  Variable uniq : nat -> bool.
  Variable gc : gctx.
  Notation sg := (er_gctx gc).
  Hypothesis Hst : stable_types sg.
  Hypothesis Hpi : pi_injective sg.
  Hypothesis Hlin : left_linear sg.
  Hypothesis Hrules : good_rules sg.
  Hypothesis Htypes : good_types sg.
  Hypothesis Hcr : church_rosser sg.
  Hypothesis Hsn : normalising sg.
  Hypothesis Hsafe : eta_safe sg.

  Lemma check_type n lc t ty : Forall kf lc -> kf t -> kf ty -> type_ctx sg (ctx lc) -> (exists K, well_typed sg (ctx lc) (ss ty) K) ->
    ok0 (fun b => b = true -> exists s, (s = Typ \/ s = Kind) /\ well_typed sg (ctx lc) (ss ty) s) (ModelInfer.check uniq gc n lc t ty).
  Proof.
    destruct n as [|n]; [intros; apply ok0_nofuel|]. intros Hlc Ht Hty Hctx [K HK]. cbn [ModelInfer.check].
    destruct (get_abst t) as [[[id oa] b]|] eqn:Ea.
    - destruct (get_abst_kf _ _ _ _ Ea Ht) as [Hka Hkb].
      eapply ok0_bind; [apply ok0_and; [apply whnf_ok; exact Hty|apply whnf_red; exact Hlin]|]. intros ty' [[_ Hk] Hr].
      eapply ok0_bind; [apply ok0_ok_or with (P := fun p => get_prod ty' = Some p); auto|].
      intros [[id' A] B] Hp. destruct (get_prod_kf _ _ _ _ Hp Hk) as [HA HB]. apply get_prod_ss in Hp. rewrite Hp in Hr.
      pose proof (wt_reds _ Hst Hpi Hrules _ _ Hr _ _ HK) as HP. destruct (wgen_pi _ _ _ _ _ HP) as (s' & HAt & HBt & Hs' & Hc).
      assert (HT : exists s, (s = Typ \/ s = Kind) /\ well_typed sg (ctx lc) (ss ty) s)
        by (exists s'; split; [exact Hs'|]; eapply wt_conv; [exact HK|apply conv_sym; exact Hc]).
      eapply ok0_bind with (P := fun _ => True).
      + destruct oa as [a|]; [|apply ok0_ret; auto].
        eapply ok0_bind; [apply (proj1 (infer_wt uniq gc Hst Hpi Hlin Hrules Htypes n)); assumption|]. intros K' _. eapply ok0_post; [|apply convertible_ok]. auto.
      + intros [|] _; [|apply ok0_ret; discriminate].
        eapply ok0_post; [|apply (proj2 (infer_wt uniq gc Hst Hpi Hlin Hrules Htypes n)); [constructor; assumption|assumption|assumption|constructor; assumption|eexists; exact HBt]].
        intros ok _ _. exact HT.
    - eapply ok0_bind; [apply (proj1 (infer_wt uniq gc Hst Hpi Hlin Hrules Htypes n)); assumption|]. intros T (_ & _ & HT).
      eapply ok0_post; [|apply convertible_ok]. cbn beta. intros ok Hc E.
      eapply (conv_type sg Hcr Hpi Hst Hrules Hsn Hsafe (ctx lc) (ers T) (ers ty)); [exact Hctx|exact (Hc E)|exact HK|].
      destruct HT as [HT|HT]; [left; apply strip_kind; exact HT|right; exact HT].
  Qed.
End Check.
