(** * Well-typed terms over definitions, with eta: what is convertible with types, sorts and products

    Eta steps are not followed here: all terms are evaluated without them, and only compared up to them. *)

From Coq Require Import List Arith Lia Bool.
From Verif Require Import SpecTerm SpecConv SpecConvFacts SpecWhnf SpecRed SpecSN SpecType SpecDomain RedConfl EtaConfl RedStuck TypeFacts DomFacts.
Import ListNotations.

Lemma wt_strip sg G t A : well_typed sg G t A -> strip t = t.
Proof. induction 1; cbn [strip]; congruence. Qed.
Lemma ren_apps r us : forall h, ren r (apps h us) = apps (ren r h) (map (ren r) us).
Proof. induction us as [|u us IH]; intros h; cbn; [reflexivity|]. rewrite IH. reflexivity. Qed.

Section Eta.
  Variable sg : sig.
  Notation conv := (conv sg).
  Notation wt := (well_typed sg).
  Notation reds := (reds sg).
  Notation sort s := (s = Typ \/ s = Kind).
  Hypothesis Hcr : church_rosser sg.
  Hypothesis Hpi : pi_injective sg.
  Hypothesis Hst : stable_types sg.
  Hypothesis Hrules : good_rules sg.
  Hypothesis Hsn : normalising sg.
  Hypothesis Hsafe : eta_safe sg.
  Hypothesis He : sg_eta sg = true.

  (** ** Normal forms *)
  Fixpoint nf (t : tm) : Prop :=
    match t with
    | Kind | Typ | Var _ => True
    | Const c => forall r, ~ rule_of sg c r
    | App t u => nf t /\ nf u /\ match t with ULam _ => False | _ => True end
    | Lam _ _ => False
    | ULam b => nf b
    | Pi a b => nf a /\ nf b
    end.

  Lemma rule_dec c : (forall r, ~ rule_of sg c r) \/ exists u, red sg (Const c) u.
  Proof.
    destruct (sg_rules sg c) as [rs|] eqn:E; [|left; intros r (rs & E' & _); congruence].
    destruct (existsb (fun r => match sr_args r with [] => sr_vars r =? 0 | _ => false end) rs) eqn:Ex.
    - right. apply existsb_exists in Ex. destruct Ex as (r & Hin & Hr). destruct (sr_args r) eqn:Ea; [|discriminate]. apply Nat.eqb_eq in Hr.
      eexists. apply (red_rule sg c rs r Var [] E Hin); [|rewrite Ea; constructor].
      intros m. rewrite Ea, Hr. cbn. lia.
    - left. intros r (rs' & E' & Hin & Hu). replace rs' with rs in * by congruence.
      assert (Ha : sr_args r = []) by (apply (proj2 (Hsafe He) c); exists rs; auto).
      assert (Hv : sr_vars r = 0).
      { destruct (sr_vars r) eqn:Ev; [reflexivity|]. destruct (Hu 0) as [H _]. rewrite Ev, Ha in H. destruct H. lia. }
      apply (Bool.not_true_iff_false _) in Ex. apply Ex. apply existsb_exists. exists r. rewrite Ha, Hv. auto.
  Qed.
  Lemma nf_step t : strip t = t -> nf t \/ exists u, red sg t u.
  Proof.
    induction t as [| |c|x|t IHt u IHu|a IHa t IHt|t IHt|a IHa b IHb]; cbn [nf strip]; intros E; auto.
    - apply rule_dec.
    - injection E as E1 E2. destruct (IHt E1) as [H1|[t' H]]; [|right; eexists; apply red_appl; exact H].
      destruct (IHu E2) as [H2|[u' H]]; [|right; eexists; apply red_appr; exact H].
      destruct t; auto. right. eexists. apply red_beta.
    - discriminate.
    - injection E as E. destruct (IHt E) as [H|[t' H]]; [auto|right; eexists; apply red_ulam; exact H].
    - injection E as E1 E2. destruct (IHa E1) as [H1|[t' H]]; [|right; eexists; apply red_pil; exact H].
      destruct (IHb E2) as [H2|[u' H]]; [auto|right; eexists; apply red_pir; exact H].
  Qed.
  Lemma nf_exists G t A : type_ctx sg G -> wt G t A -> exists u, reds t u /\ nf u.
  Proof.
    intros HG Ht. pose proof (Hsn _ _ _ HG Ht) as H. revert Ht. induction H as [t _ IH]. intros Ht.
    destruct (nf_step t (wt_strip _ _ _ _ Ht)) as [H|[u H]]; [exists t; split; [constructor|exact H]|].
    destruct (IH u H (wt_red _ Hst Hpi Hrules _ _ H _ _ Ht)) as (v & H1 & H2). exists v. split; [econstructor; eassumption|exact H2].
  Qed.
  Lemma nf_cases t : nf t -> (exists b, t = ULam b) \/ exists h us, t = apps h us /\ rigid sg h us.
  Proof.
    induction t as [| |c|x|t IHt u IHu|a IHa t IHt|t IHt|a IHa b IHb]; cbn [nf]; intros H; eauto; try (right; eexists _, []; split; [reflexivity|exact I]; fail).
    - right. exists (Const c), []. split; [reflexivity|]. intros us _ r Hr. destruct (H r Hr).
    - destruct H as (H1 & H2 & H3). destruct (IHt H1) as [[b ->]|(h & us & -> & Hr)]; [contradiction|].
      right. exists h, (us ++ [u]). split; [rewrite apps_snoc; reflexivity|]. eapply rigid_more; eassumption.
    - contradiction.
  Qed.
  Lemma rigid_strip h us ws : rigid sg h us -> rigid sg (strip h) ws.
  Proof. intros H. destruct h; cbn [strip] in *; try exact I; try contradiction. exact (rigid_more sg Hsafe _ _ ws He H). Qed.
  Lemma stuck_conv h us k ws : rigid sg h us -> rigid sg k ws -> conv (apps h us) (apps k ws) -> heads sg h k /\ Forall2 conv us ws.
  Proof. intros H1 H2. apply (conv_stuck sg Hsafe Hcr); eapply rigid_strip; eassumption. Qed.
  Lemma rigid_ren r h us ws : rigid sg h us -> rigid sg (ren r h) ws.
  Proof. intros H. destruct h; cbn [ren] in *; try exact I; try contradiction. exact (rigid_more sg Hsafe _ _ ws He H). Qed.

  (** ** Types of applications *)
  Lemma typed_prefix G h us ws : forall A, wt G (apps h (us ++ ws)) A -> exists B, wt G (apps h us) B /\ (ws <> [] -> exists C D, B = Pi C D).
  Proof.
    induction ws as [|w ws IH] using rev_ind; intros A H.
    - rewrite app_nil_r in H. exists A. split; [exact H|]. intros []. reflexivity.
    - rewrite app_assoc, apps_snoc in H. destruct (wgen_app _ _ _ _ _ H) as (C & D & H1 & _ & _).
      destruct ws as [|x ws _] using rev_ind; [rewrite app_nil_r in H1; eauto|]. destruct (IH _ H1) as (B & H2 & H3). exists B. split; [exact H2|].
      intros _. apply H3. destruct ws; discriminate.
  Qed.
  Lemma pi_no_args G a b us K : wt G (apps (Pi a b) us) K -> us = [].
  Proof.
    intros H. destruct us as [|u us]; [reflexivity|]. destruct (typed_prefix G (Pi a b) [] (u :: us) _ H) as (B & H1 & H2).
    destruct (H2 ltac:(discriminate)) as (C & D & ->). cbn in H1. destruct (wgen_pi _ _ _ _ _ H1) as (s & _ & _ & Hs & Hc).
    exfalso. apply conv_sym in Hc. revert Hc. apply conv_pi_sort; assumption.
  Qed.
  Lemma wgen_sort G T : wt G Typ T -> conv Kind T.
  Proof. intros H. remember Typ as t eqn:E. induction H; try discriminate; [apply conv_refl|]. eapply conv_trans; [apply IHwell_typed; exact E|assumption]. Qed.
  (** pairwise convertible arguments *)
  Lemma spine_conv G h us us' : Forall2 conv us us' -> rigid sg h us -> (forall a b, h <> Pi a b) ->
    forall A B, wt G (apps h us) A -> wt G (apps h us') B -> conv A B.
  Proof.
    revert us'. induction us as [|u us IH] using rev_ind; intros us' Hus Hr Hp A B HA HB.
    - inversion Hus; subst. cbn in HA, HB. destruct h; try contradiction.
      + destruct (wgen_kind _ _ _ HA).
      + eapply conv_trans; [apply conv_sym|]; apply (wgen_sort G); assumption.
      + destruct (wgen_const _ _ _ _ HA) as (T & E & H1). destruct (wgen_const _ _ _ _ HB) as (T' & E' & H2).
        assert (T' = T) as -> by congruence. eapply conv_trans; [apply conv_sym; exact H1|exact H2].
      + destruct (wgen_var _ _ _ _ HA) as (T & E & H1). destruct (wgen_var _ _ _ _ HB) as (T' & E' & H2).
        assert (T' = T) as -> by congruence. eapply conv_trans; [apply conv_sym; exact H1|exact H2].
      + destruct (Hp h1 h2). reflexivity.
    - apply Forall2_app_inv_l in Hus. destruct Hus as (us1 & l & H1 & H2 & ->). inversion H2 as [|? u' ? ? Hu Hn]; subst. inversion Hn; subst.
      rewrite apps_snoc in HA, HB. destruct (wgen_app _ _ _ _ _ HA) as (A1 & B1 & K1 & _ & C1). destruct (wgen_app _ _ _ _ _ HB) as (A2 & B2 & K2 & _ & C2).
      assert (Hr' : rigid sg h us) by (eapply rigid_more; eassumption).
      destruct (Hpi _ _ _ _ (IH _ H1 Hr' Hp _ _ K1 K2)) as [_ Hb].
      eapply conv_trans; [apply conv_sym; exact C1|]. eapply conv_trans; [|exact C2]. apply conv_subst1; assumption.
  Qed.

  (** ** What is convertible with a type is not an abstraction *)
  Lemma lift1_apps h us u : App (lift 1 (apps h us)) u = apps (lift 1 h) (map (lift 1) us ++ [u]).
  Proof. unfold lift at 1. rewrite ren_apps, apps_snoc. reflexivity. Qed.
  Lemma expanded_false u : nf u -> forall G h us ws s K, rigid sg h us -> sort s -> wt G (apps h us) s -> wt G u K -> ws <> [] ->
    ~ conv (apps h (us ++ ws)) u.
  Proof.
    induction u as [| |c|x|u IHu v IHv|a IHa u IHu|u IHu|a IHa b IHb]; intros Hn G h us ws s K Hr Hs HT HU Hw Hc;
      try (destruct (nf_cases _ Hn) as [[b' Eb]|(k & vs & E & Hk)]; [discriminate|];
        rewrite E in Hc, HU; assert (Hr' : rigid sg h (us ++ ws)) by (eapply rigid_more; eassumption);
        destruct (stuck_conv _ _ _ _ Hr' Hk Hc) as [Hh Hv]; apply Forall2_app_inv_l in Hv; destruct Hv as (us' & ws' & V1 & V2 & ->);
        assert (Hw' : ws' <> []) by (intros ->; inversion V2; subst; exact (Hw eq_refl));
        destruct (typed_prefix _ _ _ _ _ HU) as (B & H1 & H2); destruct (H2 Hw') as (C & D & ->);
        destruct h as [| |c'|x'|h1 h2|h1 h2|h1|h1 h2]; try contradiction;
        [destruct k; try discriminate Hh; try contradiction; rewrite <- ?Hh in H1;
         refine (conv_pi_sort sg C D s Hcr Hs (conv_sym _ _ _ (spine_conv G _ us us' V1 Hr _ _ _ HT H1))); intros ? ?; discriminate..
        |destruct k; cbn in Hh; try contradiction; apply pi_no_args in HU; destruct us'; [exact (Hw' HU)|discriminate]]).
    - destruct Hn.
    - destruct (wgen_ulam _ _ _ _ HU) as (A & B & _ & HB & _ & _). cbn in Hn.
      apply conv_sym, conv_stuck_body in Hc. rewrite lift1_apps, map_app, <- app_assoc in Hc.
      apply (IHu Hn (A :: G) (lift 1 h) (map (lift 1) us) (map (lift 1) ws ++ [Var 0]) s B); try assumption.
      + eapply rigid_ren; eassumption.
      + pose proof (wt_weaken _ Hst _ A _ _ HT) as H. rewrite ren_apps in H. rewrite (ren_sort S s Hs) in H.
        replace (lift 1 h) with (ren S h) by (unfold lift; apply ren_ext; intros; lia).
        replace (map (lift 1) us) with (map (ren S) us) by (apply map_ext; intros; unfold lift; apply ren_ext; intros; lia). exact H.
      + destruct (map (lift 1) ws); discriminate.
      + apply conv_sym. exact Hc.
  Qed.
  Lemma type_not_lam G h us s b K : rigid sg h us -> sort s -> wt G (apps h us) s -> nf b -> wt G (ULam b) K -> ~ conv (apps h us) (ULam b).
  Proof.
    intros Hr Hs HT Hn HU Hc. destruct (wgen_ulam _ _ _ _ HU) as (A & B & _ & HB & _ & _).
    apply conv_sym, conv_stuck_body in Hc. rewrite lift1_apps in Hc.
    apply (expanded_false b Hn (A :: G) (lift 1 h) (map (lift 1) us) [Var 0] s B); try assumption.
    - eapply rigid_ren; eassumption.
    - pose proof (wt_weaken _ Hst _ A _ _ HT) as H. rewrite ren_apps in H. rewrite (ren_sort S s Hs) in H.
      replace (lift 1 h) with (ren S h) by (unfold lift; apply ren_ext; intros; lia).
      replace (map (lift 1) us) with (map (ren S) us) by (apply map_ext; intros; unfold lift; apply ren_ext; intros; lia). exact H.
    - discriminate.
    - apply conv_sym. exact Hc.
  Qed.
  Lemma kind_false u : nf u -> forall G ws K, wt G u K -> ~ conv (apps Kind ws) u.
  Proof.
    induction u as [| |c|x|u IHu v IHv|a IHa u IHu|u IHu|a IHa b IHb]; intros Hn G ws K HU Hc;
      try (destruct (nf_cases _ Hn) as [[b' Eb]|(k & vs & E & Hk)]; [discriminate|];
        rewrite E in Hc, HU; destruct (stuck_conv Kind _ _ _ I Hk Hc) as [Hh _]; destruct k; try discriminate Hh; try contradiction;
        destruct (typed_prefix _ _ [] vs _ HU) as (B & H1 & _); exact (wgen_kind _ _ _ H1)).
    - exact (wgen_kind _ _ _ HU).
    - destruct (wgen_ulam _ _ _ _ HU) as (A & B & _ & HB & _ & _). cbn in Hn.
      apply conv_sym, conv_stuck_body in Hc. rewrite lift1_apps in Hc.
      exact (IHu Hn (A :: G) _ B HB (conv_sym _ _ _ Hc)).
  Qed.
  Lemma eta_not_kind G T K : type_ctx sg G -> wt G T K -> ~ conv T Kind.
  Proof.
    intros HG H Hc. destruct (nf_exists _ _ _ HG H) as (v & Hv & Hn). pose proof (wt_reds _ Hst Hpi Hrules _ _ Hv _ _ H) as Hw.
    apply (kind_false v Hn G [] K Hw). eapply conv_trans; [apply conv_sym; exact Hc|apply reds_conv; exact Hv].
  Qed.

  (** ** Types of convertible types *)
  Lemma lam_not_sort G b s : sort s -> ~ wt G (ULam b) s.
  Proof.
    intros Hs H. destruct (wgen_ulam _ _ _ _ H) as (A0 & B0 & _ & _ & _ & C). exact (conv_pi_sort _ _ _ _ Hcr Hs C).
  Qed.
  Lemma nf_sort_unique t : nf t -> forall u G s K, nf u -> sort s -> wt G t s -> wt G u K -> conv t u -> conv K s.
  Proof.
    induction t as [| |c|x|t IHt v IHv|a IHa t IHt|t IHt|a IHa b IHb]; intros Hn u G s K Hm Hs HT HU Hc;
      try (destruct (nf_cases _ Hn) as [[b' Eb]|(h & us & E & Hr)]; [discriminate|]; rewrite E in Hc, HT;
        destruct (nf_cases _ Hm) as [[b' ->]|(k & ws & Eu & Hk)]; [destruct (type_not_lam G h us s b' K Hr Hs HT Hm HU Hc)|];
        rewrite Eu in Hc, HU; destruct (stuck_conv _ _ _ _ Hr Hk Hc) as [Hh Hus];
        destruct h as [| |c'|x'|h1 h2|h1 h2|h1|h1 h2]; try contradiction;
        [destruct k; try discriminate Hh; try contradiction; rewrite <- ?Hh in HU;
         refine (conv_sym _ _ _ (spine_conv G _ us ws Hus Hr _ _ _ HT HU)); intros ? ?; discriminate..
        |destruct k as [| |c''|x''|k1 k2|k1 k2|k1|k1 k2]; cbn in Hh; try contradiction;
         pose proof (pi_no_args _ _ _ _ _ HT) as ->; cbn in E; try discriminate E]).
    - destruct Hn.
    - destruct (lam_not_sort _ _ _ Hs HT).
    - injection E as <- <-. inversion Hus; subst. cbn in *. destruct Hn as [_ Hn], Hm as [_ Hm], Hh as [Ca Cb].
      destruct (wgen_pi _ _ _ _ _ HT) as (s1 & _ & T1 & S1 & C1). destruct (wgen_pi _ _ _ _ _ HU) as (s2 & _ & U1 & S2 & C2).
      pose proof (wt_head_conv _ _ _ _ _ _ Ca T1) as T2.
      eapply conv_trans; [apply conv_sym; exact C2|]. eapply conv_trans; [|exact C1].
      exact (IHb Hn k2 (k1 :: G) s1 s2 Hm S1 T2 U1 Cb).
  Qed.
  Lemma eta_sort_unique G T U K s : type_ctx sg G -> conv T U -> sort s -> wt G T s -> wt G U K -> conv K s.
  Proof.
    intros HG Hc Hs HT HU. destruct (nf_exists _ _ _ HG HT) as (t & Rt & Nt). destruct (nf_exists _ _ _ HG HU) as (u & Ru & Nu).
    apply (nf_sort_unique t Nt u G s K Nu Hs).
    - exact (wt_reds _ Hst Hpi Hrules _ _ Rt _ _ HT).
    - exact (wt_reds _ Hst Hpi Hrules _ _ Ru _ _ HU).
    - eapply conv_trans; [apply conv_sym, reds_conv; exact Rt|]. eapply conv_trans; [exact Hc|apply reds_conv; exact Ru].
  Qed.
  (** a type that is convertible with a product evaluates to one *)
  Lemma eta_type_pi G T A B s : type_ctx sg G -> sort s -> wt G T s -> conv T (Pi A B) ->
    exists A' B', reds T (Pi A' B') /\ conv A' A /\ conv B' B.
  Proof.
    intros HG Hs HT Hc. destruct (nf_exists _ _ _ HG HT) as (t & Rt & Nt). pose proof (wt_reds _ Hst Hpi Hrules _ _ Rt _ _ HT) as Ht.
    destruct (nf_cases _ Nt) as [[b ->]|(h & us & -> & Hr)]; [destruct (lam_not_sort _ _ _ Hs Ht)|].
    destruct (stuck_conv h us (Pi A B) [] Hr I) as [Hh Hus].
    { eapply conv_trans; [apply conv_sym, reds_conv; exact Rt|exact Hc]. }
    inversion Hus; subst. destruct h; cbn in Hh; try contradiction. destruct Hh. eauto.
  Qed.
  (** a term that is convertible with [Typ] evaluates to it *)
  Lemma eta_type_typ G T K : type_ctx sg G -> wt G T K -> conv T Typ -> reds T Typ.
  Proof.
    intros HG HT Hc. destruct (nf_exists _ _ _ HG HT) as (t & Rt & Nt). pose proof (wt_reds _ Hst Hpi Hrules _ _ Rt _ _ HT) as Ht.
    assert (Hc' : conv Typ t) by (eapply conv_trans; [apply conv_sym; exact Hc|apply reds_conv; exact Rt]).
    destruct (nf_cases _ Nt) as [[b ->]|(h & us & -> & Hr)].
    - destruct (type_not_lam G Typ [] Kind b K I (or_intror eq_refl) (wt_type _ _) Nt Ht Hc').
    - destruct (stuck_conv Typ [] h us I Hr Hc') as [Hh Hus]. inversion Hus; subst. destruct h; try discriminate Hh; try contradiction. exact Rt.
  Qed.
End Eta.
