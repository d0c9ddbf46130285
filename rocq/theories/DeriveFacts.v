(** * Facts about derivations: generation, conversion of contexts, types that are convertible with sorts *)

From Coq Require Import List Arith Lia Bool.
From Verif Require Import SpecTerm SpecConv SpecConvFacts SpecRed SpecSN SpecType SpecDomain SpecDerive RedConfl EtaConfl RedStuck TypeFacts DomFacts EtaTyped DomUnique.
Import ListNotations.

Section Facts.
  Variable sg : sig.
  Notation conv := (conv sg).
  Notation wt := (well_typed sg).
  Notation der := (derives sg).
  Notation reds := (reds sg).
  Notation sort s := (s = Typ \/ s = Kind).

  Lemma derives_wt G t A : der G t A -> wt G (strip t) A.
  Proof.
    induction 1; cbn [strip]; try (econstructor; eassumption).
  Qed.

  (** ** Generation *)
  Lemma dgen_kind G T : ~ der G Kind T.
  Proof. intros H. apply derives_wt in H. exact (wgen_kind _ _ _ H). Qed.
  Lemma dgen_type G T : der G Typ T -> conv Kind T.
  Proof. intros H. remember Typ as t eqn:E. induction H; try discriminate; [apply conv_refl|]. eapply conv_trans; [apply IHderives; exact E|assumption]. Qed.
  Lemma dgen_const G c T : der G (Const c) T -> exists A, sg_type sg c = Some A /\ conv (strip A) T.
  Proof. intros H. apply derives_wt in H. exact (wgen_const _ _ _ _ H). Qed.
  Lemma dgen_var G n T : der G (Var n) T -> exists A, nth_error G n = Some A /\ conv (lift (S n) A) T.
  Proof. intros H. apply derives_wt in H. exact (wgen_var _ _ _ _ H). Qed.
  Lemma dgen_app G t u T : der G (App t u) T -> exists A B, der G t (Pi A B) /\ der G u A /\ conv (subst1 (strip u) B) T.
  Proof.
    intros H. remember (App t u) as v eqn:E. induction H; try discriminate.
    - injection E as -> ->. eauto 6 using conv_refl.
    - destruct (IHderives E) as (A0 & B0 & H3 & H4 & H5). eauto 6 using conv_trans.
  Qed.
  Lemma dgen_lam G a t T : der G (Lam a t) T -> exists B s, der G a Typ /\ der (strip a :: G) t B /\ sort s /\ wt (strip a :: G) B s /\ conv (Pi (strip a) B) T.
  Proof.
    intros H. remember (Lam a t) as v eqn:E. induction H; try discriminate.
    - injection E as -> ->. exists B, s. auto 10 using conv_refl.
    - destruct (IHderives E) as (B0 & s0 & H3 & H4 & H5 & H6 & H7). exists B0, s0. eauto 10 using conv_trans.
  Qed.
  Lemma dgen_ulam G t T : der G (ULam t) T -> exists A B s, wt G A Typ /\ der (A :: G) t B /\ sort s /\ wt (A :: G) B s /\ conv (Pi A B) T.
  Proof.
    intros H. remember (ULam t) as v eqn:E. induction H; try discriminate.
    - injection E as ->. exists A, B, s. auto 10 using conv_refl.
    - destruct (IHderives E) as (A0 & B0 & s0 & H3 & H4 & H5 & H6 & H7). exists A0, B0, s0. eauto 10 using conv_trans.
  Qed.
  Lemma dgen_pi G a b T : der G (Pi a b) T -> exists s, der G a Typ /\ der (strip a :: G) b s /\ sort s /\ conv s T.
  Proof.
    intros H. remember (Pi a b) as v eqn:E. induction H; try discriminate.
    - injection E as -> ->. exists s. auto 8 using conv_refl.
    - destruct (IHderives E) as (s0 & H3 & H4 & H5 & H6). eauto 8 using conv_trans.
  Qed.

  Hypothesis Hst : stable_types sg.

  (** ** Contexts with convertible types *)
  Lemma derives_ctx_conv G t A : der G t A -> forall G', Forall2 conv G G' -> type_ctx sg G -> der G' t A.
  Proof.
    induction 1; intros G' HG HT.
    - constructor.
    - constructor; assumption.
    - assert (exists A', nth_error G' n = Some A' /\ conv A A') as (A' & H1 & H2).
      { clear - H HG. revert n H. induction HG; intros [|n]; cbn; try discriminate; eauto.
        intros [= <-]. eauto. }
      eapply d_conv; [constructor; eassumption|apply conv_sym, conv_lift; exact H2| |left; reflexivity].
      eapply wt_ctx_conv; [|exact HG]. eapply type_ctx_nth; eassumption.
    - eapply d_app; eauto.
    - pose proof (derives_wt _ _ _ H) as Ha.
      eapply d_lam; eauto; [apply IHderives2; constructor; auto using conv_refl|eapply wt_ctx_conv; [eassumption|constructor; auto using conv_refl]].
    - assert (HA : wt G' A Typ) by (eapply wt_ctx_conv; eassumption).
      eapply d_ulam; eauto; [apply IHderives; constructor; auto using conv_refl|eapply wt_ctx_conv; [eassumption|constructor; auto using conv_refl]].
    - pose proof (derives_wt _ _ _ H) as Ha. eapply d_pi; eauto. apply IHderives2; constructor; auto using conv_refl.
    - eapply d_conv; eauto. eapply wt_ctx_conv; eassumption.
  Qed.
  Lemma derives_head_conv G a a' t A : type_ctx sg (a :: G) -> conv a a' -> der (a :: G) t A -> der (a' :: G) t A.
  Proof. intros HT H Ht. eapply derives_ctx_conv; [exact Ht| |exact HT]. constructor; [exact H|apply conv_ctx_refl]. Qed.

  (** ** Convertibility with sorts *)
  Hypothesis Hcr : church_rosser sg.
  Hypothesis Hpi : pi_injective sg.
  Hypothesis Hrules : good_rules sg.
  Hypothesis Htypes : good_types sg.
  Hypothesis Hsn : normalising sg.
  Hypothesis Hsafe : eta_safe sg.

  Lemma not_kind G T K : type_ctx sg G -> wt G T K -> ~ conv T Kind.
  Proof.
    intros HG H Hc. destruct (sg_eta sg) eqn:He; [exact (eta_not_kind sg Hcr Hpi Hst Hrules Hsn Hsafe He _ _ _ HG H Hc)|].
    destruct (Hcr _ _ Hc) as (v & H1 & H2). apply (redxs_reds _ _ _ He) in H1, H2. apply reds_sort in H2; [|right; reflexivity]. subst v.
    rewrite (wt_strip _ _ _ _ H) in H1. eapply wgen_kind. eapply wt_reds; eassumption.
  Qed.
  Lemma const_head G c ts : type_ctx sg G -> forall K, wt G (apps (Const c) ts) K -> exists T s, sort s /\ wt G T s /\ conv T K.
  Proof.
    intros HG. induction ts as [|u ts IH] using rev_ind; intros K H.
    - cbn in H. destruct (wgen_const _ _ _ _ H) as (A & HA & Hc). destruct (Htypes _ _ HA) as (_ & s & Hs & Hw).
      exists (strip A), s. split; [exact Hs|]. split; [eapply wt_closed; eassumption|exact Hc].
    - rewrite apps_snoc in H. destruct (wgen_app _ _ _ _ _ H) as (A & B & H1 & H2 & Hc).
      destruct (IH _ H1) as (T & s & Hs & HT & HcT).
      assert (exists A' B', wt G (Pi A' B') s /\ conv (Pi A' B') (Pi A B)) as (A' & B' & HP & HcP).
      { destruct (sg_eta sg) eqn:He.
        { destruct (eta_type_pi sg Hcr Hpi Hst Hrules Hsn Hsafe He _ _ _ _ _ HG Hs HT HcT) as (A' & B' & R & CA & CB).
          exists A', B'. split; [eapply wt_reds; eassumption|apply conv_pi; assumption]. }
        destruct (Hcr _ _ HcT) as (v & R1 & R2). apply (redxs_reds _ _ _ He) in R1, R2. rewrite (wt_strip _ _ _ _ HT) in R1. cbn [strip] in R2. apply reds_pi in R2.
        destruct R2 as (A' & B' & -> & RA & RB). exists A', B'. split; [eapply wt_reds; eassumption|].
        eapply conv_trans; [apply conv_sym, reds_conv; exact R1|exact HcT]. }
      destruct (Hpi _ _ _ _ HcP) as [CA CB]. destruct (wgen_pi _ _ _ _ _ HP) as (s' & HA' & HB' & Hs' & _).
      exists (subst1 u B'), s'. split; [exact Hs'|]. split.
      + pose proof (wt_subst1 _ Hst _ _ _ _ u HB') as X. unfold subst1 in X at 2. rewrite sub_sort in X by exact Hs'. apply X.
        eapply wt_conv; [exact H2|apply conv_sym; exact CA].
      + eapply conv_trans; [apply conv_subst1; [apply conv_refl|exact CB]|exact Hc].
  Qed.
  Lemma wgen_typ G T : wt G Typ T -> conv Kind T.
  Proof. intros H. remember Typ as t eqn:E. induction H; try discriminate; [apply conv_refl|]. eapply conv_trans; [apply IHwell_typed; exact E|assumption]. Qed.

  Lemma red_typ G T K : type_ctx sg G -> wt G T K -> ~ red sg T Typ.
  Proof.
    intros HG H Hr. remember Typ as t eqn:E. destruct Hr as [b u|c rs r s ts Hrs Hin Hu Hm| | | | | | |]; try discriminate.
    - destruct (wgen_app _ _ _ _ _ H) as (A & B & H1 & H2 & _). destruct (wgen_ulam _ _ _ _ H1) as (A' & B' & K1 & K2 & (s & Hs & K3) & Hc).
      destruct (Hpi _ _ _ _ Hc) as [CA CB].
      destruct b; try discriminate.
      + apply wgen_typ in K2. exact (not_kind _ _ _ (tc_cons _ _ _ HG K1) K3 (conv_sym _ _ _ K2)).
      + destruct n as [|n]; [|discriminate]. cbn in E. subst u. apply wgen_typ in H2. apply (not_kind _ _ _ HG K1).
        eapply conv_trans; [exact CA|apply conv_sym; exact H2].
    - assert (Hw : wt G Typ K).
      { rewrite <- E. eapply wt_red; [exact Hst|exact Hpi|exact Hrules| |exact H]. econstructor; eassumption. }
      apply wgen_typ in Hw. destruct (const_head _ _ _ HG _ H) as (T & s0 & _ & HT & Hc).
      apply (not_kind _ _ _ HG HT). eapply conv_trans; [exact Hc|apply conv_sym; exact Hw].
  Qed.
  Lemma reds_typ T t : reds T t -> t = Typ -> forall G K, type_ctx sg G -> wt G T K -> T = Typ.
  Proof.
    induction 1 as [|t u v H _ IH]; intros E G K HG Hw; [exact E|]. 
    assert (Hu : wt G u K) by (eapply wt_red; eassumption). rewrite (IH E _ _ HG Hu) in H. destruct (red_typ _ _ _ HG Hw H).
  Qed.
  (** A type that is convertible with a sort is the sort. *)
  Lemma type_is_sort G T s : type_ctx sg G -> T = Kind \/ (exists K, wt G T K) -> sort s -> conv s T -> T = s.
  Proof.
    intros HG HT Hs Hc. destruct HT as [->|[K HT]].
    - destruct Hs as [-> | ->]; [|reflexivity]. destruct (sorts_apart sg Hcr (conv_sym _ _ _ Hc)).
    - destruct Hs as [-> | ->]; [|destruct (not_kind _ _ _ HG HT (conv_sym _ _ _ Hc))].
      destruct (sg_eta sg) eqn:He.
      { apply (reds_typ T Typ) with (G := G) (K := K); [|reflexivity|exact HG|exact HT].
        exact (eta_type_typ sg Hcr Hpi Hst Hrules Hsn Hsafe He _ _ _ HG HT (conv_sym _ _ _ Hc)). }
      destruct (Hcr _ _ (conv_sym _ _ _ Hc)) as (v & H1 & H2). apply (redxs_reds _ _ _ He) in H1, H2. apply reds_sort in H2; [|left; reflexivity].
      rewrite (wt_strip _ _ _ _ HT) in H1. eapply reds_typ; eassumption.
  Qed.

  (** A term with a type that is convertible with a type of sort [Typ] has sort [Typ]. *)
  Lemma sort_unique G T U K s : type_ctx sg G -> conv T U -> sort s -> wt G T s -> wt G U K -> conv K s.
  Proof.
    intros HG Hc Hs HT HU. destruct (sg_eta sg) eqn:He; [exact (eta_sort_unique sg Hcr Hpi Hst Hrules Hsn Hsafe He _ _ _ _ _ HG Hc Hs HT HU)|].
    destruct (Hcr _ _ Hc) as (v & H1 & H2). apply (redxs_reds _ _ _ He) in H1, H2. rewrite (wt_strip _ _ _ _ HT) in H1. rewrite (wt_strip _ _ _ _ HU) in H2.
    pose proof (wt_reds _ Hst Hpi Hrules _ _ H1 _ _ HT) as V1. pose proof (wt_reds _ Hst Hpi Hrules _ _ H2 _ _ HU) as V2.
    destruct (flat_exists sg v) as (w & H3 & Hf); [eapply Hsn; eassumption|].
    pose proof (wt_reds _ Hst Hpi Hrules _ _ H3 _ _ V1) as W1. pose proof (wt_reds _ Hst Hpi Hrules _ _ H3 _ _ V2) as W2.
    destruct (flat_unique sg Hcr Hpi w Hf _ _ _ W2 W1) as [H|[b ->]]; [exact H|].
    exfalso. destruct (wgen_ulam _ _ _ _ W1) as (A0 & B0 & _ & _ & _ & C). exact (conv_pi_sort sg _ _ _ Hcr Hs C).
  Qed.
End Facts.
