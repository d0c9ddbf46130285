(** * Well-typed terms over definitions are strongly normalising *)

From Coq Require Import List Arith Lia Bool.
From Verif Require Import SpecTerm SpecConv SpecConvFacts SpecWhnf SpecRed SpecSN SpecType SpecProcess SpecDomain SpecDef RedConfl EtaConfl RedSN TypeFacts DomFacts MainTyped MainProgTotal SnBase.
Import ListNotations.

Lemma definitional_dom sg : definitional sg -> sig_dom sg.
Proof.
  induction 1 as [sg HT HR|sg c A rs sg' s _ IH _ _ _ _ Hx|sg c A t sg' s _ IH _ _ _ _ _ Hx]; [|eapply extends_dom; eassumption..].
  intros c H. destruct (H (HR c)).
Qed.
Lemma extends_mono' sg c A rs sg' : definitional sg -> extends sg c A rs sg' -> sig_mono sg sg'.
Proof.
  intros Hd Hx. eapply extends_mono; [|exact Hx]. apply no_rules; [apply definitional_dom; exact Hd|apply Hx].
Qed.

(** the rules are those of definitions *)
Lemma definitional_rules sg : definitional sg -> forall c rs r, sg_rules sg c = Some rs -> In r rs ->
  exists t A, rs = [MkSRule 0 [] t] /\ scoped 0 t /\ sg_type sg c = Some A /\ well_typed sg [] (strip t) (strip A).
Proof.
  induction 1 as [sg HT HR|sg c A rs sg' s Hd IH _ _ _ Hrs Hx|sg c A t sg' s Hd IH _ _ _ Hsc Ht Hx]; intros d l r.
  - rewrite HR. discriminate.
  - pose proof (extends_mono' _ _ _ _ _ Hd Hx) as M. destruct Hx as (_ & HT & HR & _). rewrite HR, HT. destruct (Nat.eqb_spec d c) as [->|].
    + intros E. destruct Hrs as [-> | ->]; [discriminate|]. injection E as <-. intros [].
    + intros E Hin. destruct (IH _ _ _ E Hin) as (t & B & H1 & H2 & H3 & H4). exists t, B. repeat split; try assumption. eapply wt_mono; eassumption.
  - pose proof (extends_mono' _ _ _ _ _ Hd Hx) as M. destruct Hx as (_ & HT & HR & _). rewrite HR, HT. destruct (Nat.eqb_spec d c) as [->|].
    + intros [= <-] _. exists t, A. repeat split; try assumption; try reflexivity. eapply wt_mono; eassumption.
    + intros E Hin. destruct (IH _ _ _ E Hin) as (t' & B & H1 & H2 & H3 & H4). exists t', B. repeat split; try assumption. eapply wt_mono; eassumption.
Qed.
Lemma definitional_rule sg c r : definitional sg -> rule_of sg c r -> exists t, r = MkSRule 0 [] t /\ sg_rules sg c = Some [r] /\ scoped 0 t.
Proof.
  intros Hd (rs & H1 & H2 & _). destruct (definitional_rules sg Hd _ _ _ H1 H2) as (t & A & -> & Hs & _). destruct H2 as [<-|[]]. eauto.
Qed.

Lemma definitional_orthogonal sg : definitional sg -> orthogonal sg.
Proof.
  intros Hd c r Hr. destruct (definitional_rule _ _ _ Hd Hr) as (t & -> & E & Hs).
  split; [constructor|]. split; [exact Hs|]. intros c2 r2 Hr2. cbn [sr_args]. split; [intros p qs []|].
  intros <- Hne. destruct (definitional_rule _ _ _ Hd Hr2) as (t2 & -> & E2 & _). rewrite E in E2. injection E2 as ->. destruct Hne. reflexivity.
Qed.
Lemma definitional_safe sg : definitional sg -> eta_safe sg.
Proof.
  intros Hd _. split; [apply definitional_orthogonal; exact Hd|]. intros c r Hr. destruct (definitional_rule _ _ _ Hd Hr) as (t & -> & _). reflexivity.
Qed.
Lemma definitional_church_rosser sg : definitional sg -> church_rosser sg.
Proof. intros Hd. apply safe_church_rosser; [apply definitional_orthogonal|apply definitional_safe]; exact Hd. Qed.
Lemma definitional_linear sg : definitional sg -> left_linear sg.
Proof.
  intros Hd c rs r H1 H2. destruct (definitional_rules sg Hd _ _ _ H1 H2) as (t & A & -> & _). destruct H2 as [<-|[]]. constructor.
Qed.

Section Chain.
  Variable fin : sig.
  Hypothesis Hcr : church_rosser fin.
  Hypothesis Hpi : pi_injective fin.

  Lemma chain sg : definitional sg -> sig_mono sg fin -> (forall c, sg_type sg c <> None -> sg_rules fin c = sg_rules sg c) ->
    forall c A, sg_type sg c = Some A -> exists a, isty fin (strip A) a /\ RED fin a (Const c).
  Proof.
    induction 1 as [sg HT HR|sg c A rs sg' s Hd IH HK Hs HA Hrs Hx|sg c A t sg' s Hd IH HK Hs HA Hsc Ht Hx]; intros M Hfin d B HB.
    - rewrite HT in HB. discriminate.
    - pose proof (sig_mono_trans _ _ _ (extends_mono' _ _ _ _ _ Hd Hx) M) as M0. destruct Hx as (Hn & HT & HR & _).
      assert (Hold : forall c A, sg_type sg c = Some A -> exists a, isty fin (strip A) a /\ RED fin a (Const c)).
      { apply IH; [exact M0|]. intros e He. rewrite Hfin; [rewrite HR; destruct (Nat.eqb_spec e c) as [->|]; [congruence|reflexivity]|].
        rewrite HT. destruct (e =? c); [discriminate|exact He]. }
      rewrite HT in HB. destruct (Nat.eqb_spec d c) as [->|]; [|eauto]. injection HB as <-.
      destruct (type_shape fin Hcr Hpi sg M0 Hold _ _ Hs HA) as (a & Ha & Hsb). exists a. split; [exact Ha|]. apply RED_const; [|exact Hsb].
      intros r (l & H1 & H2 & _). rewrite Hfin, HR, Nat.eqb_refl in H1 by (rewrite HT, Nat.eqb_refl; discriminate).
      destruct Hrs as [-> | ->]; [discriminate|]. injection H1 as <-. destruct H2.
    - pose proof (sig_mono_trans _ _ _ (extends_mono' _ _ _ _ _ Hd Hx) M) as M0. destruct Hx as (Hn & HT & HR & _).
      assert (Hold : forall c A, sg_type sg c = Some A -> exists a, isty fin (strip A) a /\ RED fin a (Const c)).
      { apply IH; [exact M0|]. intros e He. rewrite Hfin; [rewrite HR; destruct (Nat.eqb_spec e c) as [->|]; [congruence|reflexivity]|].
        rewrite HT. destruct (e =? c); [discriminate|exact He]. }
      rewrite HT in HB. destruct (Nat.eqb_spec d c) as [->|]; [|eauto]. injection HB as <-.
      assert (E : sg_rules fin c = Some [MkSRule 0 [] t]).
      { rewrite Hfin, HR, Nat.eqb_refl; [reflexivity|]. rewrite HT, Nat.eqb_refl. discriminate. }
      destruct (wt_RED fin Hcr Hpi sg M0 Hold [] _ _ Ht ltac:(constructor)) as (a & Ha & Hred). exists a. split; [exact Ha|].
      apply RED_delta.
      + exists (MkSRule 0 [] t). exists [MkSRule 0 [] t]. split; [exact E|]. split; [left; reflexivity|]. intros m. cbn. lia.
      + intros r (l & H1 & H2 & _). rewrite E in H1. injection H1 as <-. destruct H2 as [<-|[]]. split; [reflexivity|].
        intros q. cbn [sr_rhs]. apply Hred. intros n A' a' Hn'. destruct n; discriminate.
  Qed.
End Chain.

Theorem definitional_normalising sg : definitional sg -> normalising sg.
Proof.
  intros Hd G t A. pose proof (definitional_church_rosser _ Hd) as Hcr. pose proof (church_rosser_pi _ Hcr) as Hpi.
  apply (base_sn sg Hcr Hpi sg (sig_mono_refl sg)). apply (chain sg Hcr Hpi sg Hd (sig_mono_refl sg)). reflexivity.
Qed.
