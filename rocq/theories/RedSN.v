(** * Induction over reducts and subterms of strongly normalising terms *)

From Coq Require Import List Relations Wellfounded.
From Verif Require Import Base SpecTerm SpecConv SpecConvFacts SpecRed SpecSN RedConfl.
Import ListNotations.

(** immediate subterms *)
Inductive sub1 : tm -> tm -> Prop :=
| sub1_appl t u : sub1 t (App t u)
| sub1_appr t u : sub1 u (App t u)
| sub1_ulam t : sub1 t (ULam t)
| sub1_pil a b : sub1 a (Pi a b)
| sub1_pir a b : sub1 b (Pi a b).

Section SN.
  Variable sg : sig.
  Notation red := (red sg).
  Notation reds := (reds sg).

  Definition smaller (u t : tm) : Prop := red t u \/ sub1 u t.
  Definition below : tm -> tm -> Prop := clos_trans tm smaller.

  (** [u] is [t] or a subterm of it *)
  Inductive subt (t : tm) : tm -> Prop :=
  | subt_refl : subt t t
  | subt_step u v : subt t u -> sub1 v u -> subt t v.

  Lemma sub1_red u t u' : sub1 u t -> red u u' -> exists t', red t t' /\ sub1 u' t'.
  Proof.
    intros H Hr. destruct H as [t u|t u|t|a b|a b].
    - exists (App u' u). split; [apply red_appl; exact Hr|constructor].
    - exists (App t u'). split; [apply red_appr; exact Hr|constructor].
    - exists (ULam u'). split; [apply red_ulam; exact Hr|constructor].
    - exists (Pi u' b). split; [apply red_pil; exact Hr|constructor].
    - exists (Pi a u'). split; [apply red_pir; exact Hr|constructor].
  Qed.
  Lemma subt_red t u : subt t u -> forall u', red u u' -> exists t', red t t' /\ subt t' u'.
  Proof.
    induction 1 as [|u v Hu IH Hv]; intros u' Hr; [exists u'; split; [exact Hr|constructor]|].
    destruct (sub1_red _ _ _ Hv Hr) as (w & Hw & Hs). destruct (IH _ Hw) as (t' & Ht & Hs').
    exists t'. split; [exact Ht|]. econstructor; eassumption.
  Qed.

  Lemma sn_smaller t : sn sg t -> forall u, subt t u -> Acc smaller u.
  Proof.
    induction 1 as [t _ IH]. intros u. revert t IH.
    induction u; intros t0 IH Hu; constructor; intros y [Hr|Hs];
      try (destruct (subt_red _ _ Hu _ Hr) as (t' & Ht & Hs'); exact (IH _ Ht _ Hs'));
      inversion Hs; subst; eauto using subt_step.
  Qed.
  Lemma sn_acc t : sn sg t -> Acc below t.
  Proof. intros H. apply Acc_clos_trans. eapply sn_smaller; [exact H|constructor]. Qed.
  Lemma acc_sn t : Acc below t -> sn sg t.
  Proof. induction 1 as [t _ IH]. constructor. intros u Hu. apply IH. apply t_step. left. exact Hu. Qed.

  Lemma below_trans t u v : below t u -> below u v -> below t v.
  Proof. intros. eapply t_trans; eassumption. Qed.
  Lemma below_red t u : red t u -> below u t.
  Proof. intros H. apply t_step. left. exact H. Qed.
  Lemma below_sub t u : sub1 u t -> below u t.
  Proof. intros H. apply t_step. right. exact H. Qed.
  Lemma reds_below t u : reds t u -> u = t \/ below u t.
  Proof.
    induction 1 as [|t u v H _ IH]; [auto|]. right. apply below_red in H.
    destruct IH as [->|IH]; [exact H|eapply below_trans; eassumption].
  Qed.
  Lemma below_reds t u v : below v u -> reds t u -> below v t.
  Proof. intros H1 H2. destruct (reds_below _ _ H2) as [->|H]; [exact H1|eapply below_trans; eassumption]. Qed.
  Lemma below_apps_head us : forall t, t = apps t us \/ below t (apps t us).
  Proof.
    induction us as [|u us IH]; intros t; [left; reflexivity|]. right. cbn.
    destruct (IH (App t u)) as [<-|H]; [|eapply below_trans; [|exact H]]; apply below_sub; constructor.
  Qed.
  Lemma below_apps u us : In u us -> forall t, below u (apps t us).
  Proof.
    induction us as [|v us IH]; intros Hin t; [destruct Hin|]. cbn. destruct Hin as [->|Hin]; [|apply IH; exact Hin].
    assert (H : below u (App t u)) by (apply below_sub; constructor).
    destruct (below_apps_head us (App t u)) as [<-|H']; [exact H|eapply below_trans; eassumption].
  Qed.
  Lemma sn_below t u : sn sg t -> below u t -> sn sg u.
  Proof. intros H Hb. apply acc_sn. eapply Acc_inv; [apply sn_acc; exact H|exact Hb]. Qed.
  Lemma sn_reds t u : sn sg t -> reds t u -> sn sg u.
  Proof. intros H Hr. destruct (reds_below _ _ Hr) as [->|Hb]; [exact H|eapply sn_below; eassumption]. Qed.
End SN.
