(** * Facts about conversion *)

From Coq Require Import List Arith Lia Bool.
From Verif Require Import SpecTerm SpecConv.
Import ListNotations.

Section PatInd.
  Variable P : pat -> Prop.
  Hypothesis Hsymb : forall c ps, Forall P ps -> P (PatSymb c ps).
  Hypothesis Hvar : forall m, P (PatVar m).
  Hypothesis Hjoker : P PatJoker.
  Fixpoint pat_ind' (p : pat) : P p.
  Proof.
    destruct p as [c ps|m|]; [|exact (Hvar m)|exact Hjoker]. apply Hsymb.
    induction ps; constructor; [apply pat_ind'|assumption].
  Qed.
End PatInd.

Lemma inst_sub s r p : forall t, inst s p t -> inst (fun n => sub r (s n)) p (sub r t).
Proof.
  induction p as [c ps IH|m|] using pat_ind'; intros t H; inversion H; subst.
  - rewrite sub_apps. cbn. constructor. clear H.
    match goal with H : Forall2 _ _ _ |- _ => induction H end; cbn; constructor; inversion IH; subst; auto.
  - apply (inst_var (fun n => sub r (s n))).
  - constructor.
Qed.

Lemma inst_ext s s' p : (forall m, In m (pat_vars p) -> s m = s' m) -> forall t, inst s p t -> inst s' p t.
Proof.
  induction p as [c ps IH|m|] using pat_ind'; intros He t H; inversion H; subst.
  - constructor. clear H. cbn in He.
    match goal with H : Forall2 _ _ _ |- _ => induction H end; constructor; inversion IH; subst; auto.
    + apply H2; auto. intros m Hm. apply He. cbn. apply in_or_app. auto.
    + apply IHForall2; auto. intros m Hm. apply He. cbn. apply in_or_app. auto.
  - rewrite He by (left; reflexivity). constructor.
  - constructor.
Qed.

Section Facts.
  Variable sg : sig.
  Notation conv := (conv sg).

  Lemma conv_lam a a' t t' : conv t t' -> conv (Lam a t) (Lam a' t').
  Proof.
    intros H. eapply conv_trans; [apply conv_annot|]. eapply conv_trans; [apply conv_ulam; eassumption|].
    apply conv_sym, conv_annot.
  Qed.
  Lemma conv_beta_lam a t u : conv (App (Lam a t) u) (subst1 u t).
  Proof.
    eapply conv_trans; [|apply conv_beta]. apply conv_app; [apply conv_annot|apply conv_refl].
  Qed.
  Lemma conv_apps us : forall us' t t', conv t t' -> Forall2 conv us us' -> conv (apps t us) (apps t' us').
  Proof.
    induction us as [|u us IH]; intros us' t t' Ht H; inversion H; subst; cbn; auto.
    apply IH; auto. apply conv_app; auto.
  Qed.
  Lemma conv_apps_head us t t' : conv t t' -> conv (apps t us) (apps t' us).
  Proof. intros H. apply conv_apps; auto. induction us; constructor; auto using conv_refl. Qed.

  Lemma conv_sub t u : conv t u -> forall s, conv (sub s t) (sub s u).
  Proof.
    induction 1; intros s0; cbn [sub]; eauto using conv_refl, conv_sym, conv_trans, conv_app, conv_ulam, conv_pi, conv_annot.
    - rewrite sub_subst1. apply conv_beta.
    - rewrite sub_apps, sub_sub. cbn. eapply conv_rule with (s := fun n => sub s0 (s n)); eauto.
      clear - H2. induction H2; cbn; constructor; auto using inst_sub.
    - replace (sub (up s0) (lift 1 t)) with (lift 1 (sub s0 t)); [apply conv_eta; assumption|].
      unfold lift. rewrite ren_sub, sub_ren. apply sub_ext. intros n.
      replace (n + 1) with (S n) by lia. cbn. apply ren_ext. intros; lia.
  Qed.
  Lemma conv_ren t u r : conv t u -> conv (ren r t) (ren r u).
  Proof. intros H. rewrite !ren_as_sub. now apply conv_sub. Qed.
  Lemma conv_lift t u n : conv t u -> conv (lift n t) (lift n u).
  Proof. apply conv_ren. Qed.

  Lemma conv_sub_pw t : forall s s', (forall n, conv (s n) (s' n)) -> conv (sub s t) (sub s' t).
  Proof.
    assert (Hup : forall s s', (forall n, conv (s n) (s' n)) -> forall n, conv (up s n) (up s' n)).
    { intros s s' H [|n]; cbn; [apply conv_refl|apply conv_ren, H]. }
    induction t; intros s s' H; cbn [sub]; auto using conv_refl.
    - apply conv_app; auto.
    - apply conv_lam; auto.
    - apply conv_ulam; auto.
    - apply conv_pi; auto.
  Qed.
  Lemma conv_subst1 u u' t t' : conv u u' -> conv t t' -> conv (subst1 u t) (subst1 u' t').
  Proof.
    intros Hu Ht. eapply conv_trans; [apply conv_sub; eassumption|]. apply conv_sub_pw.
    intros [|n]; cbn; auto using conv_refl.
  Qed.
End Facts.

(** conversion only depends on the rules and on eta *)
Lemma conv_mono sg sg' t u :
  (forall c rs r, sg_rules sg c = Some rs -> In r rs -> exists rs', sg_rules sg' c = Some rs' /\ In r rs') ->
  (sg_eta sg = true -> sg_eta sg' = true) ->
  conv sg t u -> conv sg' t u.
Proof.
  intros Hr He. induction 1; eauto using conv.
  destruct (Hr _ _ _ H H0) as (rs' & H3 & H4). eapply conv_rule; eauto.
Qed.
