(** * Terms whose head cannot be reduced, even after reducing their arguments *)

From Coq Require Import List Arith Lia Bool.
From Verif Require Import SpecTerm SpecConv SpecConvFacts SpecWhnf SpecRed RedConfl EtaConfl.
Import ListNotations.

Definition not_app (t : tm) : Prop := match t with App _ _ => False | _ => True end.

Lemma apps_inj : forall us us' h h', not_app h -> not_app h' -> apps h us = apps h' us' -> h = h' /\ us = us'.
Proof.
  induction us as [|u us IH] using rev_ind; intros us'; destruct us' as [|u' us' _] using rev_ind; intros h h' H H' E.
  - auto.
  - rewrite apps_snoc in E. cbn in E. subst h. destruct H.
  - rewrite apps_snoc in E. cbn in E. subst h'. destruct H'.
  - rewrite !apps_snoc in E. injection E as E <-. destruct (IH us' h h' H H' E) as [-> ->]. auto.
Qed.

Section Stuck.
  Variable sg : sig.
  Notation red := (red sg).
  Notation reds := (reds sg).
  Notation conv := (conv sg).

  (** no rule applies to [c us], even after reducing [us] *)
  Definition rfree (c : nat) (us : list tm) : Prop :=
    forall us', Forall2 reds us us' -> forall r, rule_of sg c r -> ~ applies r us'.

  Lemma rfree_prefix c us ws : rfree c (us ++ ws) -> rfree c us.
  Proof.
    intros H us' Hus r Hr (s & vs & zs & -> & Hi). apply (H ((vs ++ zs) ++ ws)) with (r := r); [|assumption|].
    - apply Forall2_app; [assumption|]. clear. induction ws; constructor; [apply reds_refl|assumption].
    - exists s, vs, (zs ++ ws). split; [now rewrite app_assoc|assumption].
  Qed.
  Lemma Forall2_reds_trans us vs ws : Forall2 reds us vs -> Forall2 reds vs ws -> Forall2 reds us ws.
  Proof.
    intros H. revert ws. induction H; intros ws Hw; inversion Hw; subst; constructor; eauto using reds_trans.
  Qed.
  Lemma rfree_reds c us us' : Forall2 reds us us' -> rfree c us -> rfree c us'.
  Proof. intros H Hf ws Hw. apply Hf. eapply Forall2_reds_trans; eassumption. Qed.

  (** heads that stay *)
  Definition rigid (h : tm) (us : list tm) : Prop :=
    match h with
    | Kind | Typ | Var _ | Pi _ _ => True
    | Const c => rfree c us
    | _ => False
    end.
  Definition hred (h h' : tm) : Prop :=
    match h with
    | Pi a b => exists a' b', h' = Pi a' b' /\ reds a a' /\ reds b b'
    | _ => h' = h
    end.
  Lemma rigid_not_app h us : rigid h us -> not_app h.
  Proof. destruct h; cbn; auto. Qed.

  Lemma red_apps us : forall h v, rigid h us -> red (apps h us) v ->
    exists h' us', v = apps h' us' /\ Forall2 reds us us' /\ hred h h'.
  Proof.
    induction us as [|u us IH] using rev_ind; intros h v Hr H.
    - cbn in H. destruct h as [| |c|x|t u|a t|t|a b]; try destruct Hr; inversion H; subst;
        try (exfalso; match goal with E : apps (Const ?c') ?ts = _ |- _ =>
          destruct (apps_const_cases c' ts) as [[-> E']|(? & ? & -> & E')]; rewrite E' in E; discriminate E end).
      + exfalso. apply (apps_const_inj _ _ c []) in H0. destruct H0 as [-> ->]. cbn in Hr.
        apply (Hr [] (Forall2_nil _) r); [exists rs; auto|]. exists s, [], []. auto.
      + exists (Pi a' b), []. split; [reflexivity|]. split; [constructor|]. exists a', b. auto using reds_one, reds_refl.
      + exists (Pi a b'), []. split; [reflexivity|]. split; [constructor|]. exists a, b'. auto using reds_one, reds_refl.
    - rewrite apps_snoc in H.
      assert (Hr' : rigid h us) by (destruct h; cbn in *; auto; eapply rfree_prefix; eassumption).
      inversion H as [t0 u0 E|c rs r s ts Hc Hin Hu Hi E|t0 t' u0 Ht|t0 u0 u' Hu| | | | |]; subst.
      + exfalso. destruct us as [|u1 us _] using rev_ind; [cbn in *; subst h; destruct Hr|].
        rewrite apps_snoc in *. discriminate.
      + exfalso. rewrite <- apps_snoc in E. apply apps_inj in E; [|exact I|eapply rigid_not_app; eassumption].
        destruct E as [<- ->]. cbn in Hr. apply (Hr (us ++ [u])) with (r := r).
        * clear. induction (us ++ [u]); constructor; [apply reds_refl|assumption].
        * exists rs; auto.
        * exists s, (us ++ [u]), []. rewrite app_nil_r. auto.
      + destruct (IH _ _ Hr' Ht) as (h' & us' & -> & Hus & Hh). exists h', (us' ++ [u]). rewrite apps_snoc.
        split; [reflexivity|]. split; [|assumption]. apply Forall2_app; [assumption|]. constructor; [apply reds_refl|constructor].
      + exists h, (us ++ [u']). rewrite apps_snoc. split; [reflexivity|]. split.
        * apply Forall2_app; [clear; induction us; constructor; [apply reds_refl|assumption]|].
          constructor; [apply reds_one; assumption|constructor].
        * destruct h; cbn; auto. eauto using reds_refl.
  Qed.
  Lemma hred_rigid h h' us us' : hred h h' -> Forall2 reds us us' -> rigid h us -> rigid h' us'.
  Proof.
    destruct h; cbn; intros H Hus; try (subst h'; cbn; auto; fail).
    - subst h'. cbn. apply rfree_reds. assumption.
    - destruct H as (a' & b' & -> & _). auto.
  Qed.
  Lemma hred_trans h1 h2 h3 : hred h1 h2 -> hred h2 h3 -> hred h1 h3.
  Proof.
    destruct h1; cbn; intros H; try (subst h2; cbn; auto; fail).
    destruct H as (a' & b' & -> & H1 & H2). cbn. intros (a'' & b'' & -> & H3 & H4). eauto 10 using reds_trans.
  Qed.
  Lemma hred_refl h : hred h h.
  Proof. destruct h; cbn; auto. eauto using reds_refl. Qed.
  Lemma Forall2_reds_refl us : Forall2 reds us us.
  Proof. induction us; constructor; auto using reds_refl. Qed.

  Lemma reds_apps_inv h us v : rigid h us -> reds (apps h us) v ->
    exists h' us', v = apps h' us' /\ Forall2 reds us us' /\ hred h h'.
  Proof.
    intros Hr H. remember (apps h us) as t eqn:Et. revert h us Hr Et.
    induction H as [t|t u v H1 H2 IH]; intros h us Hr Et; subst t.
    - exists h, us. auto using hred_refl, Forall2_reds_refl.
    - destruct (red_apps _ _ _ Hr H1) as (h1 & us1 & -> & Hus1 & Hh1).
      destruct (IH h1 us1) as (h2 & us2 & -> & Hus2 & Hh2); [eapply hred_rigid; eassumption|reflexivity|].
      exists h2, us2. split; [reflexivity|]. split; [eapply Forall2_reds_trans; eassumption|eapply hred_trans; eassumption].
  Qed.
  Lemma reds_ulam_inv b v : reds (ULam b) v -> exists b', v = ULam b' /\ reds b b'.
  Proof.
    intros H. remember (ULam b) as t eqn:Et. revert b Et. induction H as [t|t u v H1 H2 IH]; intros b ->; [eauto using reds_refl|].
    inversion H1; subst.
    - destruct (apps_const_cases c ts) as [[-> E']|(? & ? & -> & E')]; rewrite E' in *; discriminate.
    - destruct (IH t' eq_refl) as (b' & -> & Hb). eauto using reds_step.
  Qed.

  (** ** Stuck terms *)
  Inductive stuck : tm -> Prop :=
  | stuck_apps h us : rigid (strip h) (map strip us) -> stuck (apps h us)
  | stuck_lam a b : stuck (Lam a b)
  | stuck_ulam b : stuck (ULam b).

  Definition is_lam (t : tm) : Prop := match t with Lam _ _ | ULam _ => True | _ => False end.

  Lemma Forall2_conv_strip us : forall vs, Forall2 reds (map strip us) vs -> Forall2 conv us vs.
  Proof.
    induction us as [|u us IH]; intros vs H; inversion H; subst; constructor; auto.
    eapply conv_trans; [apply conv_strip|]. apply reds_conv. assumption.
  Qed.
  Lemma Forall2_conv_join us ws vs : Forall2 conv us vs -> Forall2 conv ws vs -> Forall2 conv us ws.
  Proof.
    intros H. revert ws. induction H; intros ws Hw; inversion Hw; subst; constructor; eauto using conv_trans, conv_sym.
  Qed.

  Hypothesis Hsafe : eta_safe sg.
  Notation redxs := (redxs sg).

  (** ** The same with eta steps *)
  Lemma rfree_none c us : sg_eta sg = true -> rfree c us -> forall r, ~ rule_of sg c r.
  Proof.
    intros He H r Hr. apply (H us (Forall2_reds_refl us) r Hr). destruct (Hsafe He) as [_ Hn].
    exists (fun _ => Typ), [], us. rewrite (Hn _ _ Hr). split; [reflexivity|constructor].
  Qed.
  Lemma rfree_redxs c us us' : Forall2 redxs us us' -> rfree c us -> rfree c us'.
  Proof.
    intros H Hf. destruct (sg_eta sg) eqn:He.
    - intros ws _ r Hr. destruct (rfree_none _ _ He Hf r Hr).
    - apply (rfree_reds c us); [|exact Hf]. clear Hf. induction H; constructor; [apply redxs_reds; assumption|assumption].
  Qed.
  (** with eta, a head that stays also does so with further arguments *)
  Lemma rigid_more h us ws : sg_eta sg = true -> rigid h us -> rigid h ws.
  Proof. destruct h; cbn; auto. intros He H us' _ r Hr. destruct (rfree_none _ _ He H r Hr). Qed.
  Definition hredx (h h' : tm) : Prop :=
    match h with
    | Pi a b => exists a' b', h' = Pi a' b' /\ redxs a a' /\ redxs b b'
    | _ => h' = h
    end.
  Lemma hredx_refl h : hredx h h.
  Proof. destruct h; cbn; auto. eauto using rx_refl. Qed.
  Lemma hred_hredx h h' : hred h h' -> hredx h h'.
  Proof. destruct h; cbn; auto. intros (a' & b' & -> & H1 & H2). exists a', b'. repeat split; apply reds_redxs; assumption. Qed.
  Lemma hredx_trans h1 h2 h3 : hredx h1 h2 -> hredx h2 h3 -> hredx h1 h3.
  Proof.
    destruct h1; cbn; intros H; try (subst h2; cbn; auto; fail).
    destruct H as (a' & b' & -> & H1 & H2). cbn. intros (a'' & b'' & -> & H3 & H4). eauto 10 using redxs_trans.
  Qed.
  Lemma hredx_rigid h h' us us' : hredx h h' -> Forall2 redxs us us' -> rigid h us -> rigid h' us'.
  Proof.
    destruct h; cbn; intros H Hus; try (subst h'; cbn; auto; fail).
    - subst h'. cbn. apply rfree_redxs. assumption.
    - destruct H as (a' & b' & -> & _). auto.
  Qed.
  Lemma Forall2_redxs_refl us : Forall2 redxs us us.
  Proof. induction us; constructor; auto using rx_refl. Qed.
  Lemma Forall2_redxs_trans us vs ws : Forall2 redxs us vs -> Forall2 redxs vs ws -> Forall2 redxs us ws.
  Proof.
    intros H. revert ws. induction H; intros ws Hw; inversion Hw; subst; constructor; eauto using redxs_trans.
  Qed.
  Lemma eta_apps us : forall h v, sg_eta sg = true -> rigid h us -> eta_red (apps h us) v ->
    exists h' us', v = apps h' us' /\ Forall2 redxs us us' /\ hredx h h'.
  Proof.
    induction us as [|u us IH] using rev_ind; intros h v He Hr H.
    - cbn in H. apply eta_inv in H. destruct h as [| |c|x|t u|a t|t|a b]; try contradiction.
      destruct H as [(a' & H & ->)|(b' & H & ->)]; [exists (Pi a' b), []|exists (Pi a b'), []]; (split; [reflexivity|]); (split; [constructor|]).
      + exists a', b. eauto using rx_eta, rx_refl.
      + exists a, b'. eauto using rx_eta, rx_refl.
    - rewrite apps_snoc in H. assert (Hr' : rigid h us) by (eapply rigid_more; eassumption).
      apply eta_inv in H. destruct H as [(t' & H & ->)|(u' & H & ->)].
      + destruct (IH _ _ He Hr' H) as (h' & us' & -> & Hus & Hh). exists h', (us' ++ [u]). rewrite apps_snoc.
        split; [reflexivity|]. split; [|assumption]. apply Forall2_app; [assumption|]. constructor; [apply rx_refl|constructor].
      + exists h, (us ++ [u']). rewrite apps_snoc. split; [reflexivity|]. split; [|apply hredx_refl].
        apply Forall2_app; [apply Forall2_redxs_refl|]. constructor; [eauto using rx_eta, rx_refl|constructor].
  Qed.
  Lemma redxs_apps_inv h us v : rigid h us -> redxs (apps h us) v ->
    exists h' us', v = apps h' us' /\ Forall2 redxs us us' /\ hredx h h'.
  Proof.
    intros Hr H. remember (apps h us) as t eqn:Et. revert h us Hr Et.
    induction H as [t|t u v H1 H2 IH|t u v He H1 H2 IH]; intros h us Hr Et; subst t.
    - exists h, us. auto using hredx_refl, Forall2_redxs_refl.
    - destruct (red_apps _ _ _ Hr H1) as (h1 & us1 & -> & Hus1 & Hh1). apply hred_hredx in Hh1.
      assert (Hus1' : Forall2 redxs us us1) by (clear - Hus1; induction Hus1; constructor; auto using reds_redxs).
      destruct (IH h1 us1) as (h2 & us2 & -> & Hus2 & Hh2); [eapply hredx_rigid; eassumption|reflexivity|].
      exists h2, us2. split; [reflexivity|]. split; [eapply Forall2_redxs_trans; eassumption|eapply hredx_trans; eassumption].
    - destruct (eta_apps _ _ _ He Hr H1) as (h1 & us1 & -> & Hus1 & Hh1).
      destruct (IH h1 us1) as (h2 & us2 & -> & Hus2 & Hh2); [eapply hredx_rigid; eassumption|reflexivity|].
      exists h2, us2. split; [reflexivity|]. split; [eapply Forall2_redxs_trans; eassumption|eapply hredx_trans; eassumption].
  Qed.

  Lemma Forall2_convx_strip us : forall vs, Forall2 redxs (map strip us) vs -> Forall2 conv us vs.
  Proof.
    induction us as [|u us IH]; intros vs H; inversion H; subst; constructor; auto.
    eapply conv_trans; [apply conv_strip|]. apply redxs_conv. assumption.
  Qed.

  Hypothesis Hcr : church_rosser sg.

  (** heads of convertible stuck terms *)
  Definition heads (h k : tm) : Prop :=
    match h, k with
    | Pi a b, Pi a' b' => conv a a' /\ conv b b'
    | Pi _ _, _ | _, Pi _ _ => False
    | _, _ => h = k
    end.
  Lemma conv_stuck h us k ws :
    rigid (strip h) (map strip us) -> rigid (strip k) (map strip ws) -> conv (apps h us) (apps k ws) ->
    heads h k /\ Forall2 conv us ws.
  Proof.
    intros Hh Hk Hc. destruct (Hcr _ _ Hc) as (v & H1 & H2). rewrite strip_apps in H1, H2.
    destruct (redxs_apps_inv _ _ _ Hh H1) as (h' & us' & E1 & Hus & Hhh).
    destruct (redxs_apps_inv _ _ _ Hk H2) as (k' & ws' & E2 & Hws & Hkk). subst v.
    assert (Hna : not_app h') by (eapply rigid_not_app; eapply hredx_rigid; [exact Hhh|exact Hus|exact Hh]).
    assert (Hna' : not_app k') by (eapply rigid_not_app; eapply hredx_rigid; [exact Hkk|exact Hws|exact Hk]).
    apply apps_inj in E2; [|assumption|assumption]. destruct E2 as [-> ->]. split.
    - destruct h, k; cbn in Hh, Hk; try contradiction; cbn in Hhh, Hkk |- *;
        try (destruct Hhh as (a' & b' & -> & Ha & Hb)); try (destruct Hkk as (a'' & b'' & E & Ha' & Hb')); try congruence.
      injection E as <- <-. apply redxs_conv in Ha, Hb, Ha', Hb'.
      split; (eapply conv_trans; [apply conv_strip|]; eapply conv_trans; [eassumption|]; apply conv_sym;
        eapply conv_trans; [apply conv_strip|]; assumption).
    - eapply Forall2_conv_join; apply Forall2_convx_strip; eassumption.
  Qed.
  Lemma conv_stuck_lam b h us : sg_eta sg = false -> rigid (strip h) (map strip us) -> ~ conv (ULam b) (apps h us).
  Proof.
    intros He Hh Hc. destruct (Hcr _ _ Hc) as (v & H1 & H2). apply (redxs_reds _ _ _ He) in H1, H2. rewrite strip_apps in H2. cbn in H1.
    destruct (reds_apps_inv _ _ _ Hh H2) as (h' & us' & E1 & Hus & Hhh).
    destruct (reds_ulam_inv _ _ H1) as (b' & -> & _).
    assert (Hr : rigid h' us') by (eapply hred_rigid; eassumption).
    apply (apps_inj [] us') in E1; [|exact I|eapply rigid_not_app; eassumption]. destruct E1 as [<- _]. destruct Hr.
  Qed.
  (** an abstraction and a term without one *)
  Lemma conv_stuck_body b t : conv (ULam b) t -> conv b (App (lift 1 t) (Var 0)).
  Proof.
    intros H. apply (conv_lift _ _ _ 1) in H. apply conv_app with (u := Var 0) (u' := Var 0) in H; [|apply conv_refl].
    eapply conv_trans; [|exact H]. apply conv_sym. unfold lift. cbn [ren]. eapply conv_trans; [apply conv_beta|]. rewrite subst1_up. apply conv_refl.
  Qed.

  (** bodies of convertible abstractions *)
  Lemma conv_bodies b1 b2 : conv (ULam b1) (ULam b2) -> conv b1 b2.
  Proof.
    intros H. apply (conv_lift _ _ _ 1) in H. apply conv_app with (u := Var 0) (u' := Var 0) in H; [|apply conv_refl].
    assert (Hb : forall b, conv (App (lift 1 (ULam b)) (Var 0)) b).
    { intros b. unfold lift. cbn [ren]. eapply conv_trans; [apply conv_beta|].
      unfold subst1. rewrite sub_ren. rewrite sub_id_ext; [apply conv_refl|].
      intros [|n]; cbn; [reflexivity|]. rewrite Nat.add_1_r. reflexivity. }
    eapply conv_trans; [apply conv_sym, Hb|]. eapply conv_trans; [exact H|apply Hb].
  Qed.
End Stuck.

(** ** Sequences of steps from sorts and products *)
Lemma redxs_sort sg s t : s = Typ \/ s = Kind -> redxs sg s t -> t = s.
Proof.
  intros Hs H. destruct H as [|t u v H _|t u v _ H _]; [reflexivity|exfalso..].
  - destruct H as [| | | | | | | |]; try (destruct Hs; discriminate).
    destruct (apps_const_cases c ts) as [[-> E']|(? & ? & -> & E')]; rewrite E' in Hs; destruct Hs; discriminate.
  - apply eta_inv in H. destruct Hs as [-> | ->]; exact H.
Qed.
Lemma redxs_pi_inv sg a b t : redxs sg (Pi a b) t -> exists a' b', t = Pi a' b' /\ redxs sg a a' /\ redxs sg b b'.
Proof.
  intros H. remember (Pi a b) as p eqn:E. revert a b E. induction H as [|t u v H _ IH|t u v He H _ IH]; intros a b ->; [eauto 6 using rx_refl| |].
  - inversion H as [|c rs r s ts ? ? ? ? E1| | | | | |a0 a' b0 Ha E1 E2|a0 b0 b' Hb E1 E2]; subst.
    + exfalso. destruct (apps_const_cases c ts) as [[-> E']|(? & ? & -> & E')]; rewrite E' in E1; discriminate.
    + destruct (IH _ _ eq_refl) as (a1 & b1 & -> & H1 & H2). exists a1, b1. eauto using rx_red.
    + destruct (IH _ _ eq_refl) as (a1 & b1 & -> & H1 & H2). exists a1, b1. eauto using rx_red.
  - apply eta_inv in H. destruct H as [(a' & H & ->)|(b' & H & ->)]; destruct (IH _ _ eq_refl) as (a1 & b1 & -> & H1 & H2); exists a1, b1; eauto using rx_eta.
Qed.
Lemma conv_pi_sort sg a b s : church_rosser sg -> s = Typ \/ s = Kind -> ~ conv sg (Pi a b) s.
Proof.
  intros Hcr Hs H. destruct (Hcr _ _ H) as (v & H1 & H2). cbn [strip] in H1. apply redxs_pi_inv in H1. destruct H1 as (a' & b' & -> & _).
  assert (E : strip s = s) by (destruct Hs as [-> | ->]; reflexivity). rewrite E in H2. apply redxs_sort in H2; [|exact Hs]. destruct Hs; congruence.
Qed.
Lemma sorts_apart sg : church_rosser sg -> ~ conv sg Kind Typ.
Proof.
  intros Hcr H. destruct (Hcr _ _ H) as (v & H1 & H2). cbn [strip] in H1, H2.
  apply redxs_sort in H1; [|right; reflexivity]. apply redxs_sort in H2; [|left; reflexivity]. congruence.
Qed.
