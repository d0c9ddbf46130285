(** * Confluence of reduction with eta *)

From Coq Require Import List Arith Lia Bool.
From Verif Require Import SpecTerm SpecConv SpecConvFacts SpecWhnf SpecRed RedConfl.
Import ListNotations.

(** ** Renaming *)
Definition pullback (p q p' q' : nat -> nat) : Prop := forall n m, p n = q m -> exists k, n = p' k /\ m = q' k.
Lemma pullback_up p q p' q' : pullback p q p' q' -> pullback (up_ren p) (up_ren q) (up_ren p') (up_ren q').
Proof.
  intros H [|n] [|m]; cbn; intros E; try discriminate; [exists 0; auto|]. injection E as E. destruct (H _ _ E) as (k & -> & ->). exists (S k). auto.
Qed.
Lemma ren_pullback t : forall p q p' q' u, pullback p q p' q' -> ren p t = ren q u -> exists y, t = ren p' y /\ u = ren q' y.
Proof.
  induction t; intros p q p' q' u H E; destruct u; cbn in E; try discriminate.
  - exists Kind. auto.
  - exists Typ. auto.
  - injection E as ->. exists (Const c0). auto.
  - injection E as E. destruct (H _ _ E) as (k & -> & ->). exists (Var k). auto.
  - injection E as E1 E2. destruct (IHt1 _ _ _ _ _ H E1) as (y1 & -> & ->). destruct (IHt2 _ _ _ _ _ H E2) as (y2 & -> & ->). exists (App y1 y2). auto.
  - injection E as E1 E2. destruct (IHt1 _ _ _ _ _ H E1) as (y1 & -> & ->). destruct (IHt2 _ _ _ _ _ (pullback_up _ _ _ _ H) E2) as (y2 & -> & ->). exists (Lam y1 y2). auto.
  - injection E as E1. destruct (IHt _ _ _ _ _ (pullback_up _ _ _ _ H) E1) as (y1 & -> & ->). exists (ULam y1). auto.
  - injection E as E1 E2. destruct (IHt1 _ _ _ _ _ H E1) as (y1 & -> & ->). destruct (IHt2 _ _ _ _ _ (pullback_up _ _ _ _ H) E2) as (y2 & -> & ->). exists (Pi y1 y2). auto.
Qed.
Definition injective (r : nat -> nat) : Prop := forall n m, r n = r m -> n = m.
Lemma injective_up r : injective r -> injective (up_ren r).
Proof. intros H [|n] [|m]; cbn; intros E; try discriminate; auto. Qed.
Lemma injective_add n : injective (fun x => x + n).
Proof. intros x y E. lia. Qed.
Lemma ren_inj r t u : injective r -> ren r t = ren r u -> t = u.
Proof.
  intros H E. destruct (ren_pullback t r r (fun x => x) (fun x => x) u) as (y & -> & ->); [|exact E|reflexivity].
  intros n m Enm. exists n. split; [reflexivity|]. symmetry. apply H. exact Enm.
Qed.
Lemma lift_inj n t u : lift n t = lift n u -> t = u.
Proof. apply ren_inj, injective_add. Qed.
Lemma ren_up_lift r x t : ren (up_ren r) t = lift 1 x -> exists y, t = lift 1 y /\ x = ren r y.
Proof.
  intros E. apply (ren_pullback t (up_ren r) (fun x => x + 1) (fun x => x + 1) r x); [|exact E].
  intros [|n] m; cbn; [lia|]. intros En. exists n. lia.
Qed.
Lemma ren_lift r t : ren (up_ren r) (lift 1 t) = lift 1 (ren r t).
Proof. unfold lift. rewrite !ren_ren. apply ren_ext. intros n. rewrite Nat.add_1_r. cbn. lia. Qed.
Lemma sub_up_lift s t : sub (up s) (lift 1 t) = lift 1 (sub s t).
Proof.
  unfold lift. rewrite ren_sub, sub_ren. apply sub_ext. intros n. rewrite Nat.add_1_r. cbn. apply ren_ext. intros; lia.
Qed.
Lemma subst1_lift u t : subst1 u (lift 1 t) = t.
Proof. unfold subst1, lift. rewrite sub_ren. apply sub_id_ext. intros n. rewrite Nat.add_1_r. reflexivity. Qed.
Lemma subst1_up t : subst1 (Var 0) (ren (up_ren (fun x => x + 1)) t) = t.
Proof. unfold subst1. rewrite sub_ren. apply sub_id_ext. intros [|n]; cbn; [reflexivity|]. rewrite Nat.add_1_r. reflexivity. Qed.

(** ** Eta steps *)
Inductive etas : tm -> tm -> Prop :=
| etas_refl t : etas t t
| etas_step t u v : eta_red t u -> etas u v -> etas t v.
Lemma etas_trans t u v : etas t u -> etas u v -> etas t v.
Proof. induction 1; eauto using etas_step. Qed.
Lemma etas_one t u : eta_red t u -> etas t u.
Proof. intros H. eapply etas_step; [exact H|apply etas_refl]. Qed.
Lemma etas_map (f : tm -> tm) : (forall t u, eta_red t u -> eta_red (f t) (f u)) -> forall t u, etas t u -> etas (f t) (f u).
Proof. intros Hf t u H. induction H; eauto using etas_refl, etas_step. Qed.
Lemma etas_app t t' u u' : etas t t' -> etas u u' -> etas (App t u) (App t' u').
Proof.
  intros H1 H2. eapply etas_trans; [apply (etas_map (fun t => App t u)); [intros; apply er_appl; assumption|exact H1]|].
  apply (etas_map (App t')); [intros; apply er_appr; assumption|exact H2].
Qed.
Lemma etas_ulam t t' : etas t t' -> etas (ULam t) (ULam t').
Proof. apply etas_map. intros. apply er_ulam. assumption. Qed.
Lemma etas_lam a a' t t' : etas a a' -> etas t t' -> etas (Lam a t) (Lam a' t').
Proof.
  intros H1 H2. eapply etas_trans; [apply (etas_map (fun a => Lam a t)); [intros; apply er_lama; assumption|exact H1]|].
  apply (etas_map (Lam a')); [intros; apply er_lamb; assumption|exact H2].
Qed.
Lemma etas_pi a a' t t' : etas a a' -> etas t t' -> etas (Pi a t) (Pi a' t').
Proof.
  intros H1 H2. eapply etas_trans; [apply (etas_map (fun a => Pi a t)); [intros; apply er_pil; assumption|exact H1]|].
  apply (etas_map (Pi a')); [intros; apply er_pir; assumption|exact H2].
Qed.
Lemma eta_sub t t' : eta_red t t' -> forall s, eta_red (sub s t) (sub s t').
Proof.
  induction 1; intros s; cbn [sub]; try (constructor; auto; fail). rewrite sub_up_lift. apply er_eta.
Qed.
Lemma eta_ren t t' r : eta_red t t' -> eta_red (ren r t) (ren r t').
Proof. rewrite !ren_as_sub. intros H. apply eta_sub. exact H. Qed.
Lemma etas_ren t t' r : etas t t' -> etas (ren r t) (ren r t').
Proof. apply etas_map. intros. apply eta_ren. assumption. Qed.
Lemma etas_sub_pw t : forall s s', (forall n, etas (s n) (s' n)) -> etas (sub s t) (sub s' t).
Proof.
  assert (Hup : forall s s', (forall n, etas (s n) (s' n)) -> forall n, etas (up s n) (up s' n)).
  { intros s s' H [|n]; cbn; [apply etas_refl|apply etas_ren, H]. }
  induction t; intros s s' H; cbn [sub]; auto using etas_refl, etas_app, etas_ulam, etas_lam, etas_pi.
Qed.
Lemma eta_inv t u : eta_red t u ->
  match t with
  | App t1 t2 => (exists t', eta_red t1 t' /\ u = App t' t2) \/ (exists t', eta_red t2 t' /\ u = App t1 t')
  | ULam b => b = App (lift 1 u) (Var 0) \/ exists b', eta_red b b' /\ u = ULam b'
  | Lam a b => (exists a', eta_red a a' /\ u = Lam a' b) \/ (exists b', eta_red b b' /\ u = Lam a b')
  | Pi a b => (exists a', eta_red a a' /\ u = Pi a' b) \/ (exists b', eta_red b b' /\ u = Pi a b')
  | _ => False
  end.
Proof. intros H. destruct H; eauto. Qed.

Lemma eta_unren t : forall r v, injective r -> eta_red (ren r t) v -> exists t', v = ren r t' /\ eta_red t t'.
Proof.
  induction t; intros r v Hr H; cbn [ren] in H; apply eta_inv in H; cbn in H; try contradiction.
  - destruct H as [(x & H & ->)|(x & H & ->)].
    + destruct (IHt1 _ _ Hr H) as (t' & -> & H'). exists (App t' t2). split; [reflexivity|apply er_appl; exact H'].
    + destruct (IHt2 _ _ Hr H) as (t' & -> & H'). exists (App t1 t'). split; [reflexivity|apply er_appr; exact H'].
  - destruct H as [(x & H & ->)|(x & H & ->)].
    + destruct (IHt1 _ _ Hr H) as (t' & -> & H'). exists (Lam t' t2). split; [reflexivity|apply er_lama; exact H'].
    + destruct (IHt2 _ _ (injective_up _ Hr) H) as (t' & -> & H'). exists (Lam t1 t'). split; [reflexivity|apply er_lamb; exact H'].
  - destruct H as [E|(x & H & ->)].
    + destruct t; try discriminate. cbn in E. injection E as E1 E2. destruct t2; try discriminate. cbn in E2. injection E2 as E2.
      destruct n; [|discriminate]. destruct (ren_up_lift _ _ _ E1) as (y & -> & ->). exists y. split; [reflexivity|apply er_eta].
    + destruct (IHt _ _ (injective_up _ Hr) H) as (t' & -> & H'). exists (ULam t'). split; [reflexivity|apply er_ulam; exact H'].
  - destruct H as [(x & H & ->)|(x & H & ->)].
    + destruct (IHt1 _ _ Hr H) as (t' & -> & H'). exists (Pi t' t2). split; [reflexivity|apply er_pil; exact H'].
    + destruct (IHt2 _ _ (injective_up _ Hr) H) as (t' & -> & H'). exists (Pi t1 t'). split; [reflexivity|apply er_pir; exact H'].
Qed.

Definition eta01 (t u : tm) : Prop := t = u \/ eta_red t u.
Lemma eta01_etas t u : eta01 t u -> etas t u.
Proof. intros [->|H]; [apply etas_refl|apply etas_one; exact H]. Qed.
(** an eta redex and a step inside it *)
Lemma eta_peak u b : eta_red (App (lift 1 u) (Var 0)) b -> exists w, eta_red u w /\ eta_red (ULam b) w.
Proof.
  intros H. apply eta_inv in H. destruct H as [(x & H & ->)|(x & H & ->)]; [|apply eta_inv in H; contradiction].
  destruct (eta_unren _ _ _ (injective_add 1) H) as (w & -> & Hw). exists w. split; [exact Hw|apply er_eta].
Qed.
Lemma eta_diamond t a : eta_red t a -> forall b, eta_red t b -> exists c, eta01 a c /\ eta01 b c.
Proof.
  unfold eta01. induction 1 as [t|t t' u H IH|t u u' H IH|t t' H IH|x x' t H IH|x t t' H IH|x x' t H IH|x t t' H IH]; intros b Hb; apply eta_inv in Hb.
  - destruct Hb as [E|(b' & Hb & ->)].
    + injection E as E. apply lift_inj in E. subst b. exists t. auto.
    + destruct (eta_peak _ _ Hb) as (w & H1 & H2). eauto.
  - destruct Hb as [(x & Hx & ->)|(x & Hx & ->)]; [|exists (App t' x); split; right; constructor; assumption].
    destruct (IH _ Hx) as (c & [E1|H1] & [E2|H2]); exists (App c u); (split; [|]); first [left; congruence | right; constructor; assumption | right; auto using er_appl, er_appr].
  - destruct Hb as [(x & Hx & ->)|(x & Hx & ->)]; [exists (App x u'); split; right; constructor; assumption|].
    destruct (IH _ Hx) as (c & [E1|H1] & [E2|H2]); exists (App t c); (split; [|]); first [left; congruence | right; constructor; assumption | right; auto using er_appl, er_appr].
  - destruct Hb as [->|(b' & Hb & ->)].
    + destruct (eta_peak _ _ H) as (w & H1 & H2). eauto.
    + destruct (IH _ Hb) as (c & [E1|H1] & [E2|H2]); exists (ULam c); (split; [|]); first [left; congruence | right; constructor; assumption | right; auto using er_ulam].
  - destruct Hb as [(y & Hx & ->)|(y & Hx & ->)]; [|exists (Lam x' y); split; right; constructor; assumption].
    destruct (IH _ Hx) as (c & [E1|H1] & [E2|H2]); exists (Lam c t); (split; [|]); first [left; congruence | right; constructor; assumption | right; auto using er_lama, er_lamb].
  - destruct Hb as [(y & Hx & ->)|(y & Hx & ->)]; [exists (Lam y t'); split; right; constructor; assumption|].
    destruct (IH _ Hx) as (c & [E1|H1] & [E2|H2]); exists (Lam x c); (split; [|]); first [left; congruence | right; constructor; assumption | right; auto using er_lama, er_lamb].
  - destruct Hb as [(y & Hx & ->)|(y & Hx & ->)]; [|exists (Pi x' y); split; right; constructor; assumption].
    destruct (IH _ Hx) as (c & [E1|H1] & [E2|H2]); exists (Pi c t); (split; [|]); first [left; congruence | right; constructor; assumption | right; auto using er_pil, er_pir].
  - destruct Hb as [(y & Hx & ->)|(y & Hx & ->)]; [exists (Pi y t'); split; right; constructor; assumption|].
    destruct (IH _ Hx) as (c & [E1|H1] & [E2|H2]); exists (Pi x c); (split; [|]); first [left; congruence | right; constructor; assumption | right; auto using er_pil, er_pir].
Qed.
Lemma eta_strip t a : etas t a -> forall b, eta_red t b -> exists c, eta01 a c /\ etas b c.
Proof.
  induction 1 as [t|t u v H Hs IH]; intros b Hb; [exists b; split; [right; exact Hb|apply etas_refl]|].
  destruct (eta_diamond _ _ H _ Hb) as (c & [<-|H1] & H2).
  - exists v. split; [left; reflexivity|]. eapply etas_trans; [apply eta01_etas; exact H2|exact Hs].
  - destruct (IH _ H1) as (d & H3 & H4). exists d. split; [exact H3|]. eapply etas_trans; [apply eta01_etas; exact H2|exact H4].
Qed.
Lemma etas_confluent t b : etas t b -> forall a, etas t a -> exists c, etas a c /\ etas b c.
Proof.
  induction 1 as [t|t u v H Hs IH]; intros a Ha; [exists a; split; [apply etas_refl|exact Ha]|].
  destruct (eta_strip _ _ Ha _ H) as (c & H1 & H2). destruct (IH _ H2) as (d & H3 & H4). exists d. split; [|exact H4].
  eapply etas_trans; [apply eta01_etas; exact H1|exact H3].
Qed.

(** ** Steps and eta steps *)
Section Commute.
  Variable sg : sig.
  Notation red := (red sg).
  Notation reds := (reds sg).
  Hypothesis Hnull : forall c r, rule_of sg c r -> sr_args r = [].
  Hypothesis Hclosed : forall c r, rule_of sg c r -> scoped 0 (sr_rhs r).

  Lemma red_cases t u : red t u ->
    match t with
    | App t1 t2 => (exists b, t1 = ULam b /\ u = subst1 t2 b) \/ (exists t', red t1 t' /\ u = App t' t2) \/ (exists t', red t2 t' /\ u = App t1 t')
    | ULam b => exists b', red b b' /\ u = ULam b'
    | Lam a b => (exists a', red a a' /\ u = Lam a' b) \/ (exists b', red b b' /\ u = Lam a b')
    | Pi a b => (exists a', red a a' /\ u = Pi a' b) \/ (exists b', red b b' /\ u = Pi a b')
    | Const c => exists r, rule_of sg c r /\ forall s, u = sub s (strip (sr_rhs r))
    | _ => False
    end.
  Proof.
    intros H. destruct H as [| c rs r s ts H1 H2 H3 H4 | | | | | | |]; eauto 8.
    assert (Hr : rule_of sg c r) by (exists rs; auto). rewrite (Hnull _ _ Hr) in H4. inversion H4; subst. cbn [apps].
    exists r. split; [exact Hr|]. intros s'. apply (sub_scoped _ 0); [apply scoped_strip, (Hclosed _ _ Hr)|]. intros m Hm. lia.
  Qed.
  Lemma red_unren t : forall r v, injective r -> red (ren r t) v -> exists t', v = ren r t' /\ red t t'.
  Proof.
    induction t; intros r v Hr H; cbn [ren] in H; assert (H0 := H); apply red_cases in H; cbn in H; try contradiction.
    - destruct H as (rl & Hrl & E). exists (sub Var (strip (sr_rhs rl))). rewrite ren_sub. rewrite <- (E (fun n => ren r (Var n))). split; [reflexivity|].
      rewrite <- (E Var). exact H0.
    - destruct H as [(b & E & ->)|[(x & H & ->)|(x & H & ->)]].
      + destruct t1; try discriminate. cbn in E. injection E as <-. exists (subst1 t2 t1). split; [symmetry; apply ren_subst1|apply red_beta].
      + destruct (IHt1 _ _ Hr H) as (t' & -> & H'). exists (App t' t2). split; [reflexivity|apply red_appl; exact H'].
      + destruct (IHt2 _ _ Hr H) as (t' & -> & H'). exists (App t1 t'). split; [reflexivity|apply red_appr; exact H'].
    - destruct H as [(x & H & ->)|(x & H & ->)].
      + destruct (IHt1 _ _ Hr H) as (t' & -> & H'). exists (Lam t' t2). split; [reflexivity|apply red_lama; exact H'].
      + destruct (IHt2 _ _ (injective_up _ Hr) H) as (t' & -> & H'). exists (Lam t1 t'). split; [reflexivity|apply red_lamb; exact H'].
    - destruct H as (x & H & ->). destruct (IHt _ _ (injective_up _ Hr) H) as (t' & -> & H'). exists (ULam t'). split; [reflexivity|apply red_ulam; exact H'].
    - destruct H as [(x & H & ->)|(x & H & ->)].
      + destruct (IHt1 _ _ Hr H) as (t' & -> & H'). exists (Pi t' t2). split; [reflexivity|apply red_pil; exact H'].
      + destruct (IHt2 _ _ (injective_up _ Hr) H) as (t' & -> & H'). exists (Pi t1 t'). split; [reflexivity|apply red_pir; exact H'].
  Qed.
  Definition red01 (t u : tm) : Prop := t = u \/ red t u.
  Lemma red01_reds t u : red01 t u -> reds t u.
  Proof. intros [->|H]; [apply reds_refl|apply reds_one; exact H]. Qed.
  Lemma red01_map (f : tm -> tm) t u : (forall t u, red t u -> red (f t) (f u)) -> red01 t u -> red01 (f t) (f u).
  Proof. intros Hf [->|H]; [left; reflexivity|right; auto]. Qed.
  Lemma commute1 t b : eta_red t b -> forall a, red t a -> exists c, etas a c /\ red01 b c.
  Proof.
    induction 1 as [t|t t' u H IH|t u u' H IH|t t' H IH|x x' t H IH|x t t' H IH|x x' t H IH|x t t' H IH]; intros a Ha; apply red_cases in Ha.
    - destruct Ha as (b' & Hb & ->). apply red_cases in Hb. destruct Hb as [(s & E & ->)|[(w & Hw & ->)|(w & Hw & ->)]].
      + destruct t; try discriminate. cbn in E. injection E as <-. exists (ULam t). rewrite subst1_up. split; [apply etas_refl|left; reflexivity].
      + destruct (red_unren _ _ _ (injective_add 1) Hw) as (w' & -> & Hw'). exists w'. split; [apply etas_one, er_eta|right; exact Hw'].
      + apply red_cases in Hw. contradiction.
    - destruct Ha as [(s & -> & ->)|[(w & Hw & ->)|(w & Hw & ->)]].
      + apply eta_inv in H. destruct H as [->|(s' & Hs & ->)].
        * exists (App t' u). split; [|left; reflexivity]. unfold subst1 at 1. cbn [sub]. change (sub (scons u Var) (lift 1 t')) with (subst1 u (lift 1 t')).
          rewrite subst1_lift. apply etas_refl.
        * exists (subst1 u s'). split; [apply etas_one, eta_sub; exact Hs|right; apply red_beta].
      + destruct (IH _ Hw) as (c & H1 & H2). exists (App c u). split; [apply etas_app; [exact H1|apply etas_refl]|].
        apply (red01_map (fun t => App t u)); [intros; apply red_appl; assumption|exact H2].
      + exists (App t' w). split; [apply etas_one, er_appl; exact H|right; apply red_appr; exact Hw].
    - destruct Ha as [(s & -> & ->)|[(w & Hw & ->)|(w & Hw & ->)]].
      + exists (subst1 u' s). split; [|right; apply red_beta]. apply etas_sub_pw. intros [|n]; cbn; [apply etas_one; exact H|apply etas_refl].
      + exists (App w u'). split; [apply etas_one, er_appr; exact H|right; apply red_appl; exact Hw].
      + destruct (IH _ Hw) as (c & H1 & H2). exists (App t c). split; [apply etas_app; [apply etas_refl|exact H1]|].
        apply (red01_map (App t)); [intros; apply red_appr; assumption|exact H2].
    - destruct Ha as (w & Hw & ->). destruct (IH _ Hw) as (c & H1 & H2). exists (ULam c). split; [apply etas_ulam; exact H1|].
      apply red01_map; [intros; apply red_ulam; assumption|exact H2].
    - destruct Ha as [(w & Hw & ->)|(w & Hw & ->)].
      + destruct (IH _ Hw) as (c & H1 & H2). exists (Lam c t). split; [apply etas_lam; [exact H1|apply etas_refl]|].
        apply (red01_map (fun x => Lam x t)); [intros; apply red_lama; assumption|exact H2].
      + exists (Lam x' w). split; [apply etas_one, er_lama; exact H|right; apply red_lamb; exact Hw].
    - destruct Ha as [(w & Hw & ->)|(w & Hw & ->)].
      + exists (Lam w t'). split; [apply etas_one, er_lamb; exact H|right; apply red_lama; exact Hw].
      + destruct (IH _ Hw) as (c & H1 & H2). exists (Lam x c). split; [apply etas_lam; [apply etas_refl|exact H1]|].
        apply (red01_map (Lam x)); [intros; apply red_lamb; assumption|exact H2].
    - destruct Ha as [(w & Hw & ->)|(w & Hw & ->)].
      + destruct (IH _ Hw) as (c & H1 & H2). exists (Pi c t). split; [apply etas_pi; [exact H1|apply etas_refl]|].
        apply (red01_map (fun x => Pi x t)); [intros; apply red_pil; assumption|exact H2].
      + exists (Pi x' w). split; [apply etas_one, er_pil; exact H|right; apply red_pir; exact Hw].
    - destruct Ha as [(w & Hw & ->)|(w & Hw & ->)].
      + exists (Pi w t'). split; [apply etas_one, er_pir; exact H|right; apply red_pil; exact Hw].
      + destruct (IH _ Hw) as (c & H1 & H2). exists (Pi x c). split; [apply etas_pi; [apply etas_refl|exact H1]|].
        apply (red01_map (Pi x)); [intros; apply red_pir; assumption|exact H2].
  Qed.
  Lemma commute2 t b : etas t b -> forall a, red t a -> exists c, etas a c /\ red01 b c.
  Proof.
    induction 1 as [t|t u v H Hs IH]; intros a Ha; [exists a; split; [apply etas_refl|right; exact Ha]|].
    destruct (commute1 _ _ H _ Ha) as (c & H1 & [<-|H2]).
    - exists v. split; [eapply etas_trans; eassumption|left; reflexivity].
    - destruct (IH _ H2) as (d & H3 & H4). exists d. split; [eapply etas_trans; eassumption|exact H4].
  Qed.
  Lemma commute t a : reds t a -> forall b, etas t b -> exists c, etas a c /\ reds b c.
  Proof.
    induction 1 as [t|t u v H Hs IH]; intros b Hb; [exists b; split; [exact Hb|apply reds_refl]|].
    destruct (commute2 _ _ Hb _ H) as (c & H1 & H2). destruct (IH _ H1) as (d & H3 & H4). exists d. split; [exact H3|].
    eapply reds_trans; [apply red01_reds; exact H2|exact H4].
  Qed.
End Commute.

(** ** Both *)
Section Both.
  Variable sg : sig.
  Notation red := (red sg).
  Notation reds := (reds sg).
  Notation redxs := (redxs sg).
  Notation conv := (conv sg).

  Lemma redxs_trans t u v : redxs t u -> redxs u v -> redxs t v.
  Proof. induction 1; eauto using rx_red, rx_eta. Qed.
  Lemma reds_redxs t u : reds t u -> redxs t u.
  Proof. induction 1; eauto using rx_refl, rx_red. Qed.
  Lemma etas_redxs t u : sg_eta sg = true -> etas t u -> redxs t u.
  Proof. intros He. induction 1; eauto using rx_refl, rx_eta. Qed.
  Lemma redxs_reds t u : sg_eta sg = false -> redxs t u -> reds t u.
  Proof. intros He. induction 1; [apply reds_refl|eauto using reds_step|congruence]. Qed.
  Lemma redxs_map (f : tm -> tm) : (forall t u, red t u -> red (f t) (f u)) -> (forall t u, eta_red t u -> eta_red (f t) (f u)) ->
    forall t u, redxs t u -> redxs (f t) (f u).
  Proof. intros H1 H2 t u H. induction H; eauto using rx_refl, rx_red, rx_eta. Qed.
  Lemma redxs_app t t' u u' : redxs t t' -> redxs u u' -> redxs (App t u) (App t' u').
  Proof.
    intros H1 H2. eapply redxs_trans; [apply (redxs_map (fun t => App t u)); [intros; apply red_appl; assumption|intros; apply er_appl; assumption|exact H1]|].
    apply (redxs_map (App t')); [intros; apply red_appr; assumption|intros; apply er_appr; assumption|exact H2].
  Qed.
  Lemma redxs_ulam t t' : redxs t t' -> redxs (ULam t) (ULam t').
  Proof. apply redxs_map; [intros; apply red_ulam; assumption|intros; apply er_ulam; assumption]. Qed.
  Lemma redxs_pi a a' t t' : redxs a a' -> redxs t t' -> redxs (Pi a t) (Pi a' t').
  Proof.
    intros H1 H2. eapply redxs_trans; [apply (redxs_map (fun a => Pi a t)); [intros; apply red_pil; assumption|intros; apply er_pil; assumption|exact H1]|].
    apply (redxs_map (Pi a')); [intros; apply red_pir; assumption|intros; apply er_pir; assumption|exact H2].
  Qed.
  Lemma eta_conv t u : sg_eta sg = true -> eta_red t u -> conv t u.
  Proof.
    intros He. induction 1; eauto using conv_refl, conv_app, conv_ulam, conv_pi, conv_lam.
    apply conv_sym, conv_eta. exact He.
  Qed.
  Lemma redxs_conv t u : redxs t u -> conv t u.
  Proof.
    induction 1; [apply conv_refl|eapply conv_trans; [apply red_conv; eassumption|assumption]|eapply conv_trans; [apply eta_conv; eassumption|assumption]].
  Qed.

  Hypothesis Ho : orthogonal sg.
  Hypothesis Hsafe : eta_safe sg.

  (** a sequence of steps, then a sequence of eta steps *)
  Definition both (t u : tm) : Prop := exists v, reds t v /\ etas v u.
  Lemma both_diamond t a b : sg_eta sg = true -> both t a -> both t b -> exists c, both a c /\ both b c.
  Proof.
    intros He (a1 & A1 & A2) (b1 & B1 & B2). destruct (Hsafe He) as [_ Hn].
    assert (Hc : forall c r, rule_of sg c r -> scoped 0 (sr_rhs r)).
    { intros c r Hr. destruct (Ho _ _ Hr) as (_ & Hs & _). destruct Hr as (rs & H1 & H2 & H3).
      assert (E : sr_vars r = 0).
      { destruct (sr_vars r) as [|m] eqn:E; [reflexivity|]. exfalso. destruct (H3 0) as [H4 _]. rewrite (Hn c r) in H4 by (exists rs; auto). apply H4. lia. }
      rewrite E in Hs. exact Hs. }
    destruct (confluent sg Ho _ _ A1 _ B1) as (c & C1 & C2).
    destruct (commute sg Hn Hc _ _ C1 _ A2) as (d1 & D1 & D2). destruct (commute sg Hn Hc _ _ C2 _ B2) as (d2 & D3 & D4).
    destruct (etas_confluent _ _ D1 _ D3) as (e & E1 & E2). exists e. split; [exists d1|exists d2]; auto.
  Qed.
  Inductive boths : tm -> tm -> Prop :=
  | boths_refl t : boths t t
  | boths_step t u v : both t u -> boths u v -> boths t v.
  Lemma boths_strip t a : sg_eta sg = true -> boths t a -> forall b, both t b -> exists c, both a c /\ boths b c.
  Proof.
    intros He. induction 1 as [t|t u v H _ IH]; intros b Hb; [exists b; split; [exact Hb|apply boths_refl]|].
    destruct (both_diamond _ _ _ He H Hb) as (c & H1 & H2). destruct (IH _ H1) as (d & H3 & H4). exists d. split; [exact H3|]. eapply boths_step; eassumption.
  Qed.
  Lemma boths_confluent t b : sg_eta sg = true -> boths t b -> forall a, boths t a -> exists c, boths a c /\ boths b c.
  Proof.
    intros He. induction 1 as [t|t u v H _ IH]; intros a Ha; [exists a; split; [apply boths_refl|exact Ha]|].
    destruct (boths_strip _ _ He Ha _ H) as (c & H1 & H2). destruct (IH _ H2) as (d & H3 & H4). exists d. split; [|exact H4]. eapply boths_step; eassumption.
  Qed.
  Lemma boths_redxs t u : sg_eta sg = true -> boths t u -> redxs t u.
  Proof.
    intros He. induction 1 as [|t u v (w & H1 & H2) _ IH]; [apply rx_refl|].
    eapply redxs_trans; [apply reds_redxs; exact H1|]. eapply redxs_trans; [apply etas_redxs; eassumption|exact IH].
  Qed.
  Lemma redxs_boths t u : redxs t u -> boths t u.
  Proof.
    induction 1 as [|t u v H _ IH|t u v _ H _ IH]; [apply boths_refl| |]; (eapply boths_step; [|exact IH]).
    - exists u. split; [apply reds_one; exact H|apply etas_refl].
    - exists t. split; [apply reds_refl|apply etas_one; exact H].
  Qed.
  Lemma redxs_confluent t a b : redxs t a -> redxs t b -> exists c, redxs a c /\ redxs b c.
  Proof.
    intros Ha Hb. destruct (sg_eta sg) eqn:He.
    - apply redxs_boths in Ha, Hb. destruct (boths_confluent _ _ He Hb _ Ha) as (c & H1 & H2). exists c. split; apply boths_redxs; assumption.
    - apply (redxs_reds _ _ He) in Ha, Hb. destruct (confluent sg Ho _ _ Ha _ Hb) as (c & H1 & H2). exists c. split; apply reds_redxs; assumption.
  Qed.

  Lemma safe_church_rosser : church_rosser sg.
  Proof.
    intros t u H. induction H as [t|t u H IH|t u v H1 IH1 H2 IH2|t t' u u' H1 IH1 H2 IH2|t t' H IH|a a' b b' H1 IH1 H2 IH2
      |a t|t u|c rs r s ts Hrs Hin Hu Hi|t He].
    - exists (strip t). split; apply rx_refl.
    - destruct IH as (v & ? & ?). exists v. auto.
    - destruct IH1 as (w1 & A1 & A2). destruct IH2 as (w2 & B1 & B2).
      destruct (redxs_confluent _ _ _ A2 B1) as (z & ? & ?). exists z. split; eapply redxs_trans; eassumption.
    - destruct IH1 as (w1 & A1 & A2). destruct IH2 as (w2 & B1 & B2). exists (App w1 w2). cbn. auto using redxs_app.
    - destruct IH as (w & ? & ?). exists (ULam w). cbn. auto using redxs_ulam.
    - destruct IH1 as (w1 & A1 & A2). destruct IH2 as (w2 & B1 & B2). exists (Pi w1 w2). cbn. auto using redxs_pi.
    - eexists. split; apply rx_refl.
    - exists (strip (subst1 u t)). split; [|apply rx_refl]. rewrite strip_subst1. cbn. apply reds_redxs, reds_one, red_beta.
    - exists (strip (sub s (sr_rhs r))). split; [|apply rx_refl]. rewrite strip_apps, strip_sub. cbn.
      apply reds_redxs, reds_one. eapply red_rule; try eassumption. apply insts_strip. assumption.
    - exists (strip t). split; [apply rx_refl|]. cbn [strip]. unfold lift. rewrite strip_ren. eapply rx_eta; [exact He|apply er_eta|apply rx_refl].
  Qed.
End Both.

Lemma eta_off_safe sg : sg_eta sg = false -> eta_safe sg.
Proof. intros E H. congruence. Qed.
Lemma orthogonal_church_rosser sg : orthogonal sg -> sg_eta sg = false -> church_rosser sg.
Proof. intros Ho He. apply safe_church_rosser; [exact Ho|apply eta_off_safe; exact He]. Qed.

(** ** Rules that follow from others *)
Lemma rule_of_red sg sg' : (forall c r, rule_of sg c r -> rule_of sg' c r) -> forall t u, red sg t u -> red sg' t u.
Proof.
  intros H t u R. induction R as [b u|c rs r s ts Hrs Hin Hu Hi| | | | | | |]; try (constructor; assumption).
  destruct (H c r) as (rs' & H1 & H2 & _); [exists rs; auto|]. eapply red_rule; eassumption.
Qed.
Lemma complete_conv sg core : sg_eta core = sg_eta sg ->
  (forall c r, rule_of sg c r -> rule_of core c r \/ forall s ts, Forall2 (inst s) (sr_args r) ts -> conv core (apps (Const c) ts) (sub s (sr_rhs r))) ->
  forall t u, conv sg t u -> conv core t u.
Proof.
  intros He H t u C. induction C as [t|t u _ IH|t u v _ IH1 _ IH2|t t' u u' _ IH1 _ IH2|t t' _ IH|a a' b b' _ IH1 _ IH2|a t|t u|c rs r s ts Hrs Hin Hu Hi|t Ht].
  - apply conv_refl.
  - apply conv_sym. exact IH.
  - eapply conv_trans; eassumption.
  - apply conv_app; assumption.
  - apply conv_ulam. exact IH.
  - apply conv_pi; assumption.
  - apply conv_annot.
  - apply conv_beta.
  - destruct (H c r) as [(rs' & H1 & H2 & _)|H1]; [exists rs; auto|eapply conv_rule; eassumption|apply H1; exact Hi].
  - apply conv_eta. congruence.
Qed.
Lemma complete_church_rosser sg : complete sg -> sg_eta sg = false -> church_rosser sg.
Proof.
  intros (_ & core & He & Ho & Hsub & Hall) Hoff t u C. apply (complete_conv sg core He Hall) in C.
  destruct (orthogonal_church_rosser core Ho ltac:(congruence) _ _ C) as (v & H1 & H2). exists v.
  assert (X : forall a b, redxs core a b -> redxs sg a b).
  { intros a b R. induction R as [|a b c R _ IH|a b c E R _ IH]; [apply rx_refl|eapply rx_red; [eapply rule_of_red; [exact Hsub|exact R]|exact IH]|congruence]. }
  auto.
Qed.
Lemma orthogonal_complete sg : orthogonal sg -> complete sg.
Proof.
  intros Ho. split; [intros c r Hr; destruct (Ho c r Hr) as (H1 & H2 & _); auto|]. exists sg. auto.
Qed.
