(** * Normal forms over orthogonal rules, and what they tell about convertible terms *)

From Coq Require Import List Arith Lia Bool.
From Verif Require Import SpecTerm SpecConv SpecConvFacts SpecWhnf SpecRed SpecSN SpecType SpecDomain SpecRec RedConfl EtaConfl RedStuck TypeFacts SnBase SnRec.
Import ListNotations.

(** ** Matching is decidable *)
Lemma apps_form t : exists us h, t = apps h us /\ not_app h.
Proof.
  induction t as [| |c|x|t IHt u _|a _ t _|t _|a _ b _]; try (eexists [], _; split; [reflexivity|exact I]).
  destruct IHt as (us & h & -> & H). exists (us ++ [u]), h. rewrite apps_snoc. auto.
Qed.
Lemma inst_list ps : Forall (fun p => NoDup (pat_vars p) -> forall t, (exists s, inst s p t) \/ ~ exists s, inst s p t) ps ->
  NoDup (flat_map pat_vars ps) -> forall ts, (exists s, Forall2 (inst s) ps ts) \/ ~ exists s, Forall2 (inst s) ps ts.
Proof.
  induction 1 as [|p ps Hp _ IH]; intros Hn ts; cbn in Hn.
  - destruct ts; [left; exists Var; constructor|right; intros (s & H); inversion H].
  - destruct ts as [|t ts]; [right; intros (s & H); inversion H|].
    destruct (Hp (NoDup_l _ _ Hn) t) as [(s1 & H1)|H1]; [|right; intros (s & H); inversion H; subst; eauto].
    destruct (IH (NoDup_r _ _ Hn) ts) as [(s2 & H2)|H2]; [|right; intros (s & H); inversion H; subst; eauto].
    left. exists (fun m => if in_dec Nat.eq_dec m (pat_vars p) then s1 m else s2 m). constructor.
    + eapply inst_ext; [|exact H1]. intros m Hm. destruct (in_dec _ _ _); [reflexivity|contradiction].
    + eapply insts_ext; [|exact H2]. intros m Hm. destruct (in_dec _ _ _) as [H|]; [|reflexivity].
      exfalso. clear - Hn Hm H. induction (pat_vars p) as [|x l IH]; [exact H|]. cbn in Hn. inversion Hn; subst.
      destruct H as [->|H]; [apply H2, in_or_app; auto|auto].
Qed.
Lemma inst_dec p : NoDup (pat_vars p) -> forall t, (exists s, inst s p t) \/ ~ exists s, inst s p t.
Proof.
  induction p as [c ps IH|m|] using pat_ind'; intros Hn t.
  - destruct (apps_form t) as (us & h & -> & Hh).
    assert (D : h = Const c \/ h <> Const c) by (destruct h; try (right; discriminate); destruct (Nat.eq_dec c0 c) as [->|]; [left; reflexivity|right; congruence]).
    destruct D as [->|D].
    + destruct (inst_list ps IH Hn us) as [(s & H)|H]; [left; exists s; constructor; exact H|right]. intros (s & Hi). apply H. exists s.
      inversion Hi as [| |? ? ts HF E]. subst. match goal with H : apps (Const _) _ = apps (Const _) _ |- _ => apply apps_const_inj in H; destruct H as [_ ->] end. exact HF.
    + right. intros (s & Hi). inversion Hi as [| |? ? ts HF E]. subst.
      match goal with H : apps (Const _) _ = apps _ _ |- _ => apply apps_inj in H; [destruct H as [H _]; congruence|exact I|exact Hh] end.
  - left. exists (fun _ => t). constructor.
  - left. exists Var. constructor.
Qed.

Section Nf.
  Variable sg : sig.
  Notation conv := (conv sg).
  Notation red := (red sg).
  Notation reds := (reds sg).
  Notation sn := (sn sg).
  Hypothesis Ho : complete sg.
  Hypothesis He : sg_eta sg = false.

  Lemma cr_reds t u : conv t u -> exists v, reds (strip t) v /\ reds (strip u) v.
  Proof.
    intros C. destruct (complete_church_rosser _ Ho He _ _ C) as (v & H1 & H2). exists v. split; apply redxs_reds; assumption.
  Qed.

  (** ** Terms without domains *)
  Notation dfree t := (strip t = t).
  Lemma inst_dfree s p : forall t m, inst s p t -> dfree t -> In m (pat_vars p) -> dfree (s m).
  Proof.
    induction p as [c ps IH|m0|] using pat_ind'; intros t m Hi Ht Hm; inversion Hi as [| |? ? ts HF]; subst; cbn in Hm.
    - apply in_flat_map in Hm as (p & Hp & Hm). rewrite strip_apps in Ht. cbn [strip] in Ht. apply apps_const_inj in Ht as [_ Ht].
      clear Hi. induction HF as [|q u qs us Hq _ IHF]; [destruct Hp|]. inversion IH; subst. cbn in Ht. injection Ht as E1 E2.
      destruct Hp as [->|Hp]; [eauto|auto].
    - destruct Hm as [->|[]]. exact Ht.
    - destruct Hm.
  Qed.
  Lemma red_dfree t u : red t u -> dfree t -> dfree u.
  Proof.
    induction 1 as [b u|c rs r s ts Hrs Hin Hu Hi|t t' u H IH|t u u' H IH|t t' H IH|a a' t H IH|a t t' H IH|a a' b H IH|a b b' H IH]; cbn [strip]; intros E;
      try discriminate; try (injection E as E1 E2; rewrite ?IH, ?E1, ?E2 by assumption; congruence).
    - injection E as E1 E2. rewrite strip_subst1, E1, E2. reflexivity.
    - assert (Hr : rule_of sg c r) by (exists rs; auto). destruct (proj1 Ho _ _ Hr) as [_ Hs].
      rewrite strip_sub, strip_strip. apply (sub_scoped _ (sr_vars r)); [apply scoped_strip; exact Hs|]. intros m Hm.
      apply Hu in Hm. eapply (inst_dfree s (PatSymb c (sr_args r))); [constructor; exact Hi|exact E|exact Hm].
    - injection E as E1. rewrite IH by assumption. reflexivity.
  Qed.
  Lemma reds_dfree t u : reds t u -> dfree t -> dfree u.
  Proof. induction 1; eauto using red_dfree. Qed.
  Lemma dfree_apps t us : dfree (apps t us) -> dfree t /\ Forall (fun u => dfree u) us.
  Proof.
    induction us as [|u us IH] using rev_ind; cbn; [auto|]. rewrite apps_snoc. cbn [strip]. intros [= E1 E2]. destruct (IH E1).
    split; [assumption|]. apply Forall_app. auto.
  Qed.
  Lemma dfree_apps_intro t us : dfree t -> Forall (fun u => dfree u) us -> dfree (apps t us).
  Proof.
    intros Ht H. rewrite strip_apps, Ht. f_equal. induction H; cbn; congruence.
  Qed.

  (** ** Normal forms *)
  Definition normal (t : tm) : Prop := forall u, ~ red t u.
  Lemma root_dec t : (exists u, root_step sg t u) \/ forall u, ~ root_step sg t u.
  Proof.
    destruct (apps_form t) as (us & h & -> & Hh).
    assert (D : (exists c, h = Const c) \/ forall c, h <> Const c) by (destruct h; try (right; discriminate); left; eauto).
    destruct D as [[c ->]|D].
    - destruct (sg_rules sg c) as [rs|] eqn:E.
      + assert (X : forall l, incl l rs -> (exists u, root_step sg (apps (Const c) us) u) \/ forall r s, In r l -> usable r -> ~ Forall2 (inst s) (sr_args r) us).
        { induction l as [|r l IH]; intros Hl; [right; intros ? ? []|]. destruct IH as [IH|IH]; [intros x Hx; apply Hl; right; exact Hx|left; exact IH|].
          destruct (usable_dec r) as [Hu|Hu]; [|right; intros r' s [<-|H] ?; [contradiction|eauto]].
          assert (Hr : rule_of sg c r) by (exists rs; split; [exact E|split; [apply Hl; left; reflexivity|exact Hu]]).
          destruct (proj1 Ho _ _ Hr) as [Hlin _]. destruct (inst_list (sr_args r)) with (ts := us) as [(s & Hs)|Hs].
          - apply Forall_forall. intros p _. apply inst_dec.
          - exact Hlin.
          - left. exists (sub s (strip (sr_rhs r))), c, r, s, us. auto.
          - right. intros r' s [<-|H] Hu'; [intros Hi; apply Hs; eauto|eauto]. }
        destruct (X rs (fun x H => H)) as [H|H]; [left; exact H|right]. intros u (c' & r & s & ts & (rs' & E' & Hin & Hu) & Hi & Et & _).
        apply apps_const_inj in Et as [<- <-]. rewrite E in E'. injection E' as <-. exact (H r s Hin Hu Hi).
      + right. intros u (c' & r & s & ts & (rs' & E' & _) & _ & Et & _). apply apps_const_inj in Et as [<- <-]. congruence.
    - right. intros u (c' & r & s & ts & _ & _ & Et & _). apply apps_inj in Et as [-> _]; [eapply D; reflexivity|exact Hh|exact I].
  Qed.
  Lemma root_red t u : root_step sg t u -> red t u.
  Proof. intros (c & r & s & ts & (rs & H1 & H2 & H3) & Hi & -> & ->). eapply red_rule; eassumption. Qed.
  Lemma red_dec t : dfree t -> (exists u, red t u) \/ normal t.
  Proof.
    induction t as [| |c|x|t IHt u IHu|a IHa t IHt|t IHt|a IHa b IHb]; cbn [strip]; intros E.
    - right. intros u H. apply red_inv in H. exact H.
    - right. intros u H. apply red_inv in H. exact H.
    - destruct (root_dec (Const c)) as [[u H]|H]; [left; exists u; apply root_red; exact H|right]. intros u Hu. apply red_inv in Hu. exact (H u Hu).
    - right. intros u H. apply red_inv in H. exact H.
    - injection E as E1 E2. destruct (IHt E1) as [[t' H]|H1]; [left; eexists; apply red_appl; exact H|].
      destruct (IHu E2) as [[u' H]|H2]; [left; eexists; apply red_appr; exact H|].
      destruct (root_dec (App t u)) as [[v H]|H]; [left; exists v; apply root_red; exact H|].
      assert (D : (exists b, t = ULam b) \/ forall b, t <> ULam b) by (destruct t; try (right; discriminate); left; eauto).
      destruct D as [[b ->]|D]; [left; eexists; apply red_beta|right]. intros v Hv. apply red_inv in Hv.
      destruct Hv as [(b & -> & _)|[(t' & Hv & _)|[(u' & Hv & _)|Hv]]]; [apply (D b); reflexivity|exact (H1 _ Hv)|exact (H2 _ Hv)|exact (H _ Hv)].
    - discriminate.
    - injection E as E. destruct (IHt E) as [[t' H]|H]; [left; eexists; apply red_ulam; exact H|right]. intros v Hv. apply red_inv in Hv. destruct Hv as (b' & Hb & _). exact (H _ Hb).
    - injection E as E1 E2. destruct (IHa E1) as [[t' H]|H1]; [left; eexists; apply red_pil; exact H|].
      destruct (IHb E2) as [[u' H]|H2]; [left; eexists; apply red_pir; exact H|right]. intros v Hv. apply red_inv in Hv.
      destruct Hv as [(t' & Hv & _)|(u' & Hv & _)]; [exact (H1 _ Hv)|exact (H2 _ Hv)].
  Qed.
  Lemma nf_exists t : sn t -> dfree t -> exists v, reds t v /\ normal v.
  Proof.
    induction 1 as [t _ IH]. intros E. destruct (red_dec t E) as [[u H]|H]; [|exists t; split; [constructor|exact H]].
    destruct (IH u H (red_dfree _ _ H E)) as (v & H1 & H2). exists v. split; [econstructor; eassumption|exact H2].
  Qed.
  Lemma normal_reds t u : normal t -> reds t u -> u = t.
  Proof. intros Hn H. destruct H as [|t u v H _]; [reflexivity|]. destruct (Hn _ H). Qed.

  (** ** Reducts of products, sorts and applications of symbols without rules *)
  Lemma reds_pi_inv A B t : reds (Pi A B) t -> exists A' B', t = Pi A' B' /\ reds A A' /\ reds B B'.
  Proof.
    intros H. remember (Pi A B) as u eqn:E. revert A B E. induction H as [u|u v w H Hr IH]; intros A B ->.
    - exists A, B. repeat split; constructor.
    - apply red_inv in H. destruct H as [(a' & H & ->)|(b' & H & ->)]; destruct (IH _ _ eq_refl) as (A' & B' & -> & H1 & H2); exists A', B'; repeat split; try assumption; econstructor; eassumption.
  Qed.
  Lemma reds_sort s t : s = Typ \/ s = Kind -> reds s t -> t = s.
  Proof. intros [-> | ->] H; inversion H as [|? ? ? Hr]; subst; try reflexivity; apply red_inv in Hr; contradiction. Qed.
  Lemma reds_inert t c u : head t = Const c -> no_rule sg c -> reds t u -> head u = Const c.
  Proof. intros Hh Hc H. eapply inert_heads; eassumption. Qed.
  Lemma reds_inert_apps c us v : no_rule sg c -> reds (apps (Const c) us) v -> exists us', v = apps (Const c) us' /\ Forall2 reds us us'.
  Proof.
    intros Hc H. remember (apps (Const c) us) as t eqn:E. revert us E. induction H as [t|t u v H _ IH]; intros us ->.
    - exists us. split; [reflexivity|]. clear. induction us; constructor; [constructor|assumption].
    - apply red_call in H. destruct H as [(us' & Hst & ->)|(r & _ & _ & _ & _ & Hr & _)]; [|destruct (Hc _ Hr)].
      destruct (IH _ eq_refl) as (us2 & -> & H2). exists us2. split; [reflexivity|]. clear - Hst H2. revert us2 H2.
      induction Hst as [t u l H|t l l' _ IH]; intros us2 H2; inversion H2; subst; constructor; try assumption; [econstructor; eassumption|auto].
  Qed.
  Lemma const_head c t : head t = Const c -> exists us, t = apps (Const c) us.
  Proof. induction t as [| |d|x|t IHt u _|a _ t _|t _|a _ b _]; cbn; intros H; try discriminate; [injection H as ->; exists []; reflexivity|]. destruct (IHt H) as [vs ->]. exists (vs ++ [u]). symmetry. apply apps_snoc. Qed.
End Nf.
