(** * Reducibility for types with computation

    The interpretation of a type is defined along with the types that have one: a type is convertible with a product,
    or a flat type (all normalising terms), or none of them (the terms whose parts can be taken only finitely often). *)

From Coq Require Import List Arith Lia Bool.
From Verif Require Import SpecTerm SpecConv SpecConvFacts SpecWhnf SpecRed SpecSN SpecType SpecDomain SpecRec SpecInd RedConfl EtaConfl RedStuck RedSN TypeFacts DomFacts MainTyped
  EtaTyped SnBase SnRec IndRed.
Import ListNotations.

Section Cand.
  Variable sg : sig.
  Notation conv := (conv sg).
  Notation red := (red sg).
  Notation reds := (reds sg).
  Notation sn := (sn sg).
  Hypothesis Ho : complete sg.
  Hypothesis He : sg_eta sg = false.
  Variable fl : nat -> bool.
  Variable rank : nat -> list (option nat).
  Hypothesis Hrank : forall c, rank c <> [] -> constructor sg fl rank c.

  Lemma Hpi : pi_injective sg.
  Proof. apply church_rosser_pi, complete_church_rosser; assumption. Qed.

  Definition good (t : tm) : Prop := sn t /\ strip t = t.
  Lemma good_red t u : good t -> red t u -> good u.
  Proof. intros [H1 H2] H. split; [eapply sn_step; eassumption|eapply red_dfree; eassumption]. Qed.
  Lemma good_reds t u : good t -> reds t u -> good u.
  Proof. intros H Hr. induction Hr; eauto using good_red. Qed.
  Lemma good_appl t u : good (App t u) -> good t.
  Proof.
    intros [H E]. cbn in E. injection E as E1 E2. split; [|exact E1]. eapply sn_smaller; [exact H|]. apply Relation_Operators.t_step. right. eauto.
  Qed.
  Lemma good_appr t u : good (App t u) -> good u.
  Proof.
    intros [H E]. cbn in E. injection E as E1 E2. split; [|exact E2]. eapply sn_smaller; [exact H|]. apply Relation_Operators.t_step. right. eauto.
  Qed.
  Lemma good_apps t us : good (apps t us) -> good t /\ Forall good us.
  Proof.
    induction us as [|u us IH] using rev_ind; intros H; [auto|]. rewrite apps_snoc in H. destruct (IH (good_appl _ _ H)).
    split; [assumption|]. apply Forall_app. split; [assumption|]. constructor; [eapply good_appr; exact H|constructor].
  Qed.
  Lemma good_var n : good (Var n).
  Proof. split; [|reflexivity]. constructor. intros u Hu. apply red_inv in Hu. contradiction. Qed.

  (** ** Reducibility candidates *)
  Definition neut (t : tm) : Prop :=
    match t with Var _ | App _ _ | Const _ => True | _ => False end /\ neutral sg t /\ forall c, head t = Const c -> exists r, rule_of sg c r.
  Lemma neut_app t u : neut t -> neut (App t u).
  Proof. intros (_ & H1 & H2). split; [exact I|]. split; [apply neutral_app; exact H1|exact H2]. Qed.
  Lemma neut_var n : neut (Var n).
  Proof. split; [exact I|]. split; [split; [discriminate|]|]; cbn; discriminate. Qed.
  Lemma neut_beta b u : neut (App (ULam b) u).
  Proof. split; [exact I|]. split; [split; [discriminate|]|]; cbn; discriminate. Qed.

  Record cand (R : tm -> Prop) : Prop := {
    cand_good : forall t, R t -> good t;
    cand_red : forall t u, R t -> red t u -> R u;
    cand_exp : forall t, neut t -> strip t = t -> (forall u, red t u -> R u) -> R t }.
  Lemma cand_reds R t u : cand R -> R t -> reds t u -> R u.
  Proof. intros HR Ht H. induction H as [|t u v Hr _ IH]; [exact Ht|]. apply IH. eapply (cand_red R HR); eassumption. Qed.
  Lemma cand_var R n : cand R -> R (Var n).
  Proof. intros H. apply (cand_exp R H); [apply neut_var|reflexivity|]. intros u Hu. apply red_inv in Hu. contradiction. Qed.
  Lemma cand_ext R R' : cand R -> (forall t, R' t <-> R t) -> cand R'.
  Proof.
    intros [H1 H2 H3] E. split.
    - intros t Ht. apply H1, E, Ht.
    - intros t u Ht Hr. apply E. eapply H2; [apply E; exact Ht|exact Hr].
    - intros t Hn Hd Ht. apply E. apply H3; try assumption. intros u Hu. apply E. auto.
  Qed.
  Lemma cand_of_good : cand good.
  Proof.
    split; [auto|intros; eapply good_red; eassumption|]. intros t _ Hd H. split; [|exact Hd]. constructor. intros u Hu. apply (H u Hu).
  Qed.

  (** *** Normalising terms whose parts, applied to normalising terms, are such terms again *)
  Inductive W (t : tm) : Prop :=
  | W_intro : good t ->
    (forall c us i u m vs, reds t (apps (Const c) us) -> nth_error (rank c) i = Some (Some m) -> nth_error us i = Some u ->
      length vs = m -> Forall good vs -> W (apps u vs)) -> W t.
  Lemma rank_inert c i x : nth_error (rank c) i = Some x -> constructor sg fl rank c.
  Proof. intros H. apply Hrank. intros E. rewrite E in H. destruct i; discriminate. Qed.
  Lemma cand_W : cand W.
  Proof.
    split.
    - intros t [H _]. exact H.
    - intros t u [H1 H2] Hr. constructor; [eapply good_red; eassumption|]. intros c us i v m vs Hu. apply (H2 c us i v m vs). econstructor; eassumption.
    - intros t Hn Hd H. constructor.
      + split; [|exact Hd]. constructor. intros u Hu. destruct (H u Hu) as [[Hs _] _]. exact Hs.
      + intros c us i v m vs Hu Hi. inversion Hu as [|? t' ? Hr Hrs]; subst.
        * exfalso. destruct Hn as (_ & _ & Hn). destruct (Hn c) as (r & Hr); [rewrite head_apps; reflexivity|]. destruct (rank_inert _ _ _ Hi) as [Hc _]. exact (Hc r Hr).
        * destruct (H _ Hr) as [_ H2]. exact (H2 c us i v m vs Hrs Hi).
  Qed.

  (** ** The shapes of types, up to conversion *)
  Definition flatty (A : tm) : Prop := exists A', conv A A' /\ base_of sg fl true A'.
  Definition atomic (A : tm) : Prop := ~ flatty A /\ (forall B C, ~ conv A (Pi B C)) /\ ~ conv A Typ /\ ~ conv A Kind.
  Lemma flatty_conv A A' : flatty A -> conv A A' -> flatty A'.
  Proof. intros (B & H1 & H2) C. exists B. split; [eapply conv_trans; [apply conv_sym; exact C|exact H1]|exact H2]. Qed.
  Lemma atomic_conv A A' : atomic A -> conv A A' -> atomic A'.
  Proof.
    intros (H1 & H2 & H3 & H4) C. apply conv_sym in C as C'. split; [intros H; apply H1; eapply flatty_conv; eassumption|].
    split; [intros X Y H; apply (H2 X Y); eapply conv_trans; eassumption|]. split; intros H; [apply H3|apply H4]; eapply conv_trans; eassumption.
  Qed.
  Lemma base_strip b A : base_of sg fl b A -> base_of sg fl b (strip A).
  Proof. intros (c & H1 & H2). exists c. split; [apply head_strip; exact H1|exact H2]. Qed.
  Lemma base_sub b A s : base_of sg fl b A -> base_of sg fl b (sub s A).
  Proof. intros (c & H1 & H2). exists c. split; [apply head_sub; exact H1|exact H2]. Qed.
  Lemma base_reds b A A' : base_of sg fl b A -> reds A A' -> base_of sg fl b A'.
  Proof. intros (c & H1 & H2 & H3) Hr. exists c. split; [eapply reds_inert; eassumption|auto]. Qed.
  Lemma base_fun b b' A : base_of sg fl b A -> base_of sg fl b' A -> b = b'.
  Proof. intros (c & H1 & _ & <-) (c' & H1' & _ & <-). congruence. Qed.
  Lemma base_not_pi b A B C : base_of sg fl b A -> ~ conv A (Pi B C).
  Proof.
    intros Hb H. destruct (cr_reds _ Ho He _ _ H) as (v & H1 & H2). apply reds_pi_inv in H2 as (B' & C' & -> & _).
    destruct (base_reds _ _ _ (base_strip _ _ Hb) H1) as (c & Hc & _). discriminate.
  Qed.
  Lemma base_not_sort b A s : base_of sg fl b A -> s = Typ \/ s = Kind -> ~ conv A s.
  Proof.
    intros Hb Hs H. destruct (cr_reds _ Ho He _ _ H) as (v & H1 & H2). assert (E : strip s = s) by (destruct Hs; subst; reflexivity). rewrite E in H2.
    apply (reds_sort _ _ _ Hs) in H2. subst v. destruct (base_reds _ _ _ (base_strip _ _ Hb) H1) as (c & Hc & _). destruct Hs; subst; discriminate.
  Qed.
  Lemma base_atomic A : base_of sg fl false A -> atomic A.
  Proof.
    intros H. split; [|split; [intros B C; eapply base_not_pi; exact H|split; apply (base_not_sort _ _ _ H); auto]].
    intros (A' & C & H'). destruct (cr_reds _ Ho He _ _ C) as (v & H1 & H2).
    pose proof (base_fun _ _ _ (base_reds _ _ _ (base_strip _ _ H) H1) (base_reds _ _ _ (base_strip _ _ H') H2)). discriminate.
  Qed.
  Lemma flatty_not_pi A B C : flatty A -> ~ conv A (Pi B C).
  Proof. intros (A' & H1 & H2) H. eapply base_not_pi; [exact H2|]. eapply conv_trans; [apply conv_sym; exact H1|exact H]. Qed.
  Lemma flatty_not_sort A s : flatty A -> s = Typ \/ s = Kind -> ~ conv A s.
  Proof. intros (A' & H1 & H2) Hs H. eapply base_not_sort; [exact H2|exact Hs|]. eapply conv_trans; [apply conv_sym; exact H1|exact H]. Qed.
  Lemma pi_not_sort A B C s : conv A (Pi B C) -> s = Typ \/ s = Kind -> ~ conv A s.
  Proof.
    intros H1 Hs H2. apply (conv_pi_sort sg B C s); [apply complete_church_rosser; assumption|exact Hs|].
    eapply conv_trans; [apply conv_sym; exact H1|exact H2].
  Qed.
  Lemma typ_not_kind A : conv A Typ -> ~ conv A Kind.
  Proof.
    intros H1 H2. apply (sorts_apart sg); [apply complete_church_rosser; assumption|]. eapply conv_trans; [apply conv_sym; exact H2|exact H1].
  Qed.
  (** terms whose reducts are neither products nor sorts nor of flat type *)
  Lemma stuck_atomic t : strip t = t ->
    (forall v, reds t v -> match v with Pi _ _ | Typ | Kind => False | _ => True end /\ ~ base_of sg fl true v) -> atomic t.
  Proof.
    intros E H. split; [|split; [|split]].
    - intros (A & C & Hb). destruct (cr_reds _ Ho He _ _ C) as (v & H1 & H2). rewrite E in H1. apply (proj2 (H _ H1)). eapply base_reds; [apply base_strip; exact Hb|exact H2].
    - intros B C C0. destruct (cr_reds _ Ho He _ _ C0) as (v & H1 & H2). rewrite E in H1. apply reds_pi_inv in H2 as (B' & C' & -> & _). exact (proj1 (H _ H1)).
    - intros C. destruct (cr_reds _ Ho He _ _ C) as (v & H1 & H2). rewrite E in H1. apply reds_sort in H2; [|auto]. subst v. exact (proj1 (H _ H1)).
    - intros C. destruct (cr_reds _ Ho He _ _ C) as (v & H1 & H2). rewrite E in H1. apply reds_sort in H2; [|auto]. subst v. exact (proj1 (H _ H1)).
  Qed.
  Lemma neut_atomic t : neut t -> strip t = t -> normal sg t -> atomic t.
  Proof.
    intros (H1 & _ & H2) E Hn. apply stuck_atomic; [exact E|]. intros v Hv. apply (normal_reds _ _ _ Hn) in Hv. subst v. split; [destruct t; auto|].
    intros (c & Hc & Hr & _). destruct (H2 _ Hc) as (r & Hr'). exact (Hr r Hr').
  Qed.
  Lemma inert_atomic t c : strip t = t -> head t = Const c -> no_rule sg c -> fl c = false -> atomic t.
  Proof. intros _ H1 H2 H3. apply base_atomic. exists c. auto. Qed.

  (** ** The interpretation of types *)
  Inductive ity : tm -> (tm -> Prop) -> Prop :=
  | ity_flat A R : flatty A -> (forall t, R t <-> good t) -> ity A R
  | ity_atom A R : atomic A -> (forall t, R t <-> W t) -> ity A R
  | ity_pi A B C RB RC R : conv A (Pi B C) -> ity B RB -> (forall u, RB u -> ity (subst1 u C) (RC u)) ->
    (forall t, R t <-> good t /\ forall u, RB u -> RC u (App t u)) -> ity A R.
  (** and kinds *)
  Inductive ikd : tm -> (tm -> Prop) -> Prop :=
  | ikd_typ A R : conv A Typ -> (forall t, R t <-> good t /\ exists R', ity t R') -> ikd A R
  | ikd_pi A B C RB RC R : conv A (Pi B C) -> ity B RB -> (forall u, RB u -> ikd (subst1 u C) (RC u)) ->
    (forall t, R t <-> good t /\ forall u, RB u -> RC u (App t u)) -> ikd A R.

  Lemma ity_conv A R : ity A R -> forall A', conv A A' -> ity A' R.
  Proof.
    intros H A' C. destruct H as [A R H1 H2|A R H1 H2|A B C0 RB RC R H1 H2 H3 H4].
    - apply ity_flat; [eapply flatty_conv; eassumption|exact H2].
    - apply ity_atom; [eapply atomic_conv; eassumption|exact H2].
    - eapply ity_pi; [eapply conv_trans; [apply conv_sym; exact C|exact H1]|exact H2|exact H3|exact H4].
  Qed.
  Lemma ity_ext A R R' : ity A R -> (forall t, R' t <-> R t) -> ity A R'.
  Proof.
    intros H E. destruct H as [A R H1 H2|A R H1 H2|A B C0 RB RC R H1 H2 H3 H4].
    - apply ity_flat; [exact H1|]. intros t. rewrite E. apply H2.
    - apply ity_atom; [exact H1|]. intros t. rewrite E. apply H2.
    - eapply ity_pi; [exact H1|exact H2|exact H3|]. intros t. rewrite E. apply H4.
  Qed.
  Lemma ikd_conv A R : ikd A R -> forall A', conv A A' -> ikd A' R.
  Proof.
    intros H A' C. destruct H as [A R H1 H2|A B C0 RB RC R H1 H2 H3 H4].
    - apply ikd_typ; [eapply conv_trans; [apply conv_sym; exact C|exact H1]|exact H2].
    - eapply ikd_pi; [eapply conv_trans; [apply conv_sym; exact C|exact H1]|exact H2|exact H3|exact H4].
  Qed.
  Lemma ikd_ext A R R' : ikd A R -> (forall t, R' t <-> R t) -> ikd A R'.
  Proof.
    intros H E. destruct H as [A R H1 H2|A B C0 RB RC R H1 H2 H3 H4].
    - apply ikd_typ; [exact H1|]. intros t. rewrite E. apply H2.
    - eapply ikd_pi; [exact H1|exact H2|exact H3|]. intros t. rewrite E. apply H4.
  Qed.

  Lemma cand_pi RB (RC : tm -> tm -> Prop) R : cand RB -> (forall u, RB u -> cand (RC u)) ->
    (forall t, R t <-> good t /\ forall u, RB u -> RC u (App t u)) -> cand R.
  Proof.
    intros HB HC E. split.
    - intros t H. apply E in H. apply H.
    - intros t u H Hr. apply E in H as [H1 H2]. apply E. split; [eapply good_red; eassumption|]. intros v Hv. eapply cand_red; [apply HC; exact Hv|apply H2; exact Hv|apply red_appl; exact Hr].
    - intros t Hn Hd H. apply E. split; [split; [constructor; intros u Hu; apply H, E in Hu; apply Hu|exact Hd]|].
      intros v Hv. destruct (cand_good _ HB _ Hv) as [Hsn Hdv].
      assert (X : forall w, sn w -> reds v w -> RC v (App t w)); [|apply X; [exact Hsn|constructor]].
      induction 1 as [w Hw IH]. intros Hvw. apply (cand_exp _ (HC v Hv)).
      + apply neut_app. exact Hn.
      + cbn. rewrite Hd, (reds_dfree _ Ho _ _ Hvw Hdv). reflexivity.
      + intros x Hx. destruct (neutral_red _ _ _ _ (proj1 (proj2 Hn)) Hx) as [(t' & Ht' & ->)|(w' & Hw' & ->)].
        * apply H, E in Ht' as [_ Ht']. specialize (Ht' v Hv). eapply cand_reds; [apply HC; exact Hv|exact Ht'|]. apply (reds_map _ (App t')); [|exact Hvw]. intros; apply red_appr; assumption.
        * apply IH; [exact Hw'|]. eapply reds_trans; [exact Hvw|apply reds_one; exact Hw'].
  Qed.
  Lemma ity_cand A R : ity A R -> cand R.
  Proof.
    induction 1 as [A R H1 H2|A R H1 H2|A B C RB RC R H1 _ IHB _ IHC E].
    - eapply cand_ext; [apply cand_of_good|exact H2].
    - eapply cand_ext; [apply cand_W|exact H2].
    - eapply cand_pi; eassumption.
  Qed.
  Lemma ikd_cand A R : ikd A R -> cand R.
  Proof.
    induction 1 as [A R H1 E|A B C RB RC R H1 HB _ IHC E].
    - split.
      + intros t H. apply E in H. apply H.
      + intros t u H Hr. apply E in H as [H (R' & HR')]. apply E. split; [eapply good_red; eassumption|]. exists R'. eapply ity_conv; [exact HR'|apply red_conv; exact Hr].
      + intros t Hn Hd H. apply E. split; [split; [constructor; intros u Hu; apply H, E in Hu; apply Hu|exact Hd]|].
        destruct (red_dec _ Ho t Hd) as [[u Hu]|Hnf].
        * pose proof (H _ Hu) as Hu'. apply E in Hu' as [_ (R' & HR')]. exists R'. eapply ity_conv; [exact HR'|]. apply conv_sym, red_conv. exact Hu.
        * exists W. apply ity_atom; [apply neut_atomic; assumption|reflexivity].
    - eapply cand_pi; [eapply ity_cand; exact HB|exact IHC|exact E].
  Qed.

  Lemma ity_fun A R : ity A R -> forall A' R', conv A A' -> ity A' R' -> forall t, R t <-> R' t.
  Proof.
    induction 1 as [A R H1 E|A R H1 E|A B C RB RC R H1 HB IHB HC IHC E]; intros A' R' CA H'; destruct H' as [A' R' K1 E'|A' R' K1 E'|A' B' C' RB' RC' R' K1 KB KC E']; intros t; rewrite E, E'.
    - reflexivity.
    - destruct K1 as [K1 _]. destruct K1. eapply flatty_conv; eassumption.
    - destruct (flatty_not_pi A B' C' H1). eapply conv_trans; eassumption.
    - destruct H1 as [H1 _]. destruct H1. eapply flatty_conv; [exact K1|apply conv_sym; exact CA].
    - reflexivity.
    - destruct H1 as (_ & H1 & _). destruct (H1 B' C'). eapply conv_trans; eassumption.
    - destruct (flatty_not_pi A' B C K1). eapply conv_trans; [apply conv_sym; exact CA|exact H1].
    - destruct K1 as (_ & K1 & _). destruct (K1 B C). eapply conv_trans; [apply conv_sym; exact CA|exact H1].
    - assert (P : conv (Pi B C) (Pi B' C')) by (eapply conv_trans; [apply conv_sym; exact H1|eapply conv_trans; eassumption]). destruct (Hpi _ _ _ _ P) as [PB PC].
      pose proof (IHB _ _ PB KB) as EB. split; intros [G H]; (split; [exact G|]); intros u Hu.
      + apply EB in Hu as Hu'. apply (IHC u Hu' (subst1 u C') (RC' u)); [apply conv_subst1; [apply conv_refl|exact PC]|auto|auto].
      + apply EB in Hu as Hu'. apply (IHC u Hu (subst1 u C') (RC' u)); [apply conv_subst1; [apply conv_refl|exact PC]|auto|auto].
  Qed.
  Lemma ikd_fun A R : ikd A R -> forall A' R', conv A A' -> ikd A' R' -> forall t, R t <-> R' t.
  Proof.
    induction 1 as [A R H1 E|A B C RB RC R H1 HB HC IHC E]; intros A' R' CA H'; destruct H' as [A' R' K1 E'|A' B' C' RB' RC' R' K1 KB KC E']; intros t; rewrite E, E'.
    - reflexivity.
    - destruct (pi_not_sort A' B' C' Typ K1); [auto|]. eapply conv_trans; [apply conv_sym; exact CA|exact H1].
    - destruct (pi_not_sort A B C Typ H1); [auto|]. eapply conv_trans; eassumption.
    - assert (P : conv (Pi B C) (Pi B' C')) by (eapply conv_trans; [apply conv_sym; exact H1|eapply conv_trans; eassumption]). destruct (Hpi _ _ _ _ P) as [PB PC].
      pose proof (ity_fun _ _ HB _ _ PB KB) as EB. split; intros [G H]; (split; [exact G|]); intros u Hu.
      + apply EB in Hu as Hu'. apply (IHC u Hu' (subst1 u C') (RC' u)); [apply conv_subst1; [apply conv_refl|exact PC]|auto|auto].
      + apply EB in Hu as Hu'. apply (IHC u Hu (subst1 u C') (RC' u)); [apply conv_subst1; [apply conv_refl|exact PC]|auto|auto].
  Qed.
  Lemma ity_not_ikd A R : ity A R -> forall A' R', conv A A' -> ~ ikd A' R'.
  Proof.
    induction 1 as [A R H1 E|A R H1 E|A B C RB RC R H1 HB IHB HC IHC E]; intros A' R' CA H'; destruct H' as [A' R' K1 E'|A' B' C' RB' RC' R' K1 KB KC E'].
    - destruct (flatty_not_sort A Typ H1); [auto|]. eapply conv_trans; eassumption.
    - destruct (flatty_not_pi A B' C' H1). eapply conv_trans; eassumption.
    - destruct H1 as (_ & _ & H1 & _). apply H1. eapply conv_trans; eassumption.
    - destruct H1 as (_ & H1 & _). destruct (H1 B' C'). eapply conv_trans; eassumption.
    - destruct (pi_not_sort A B C Typ H1); [auto|]. eapply conv_trans; eassumption.
    - assert (P : conv (Pi B C) (Pi B' C')) by (eapply conv_trans; [apply conv_sym; exact H1|eapply conv_trans; eassumption]). destruct (Hpi _ _ _ _ P) as [PB PC].
      pose proof (cand_var RB 0 (ity_cand _ _ HB)) as Hv. apply (IHC _ Hv (subst1 (Var 0) C') (RC' (Var 0))); [apply conv_subst1; [apply conv_refl|exact PC]|].
      apply KC. apply (ity_fun _ _ HB _ _ PB KB). exact Hv.
  Qed.

  (** types and kinds *)
  Definition ity_kd (A : tm) (R : tm -> Prop) : Prop := ity A R \/ ikd A R.
  (** or the sort of kinds *)
  Definition isem (A : tm) (R : tm -> Prop) : Prop :=
    ity_kd A R \/ conv A Kind /\ forall t, R t <-> good t /\ exists R', ikd t R'.
  Lemma kd_conv A R A' : ity_kd A R -> conv A A' -> ity_kd A' R.
  Proof. intros [H|H] C; [left; eapply ity_conv; eassumption|right; eapply ikd_conv; eassumption]. Qed.
  Lemma kd_cand A R : ity_kd A R -> cand R.
  Proof. intros [H|H]; [eapply ity_cand; exact H|eapply ikd_cand; exact H]. Qed.
  Lemma kd_fun A R A' R' : ity_kd A R -> conv A A' -> ity_kd A' R' -> forall t, R t <-> R' t.
  Proof.
    intros [H|H] C [H'|H'].
    - eapply ity_fun; eassumption.
    - destruct (ity_not_ikd _ _ H _ _ C H').
    - destruct (ity_not_ikd _ _ H' A R (conv_sym _ _ _ C) H).
    - eapply ikd_fun; eassumption.
  Qed.
  Lemma kd_not_kind A R : ity_kd A R -> ~ conv A Kind.
  Proof.
    intros [[A0 R0 H _|A0 R0 H _|A0 B C RB RC R0 H _ _ _]|[A0 R0 H _|A0 B C RB RC R0 H _ _ _]].
    - apply flatty_not_sort; auto.
    - apply H.
    - eapply pi_not_sort; [exact H|auto].
    - apply typ_not_kind. exact H.
    - eapply pi_not_sort; [exact H|auto].
  Qed.
  Lemma isem_conv A R A' : isem A R -> conv A A' -> isem A' R.
  Proof. intros [H|[H1 H2]] C; [left; eapply kd_conv; eassumption|right]. split; [eapply conv_trans; [apply conv_sym; exact C|exact H1]|exact H2]. Qed.
  Lemma isem_fun A R A' R' : isem A R -> conv A A' -> isem A' R' -> forall t, R t <-> R' t.
  Proof.
    intros [H|[H1 H2]] C [H'|[H1' H2']] t.
    - eapply kd_fun; eassumption.
    - destruct (kd_not_kind _ _ H). eapply conv_trans; eassumption.
    - destruct (kd_not_kind _ _ H'). eapply conv_trans; [apply conv_sym; exact C|exact H1].
    - rewrite H2, H2'. reflexivity.
  Qed.
  Lemma isem_good A R t : isem A R -> R t -> good t.
  Proof. intros [H|[_ E]] Ht; [eapply cand_good; [eapply kd_cand; exact H|exact Ht]|apply E in Ht; apply Ht]. Qed.
  Lemma kd_pi A R B C : ity_kd A R -> conv A (Pi B C) ->
    exists RB RC, ity B RB /\ (forall u, RB u -> ity_kd (subst1 u C) (RC u)) /\ forall t, R t <-> good t /\ forall u, RB u -> RC u (App t u).
  Proof.
    intros [H|H] P.
    - destruct H as [A R H _|A R H _|A B' C' RB RC R H HB HC E]; [destruct (flatty_not_pi _ _ _ H P)|destruct H as (_ & H & _); destruct (H _ _ P)|].
      assert (Q : conv (Pi B' C') (Pi B C)) by (eapply conv_trans; [apply conv_sym; exact H|exact P]). destruct (Hpi _ _ _ _ Q) as [QB QC].
      exists RB, RC. split; [eapply ity_conv; eassumption|]. split; [|exact E]. intros u Hu. left. eapply ity_conv; [apply HC; exact Hu|]. apply conv_subst1; [apply conv_refl|exact QC].
    - destruct H as [A R H _|A B' C' RB RC R H HB HC E]; [destruct (pi_not_sort _ _ _ Typ P); auto|].
      assert (Q : conv (Pi B' C') (Pi B C)) by (eapply conv_trans; [apply conv_sym; exact H|exact P]). destruct (Hpi _ _ _ _ Q) as [QB QC].
      exists RB, RC. split; [eapply ity_conv; eassumption|]. split; [|exact E]. intros u Hu. right. eapply ikd_conv; [apply HC; exact Hu|]. apply conv_subst1; [apply conv_refl|exact QC].
  Qed.
  Lemma isem_pi A R B C : isem A R -> conv A (Pi B C) ->
    exists RB RC, ity B RB /\ (forall u, RB u -> ity_kd (subst1 u C) (RC u)) /\ forall t, R t <-> good t /\ forall u, RB u -> RC u (App t u).
  Proof. intros [H|[H _]] P; [eapply kd_pi; eassumption|]. destruct (pi_not_sort _ _ _ Kind P); auto. Qed.
  Definition typ_sem (t : tm) : Prop := good t /\ exists R', ity t R'.
  Definition kind_sem (t : tm) : Prop := good t /\ exists R', ikd t R'.
  Lemma isem_Typ : isem Typ typ_sem.
  Proof. left. right. apply ikd_typ; [apply conv_refl|reflexivity]. Qed.
  Lemma isem_Kind : isem Kind kind_sem.
  Proof. right. split; [apply conv_refl|reflexivity]. Qed.
  Lemma isem_typ R t : isem Typ R -> R t -> good t /\ exists R', ity t R'.
  Proof. intros H Ht. apply (isem_fun _ _ _ _ isem_Typ (conv_refl _ _) H) in Ht. exact Ht. Qed.
  Lemma isem_sort s R t : s = Typ \/ s = Kind -> isem s R -> R t -> good t /\ exists R', ity_kd t R'.
  Proof.
    intros [-> | ->] H Ht.
    - destruct (isem_typ R t H Ht) as (G & R' & HR'). split; [exact G|]. exists R'. left. exact HR'.
    - apply (isem_fun _ _ _ _ isem_Kind (conv_refl _ _) H) in Ht as (G & R' & HR'). split; [exact G|]. exists R'. right. exact HR'.
  Qed.

  (** products of types *)
  Definition pi_sem (RB : tm -> Prop) (C : tm) (t : tm) : Prop := good t /\ forall u, RB u -> exists R, ity_kd (subst1 u C) R /\ R (App t u).
  Lemma ity_pi_intro B C RB : ity B RB -> (forall u, RB u -> exists R, ity (subst1 u C) R) -> ity (Pi B C) (pi_sem RB C).
  Proof.
    intros HB HC. apply (ity_pi _ B C RB (fun u t => exists R, ity_kd (subst1 u C) R /\ R t)); [apply conv_refl|exact HB| |reflexivity].
    intros u Hu. destruct (HC u Hu) as (R & HR). eapply ity_ext; [exact HR|]. intros t. split; [|intros Ht; exists R; split; [left; exact HR|exact Ht]].
    intros (R' & HR' & Ht). apply (kd_fun _ _ _ _ HR' (conv_refl _ _) (or_introl HR)). exact Ht.
  Qed.
  Lemma ikd_pi_intro B C RB : ity B RB -> (forall u, RB u -> exists R, ikd (subst1 u C) R) -> ikd (Pi B C) (pi_sem RB C).
  Proof.
    intros HB HC. apply (ikd_pi _ B C RB (fun u t => exists R, ity_kd (subst1 u C) R /\ R t)); [apply conv_refl|exact HB| |reflexivity].
    intros u Hu. destruct (HC u Hu) as (R & HR). eapply ikd_ext; [exact HR|]. intros t. split; [|intros Ht; exists R; split; [right; exact HR|exact Ht]].
    intros (R' & HR' & Ht). apply (kd_fun _ _ _ _ HR' (conv_refl _ _) (or_intror HR)). exact Ht.
  Qed.

  (** ** Abstractions *)
  Lemma good_ulam s t : good (subst1 (Var 0) (sub (up s) t)) -> good (ULam (sub (up s) t)).
  Proof.
    intros [H1 H2]. split.
    - apply sn_ulam. eapply sn_unsub. exact H1.
    - cbn. f_equal. rewrite strip_subst1 in H2. cbn in H2. revert H2. generalize (sub (up s) t). clear. intros t H.
      assert (X : forall r, (forall n, exists m, r n = Var m) -> forall t, sub r (strip t) = sub r t -> strip t = t).
      { clear. intros r Hr t. revert r Hr. induction t as [| |c|x|t IHt u IHu|a IHa t IHt|t IHt|a IHa b IHb]; cbn; intros r Hr H; try reflexivity; try discriminate.
        - injection H as H1 H2. f_equal; eauto.
        - injection H as H1. f_equal. eapply (IHt (up r)); [|exact H1]. intros [|n]; [exists 0; reflexivity|]. cbn. destruct (Hr n) as [m ->]. exists (S m). reflexivity.
        - injection H as H1 H2. f_equal; [eauto|]. eapply (IHb (up r)); [|exact H2]. intros [|n]; [exists 0; reflexivity|]. cbn. destruct (Hr n) as [m ->]. exists (S m). reflexivity. }
      eapply (X (scons (Var 0) Var)); [|exact H]. intros [|n]; eexists; reflexivity.
  Qed.
  Lemma beta_sem R b u : cand R -> good (ULam b) -> good u -> R (subst1 u b) -> R (App (ULam b) u).
  Proof.
    intros HR Hb Hu H.
    assert (X : forall b0, sn b0 -> strip b0 = b0 -> reds b b0 -> forall u0, sn u0 -> strip u0 = u0 -> reds u u0 -> R (App (ULam b0) u0)).
    2:{ destruct Hb as [Hb1 Hb2]. cbn in Hb2. injection Hb2 as Hb2. apply X; [|exact Hb2|constructor|apply Hu|apply Hu|constructor].
        remember (ULam b) as t eqn:E. clear - Hb1 E. revert b E. induction Hb1 as [t _ IH]. intros b ->. constructor. intros b' Hb'. eapply IH; [apply red_ulam; exact Hb'|reflexivity]. }
    induction 1 as [b0 Hb0 IHb]. intros Db Rb. induction 1 as [u0 Hu0 IHu]. intros Du Ru.
    apply (cand_exp _ HR); [apply neut_beta|cbn; congruence|]. intros v Hv. apply red_inv in Hv.
    destruct Hv as [(b1 & [= <-] & ->)|[(t' & Ht' & ->)|[(u' & Hu' & ->)|Hv]]].
    - eapply cand_reds; [exact HR|exact H|]. clear - Rb Ru.
      assert (X1 : forall a a' x, reds a a' -> reds (subst1 x a) (subst1 x a')) by (intros a a' x; apply (reds_map sg (subst1 x)); intros; apply red_sub; assumption).
      eapply reds_trans; [apply X1; exact Rb|]. generalize b0. intros t. unfold subst1.
      assert (X2 : forall t s s', (forall n, reds (s n) (s' n)) -> reds (sub s t) (sub s' t)).
      { clear. induction t as [| |c|x|t IHt u IHu|a IHa t IHt|t IHt|a IHa b IHb]; cbn; intros s s' Hs; try constructor; auto.
        - apply reds_app; auto.
        - apply reds_lam; [auto|]. apply IHt. intros [|n]; [constructor|]. cbn. rewrite !ren_as_sub. apply (reds_map sg (sub _)); [|apply Hs]. intros; apply red_sub; assumption.
        - apply reds_ulam. apply IHt. intros [|n]; [constructor|]. cbn. rewrite !ren_as_sub. apply (reds_map sg (sub _)); [|apply Hs]. intros; apply red_sub; assumption.
        - apply reds_pi; [auto|]. apply IHb. intros [|n]; [constructor|]. cbn. rewrite !ren_as_sub. apply (reds_map sg (sub _)); [|apply Hs]. intros; apply red_sub; assumption. }
      apply X2. intros [|n]; [exact Ru|constructor].
    - apply red_inv in Ht'. destruct Ht' as (b' & Hb' & ->). apply IHb; [exact Hb'|eapply red_dfree; eassumption|eapply reds_trans; [exact Rb|apply reds_one; exact Hb']|constructor; exact Hu0|exact Du|exact Ru].
    - apply IHu; [exact Hu'|eapply red_dfree; eassumption|eapply reds_trans; [exact Ru|apply reds_one; exact Hu']].
    - destruct Hv as (c & r & s & ts & _ & _ & E & _). destruct (apps_const_cases c ts) as [[_ E']|(t1 & t2 & us & E')]; rewrite E' in E; [discriminate|]. injection E as E _.
      apply (f_equal head) in E'. rewrite head_apps in E'. cbn in E'. rewrite <- E in E'. discriminate.
  Qed.
  Lemma good_pi s A B : good (sub s A) -> good (subst1 (Var 0) (sub (up s) B)) -> good (Pi (sub s A) (sub (up s) B)).
  Proof.
    intros [H1 H2] H3. pose proof (good_ulam _ _ H3) as [H4 H5]. cbn in H5. injection H5 as H5. split; [|cbn; congruence].
    apply sn_pi; [exact H1|]. eapply sn_unsub. apply H3.
  Qed.

  (** ** Well-typed terms *)
  Definition sem_ctx (G : list tm) (s : nat -> tm) : Prop := forall n A, nth_error G n = Some A -> exists R, ity (sub s (lift (S n) A)) R /\ R (s n).
  Lemma sem_ctx_cons G s A R u : sem_ctx G s -> ity (sub s A) R -> R u -> sem_ctx (A :: G) (scons u s).
  Proof.
    intros H HA Hu [|n] B; cbn [nth_error].
    - intros [= <-]. exists R. split; [|exact Hu]. unfold lift. rewrite sub_ren. erewrite sub_ext; [exact HA|]. intros m. rewrite Nat.add_1_r. reflexivity.
    - intros HB. destruct (H n B HB) as (R' & H1 & H2). exists R'. split; [|exact H2]. unfold lift in *. rewrite sub_ren in *. erewrite sub_ext; [exact H1|].
      intros m. replace (m + S (S n)) with (S (m + S n)) by lia. reflexivity.
  Qed.

  Section Typed.
    Variable sg0 : sig.
    Hypothesis Hm : sig_mono sg0 sg.
    Hypothesis Hconst : forall c A, sg_type sg0 c = Some A -> (forall s, sub s (strip A) = strip A) /\ exists R, isem (strip A) R /\ R (Const c).

    Lemma wt_sem G t A : well_typed sg0 G t A -> forall s, sem_ctx G s -> exists R, isem (sub s A) R /\ R (sub s t).
    Proof.
      induction 1 as [G|G c A HA|G n A HA|G t u A B _ IHt _ IHu|G A t B q _ IHA _ IHt _ IHB Hq|G A B q _ IHA _ IHB Hq|G t A B _ IH HAB]; intros s Hs.
      - exists kind_sem. split; [apply isem_Kind|]. split; [split; [constructor; intros u Hu; apply red_inv in Hu; contradiction|reflexivity]|].
        exists typ_sem. apply ikd_typ; [apply conv_refl|reflexivity].
      - destruct (Hconst _ _ HA) as (Hcl & R & H1 & H2). exists R. rewrite Hcl. split; assumption.
      - destruct (Hs _ _ HA) as (R & H1 & H2). exists R. split; [left; left; exact H1|exact H2].
      - destruct (IHt s Hs) as (R & H1 & H2). destruct (IHu s Hs) as (R' & H3 & H4). destruct (isem_pi _ _ _ _ H1 (conv_refl _ _)) as (RB & RC & H5 & H6 & E).
        apply E in H2 as [_ H2]. assert (Hu : RB (sub s u)) by (apply (isem_fun _ _ _ _ H3 (conv_refl _ _) (or_introl (or_introl H5))); exact H4).
        exists (RC (sub s u)). rewrite sub_subst1. split; [left; apply H6; exact Hu|apply H2; exact Hu].
      - destruct (IHA s Hs) as (R & H1 & H2). destruct (isem_typ _ _ H1 H2) as (_ & RA & HA).
        assert (Hall : forall u, RA u -> exists R0, isem (subst1 u (sub (up s) B)) R0 /\ R0 (subst1 u (sub (up s) t))).
        { intros u Hu. rewrite <- !sub_scons_up. apply IHt. eapply sem_ctx_cons; eassumption. }
        assert (HallB : forall u, RA u -> exists R0, isem q R0 /\ R0 (subst1 u (sub (up s) B))).
        { intros u Hu. rewrite <- sub_scons_up. destruct (IHB _ (sem_ctx_cons _ _ _ _ _ Hs HA Hu)) as (R0 & K1 & K2). exists R0.
          split; [|exact K2]. destruct Hq; subst; exact K1. }
        exists (pi_sem RA (sub (up s) B)). split.
        + left. destruct Hq as [-> | ->].
          * left. apply ity_pi_intro; [exact HA|]. intros u Hu. destruct (HallB u Hu) as (R0 & K1 & K2). exact (proj2 (isem_typ _ _ K1 K2)).
          * right. apply ikd_pi_intro; [exact HA|]. intros u Hu. destruct (HallB u Hu) as (R0 & K1 & K2).
            apply (isem_fun _ _ _ _ isem_Kind (conv_refl _ _) K1) in K2 as (_ & K2). exact K2.
        + pose proof (cand_var RA 0 (ity_cand _ _ HA)) as Hv. destruct (Hall _ Hv) as (R0 & K1 & K2).
          pose proof (good_ulam _ _ (isem_good _ _ _ K1 K2)) as Hg. split; [exact Hg|]. intros u Hu.
          destruct (Hall _ Hu) as (R1 & L1 & L2). destruct (HallB _ Hu) as (R2 & L3 & L4). destruct (isem_sort _ _ _ Hq L3 L4) as (_ & R3 & L5).
          exists R3. split; [exact L5|]. change (sub s (ULam t)) with (ULam (sub (up s) t)). apply beta_sem; [eapply kd_cand; exact L5|exact Hg|eapply cand_good; [eapply ity_cand; exact HA|exact Hu]|].
          apply (isem_fun _ _ _ _ L1 (conv_refl _ _) (or_introl L5)). exact L2.
      - destruct (IHA s Hs) as (R & H1 & H2). destruct (isem_typ _ _ H1 H2) as (HgA & RA & HA).
        assert (HallB : forall u, RA u -> exists R0, isem q R0 /\ R0 (subst1 u (sub (up s) B))).
        { intros u Hu. rewrite <- sub_scons_up. destruct (IHB _ (sem_ctx_cons _ _ _ _ _ Hs HA Hu)) as (R0 & K1 & K2). exists R0.
          split; [|exact K2]. destruct Hq; subst; exact K1. }
        assert (Hg : good (sub s (Pi A B))).
        { destruct (HallB _ (cand_var RA 0 (ity_cand _ _ HA))) as (R0 & K1 & K2). apply good_pi; [exact HgA|eapply isem_good; eassumption]. }
        destruct Hq as [-> | ->].
        + exists typ_sem. split; [apply isem_Typ|]. split; [exact Hg|]. exists (pi_sem RA (sub (up s) B)). apply ity_pi_intro; [exact HA|].
          intros u Hu. destruct (HallB u Hu) as (R0 & K1 & K2). exact (proj2 (isem_typ _ _ K1 K2)).
        + exists kind_sem. split; [apply isem_Kind|]. split; [exact Hg|]. exists (pi_sem RA (sub (up s) B)). apply ikd_pi_intro; [exact HA|].
          intros u Hu. destruct (HallB u Hu) as (R0 & K1 & K2). apply (isem_fun _ _ _ _ isem_Kind (conv_refl _ _) K1) in K2 as (_ & K2). exact K2.
      - destruct (IH s Hs) as (R & H1 & H2). exists R. split; [|exact H2]. eapply isem_conv; [exact H1|]. apply conv_sub. eapply sig_mono_conv; eassumption.
    Qed.
    Lemma tc_sem G : type_ctx sg0 G -> forall k, sem_ctx G (fun n => Var (n + k)).
    Proof.
      induction 1 as [|G A HG IH HA]; intros k.
      - intros n A H. destruct n; discriminate.
      - destruct (wt_sem _ _ _ HA _ (IH (S k))) as (R & H1 & H2). destruct (isem_typ _ _ H1 H2) as (_ & RA & HRA).
        pose proof (sem_ctx_cons G (fun n => Var (n + S k)) A RA (Var k) (IH (S k)) HRA (cand_var _ _ (ity_cand _ _ HRA))) as H.
        intros n B HB. destruct (H n B HB) as (R' & K1 & K2). exists R'. split.
        + erewrite sub_ext; [exact K1|]. intros [|m]; cbn; [reflexivity|]. f_equal. lia.
        + destruct n as [|n]; cbn in *; [exact K2|]. replace (S (n + k)) with (n + S k) by lia. exact K2.
    Qed.
    Lemma typed_sn G t A : type_ctx sg0 G -> well_typed sg0 G t A -> sn t.
    Proof.
      intros HG H. destruct (wt_sem _ _ _ H _ (tc_sem _ HG 0)) as (R & H1 & H2). eapply isem_good in H2; [|exact H1].
      eapply sn_unsub. apply H2.
    Qed.
  End Typed.
End Cand.
