(** * Preservation of types: congruence, beta, rules *)

From Coq Require Import List Arith Lia Bool.
From Verif Require Import SpecTerm SpecConv SpecConvFacts SpecTyping SpecRed SpecType RedConfl TypeFacts.
Import ListNotations.

Section Pres.
  Variable sg : sig.
  Notation conv := (conv sg).
  Notation has_type := (has_type sg).

  (** [t] is convertible to [g] and has all its types, also after renaming. *)
  Definition pr (g t : tm) : Prop :=
    conv t g /\ forall r G T, has_type G (ren r g) T -> has_type G (ren r t) T.

  Lemma pr_conv g t : pr g t -> conv t g.
  Proof. intros [H _]. exact H. Qed.
  Lemma pr_refl t : pr t t.
  Proof. split; [apply conv_refl|auto]. Qed.
  Lemma pr_trans g t u : pr g t -> pr t u -> pr g u.
  Proof. intros [H1 H2] [H3 H4]. split; [eapply conv_trans; eassumption|auto]. Qed.
  Lemma pr_type g t G T : pr g t -> has_type G g T -> has_type G t T.
  Proof.
    intros [_ H] Hg. rewrite <- (ren_id_ext t (fun n => n)) by reflexivity. apply H. rewrite ren_id_ext by reflexivity. exact Hg.
  Qed.
  Lemma pr_ren g t r : pr g t -> pr (ren r g) (ren r t).
  Proof.
    intros [H1 H2]. split; [apply conv_ren; exact H1|]. intros r' G T H. rewrite ren_ren in *. apply H2. exact H.
  Qed.

  Lemma pr_app g t g' t' : pr g t -> pr g' t' -> pr (App g g') (App t t').
  Proof.
    intros [H1 H2] [H3 H4]. split; [apply conv_app; assumption|]. intros r G T H. cbn [ren] in *.
    destruct (gen_app _ _ _ _ _ H) as (A & B & Ht & Hu & HT). eapply ty_conv; [eapply ty_app; [apply H2; exact Ht|apply H4; exact Hu]|].
    eapply conv_trans; [|exact HT]. apply conv_subst1; [apply conv_ren; exact H3|apply conv_refl].
  Qed.
  Lemma pr_lam a a' g t : pr a a' -> pr g t -> pr (Lam a g) (Lam a' t).
  Proof.
    intros [H1 H2] [H3 H4]. split; [apply conv_lam; assumption|]. intros r G T H. cbn [ren] in *.
    destruct (gen_lam _ _ _ _ _ H) as (K & B & Ha & Ht & HB & HT).
    assert (Hc : conv (ren r a') (ren r a)) by (apply conv_ren; exact H1).
    eapply ty_conv; [eapply ty_lam; [apply H2; exact Ha|eapply type_head_conv; [apply conv_sym; exact Hc|apply H4; exact Ht]|exact HB]|].
    eapply conv_trans; [|exact HT]. apply conv_pi; [exact Hc|apply conv_refl].
  Qed.
  Lemma pr_ulam g t : pr g t -> pr (ULam g) (ULam t).
  Proof.
    intros [H3 H4]. split; [apply conv_ulam; assumption|]. intros r G T H. cbn [ren] in *.
    destruct (gen_ulam _ _ _ _ H) as (A & B & Ht & HB & HT).
    eapply ty_conv; [eapply ty_ulam; [apply H4; exact Ht|exact HB]|exact HT].
  Qed.
  Lemma pr_pi a a' g t : pr a a' -> pr g t -> pr (Pi a g) (Pi a' t).
  Proof.
    intros [H1 H2] [H3 H4]. split; [apply conv_pi; assumption|]. intros r G T H. cbn [ren] in *.
    destruct (gen_pi _ _ _ _ _ H) as (s & Ha & Ht & Hs & HT).
    assert (Hc : conv (ren r a') (ren r a)) by (apply conv_ren; exact H1).
    eapply ty_conv; [eapply ty_pi; [apply H2; exact Ha|eapply type_head_conv; [apply conv_sym; exact Hc|apply H4; exact Ht]|exact Hs]|exact HT].
  Qed.
  Lemma pr_apps us : forall us' g t, pr g t -> Forall2 pr us us' -> pr (apps g us) (apps t us').
  Proof.
    induction us as [|u us IH]; intros us' g t Ht H; inversion H; subst; cbn [apps]; auto.
    apply IH; [apply pr_app; assumption|assumption].
  Qed.
  Lemma prs_refl us : Forall2 pr us us.
  Proof. induction us; constructor; auto using pr_refl. Qed.
  Lemma pr_apps_head us g t : pr g t -> pr (apps g us) (apps t us).
  Proof. intros H. apply pr_apps; [exact H|apply prs_refl]. Qed.

  Hypothesis Hst : stable_types sg.
  Hypothesis Hpi : pi_injective sg.

  (** ** Beta *)
  Lemma pr_beta t u : pr (App (ULam t) u) (subst1 u t).
  Proof.
    split; [apply conv_sym, conv_beta|]. intros r G T H. cbn [ren] in H. rewrite ren_subst1.
    destruct (gen_app _ _ _ _ _ H) as (A & B & Ht & Hu & HT).
    destruct (gen_ulam _ _ _ _ Ht) as (A' & B' & Hb & _ & Hc). destruct (Hpi _ _ _ _ Hc) as [HA HB].
    eapply ty_conv; [eapply type_subst1; [exact Hst|exact Hb|eapply ty_conv; [exact Hu|apply conv_sym; exact HA]]|].
    eapply conv_trans; [|exact HT]. apply conv_subst1; [apply conv_refl|exact HB].
  Qed.
  Lemma pr_beta_lam a t u : pr (App (Lam a t) u) (subst1 u t).
  Proof.
    split; [apply conv_sym, conv_beta_lam|]. intros r G T H. cbn [ren] in H. rewrite ren_subst1.
    destruct (gen_app _ _ _ _ _ H) as (A & B & Ht & Hu & HT).
    destruct (gen_lam _ _ _ _ _ Ht) as (K & B' & _ & Hb & _ & Hc). destruct (Hpi _ _ _ _ Hc) as [HA HB].
    eapply ty_conv; [eapply type_subst1; [exact Hst|exact Hb|eapply ty_conv; [exact Hu|apply conv_sym; exact HA]]|].
    eapply conv_trans; [|exact HT]. apply conv_subst1; [apply conv_refl|exact HB].
  Qed.

  (** ** Rules *)
  (** [cinst s p t o]: [t] is an instance of [p], where the variables stand for terms convertible to those given by [s];
      [o] lists the variables with the terms that they stand for. *)
  Inductive cinst (s : nat -> tm) : pat -> tm -> list (nat * tm) -> Prop :=
  | ci_var m t : conv (s m) t -> cinst s (PatVar m) t [(m, t)]
  | ci_joker t : cinst s PatJoker t []
  | ci_symb c ps ts o : cinsts s ps ts o -> cinst s (PatSymb c ps) (apps (Const c) ts) o
  with cinsts (s : nat -> tm) : list pat -> list tm -> list (nat * tm) -> Prop :=
  | ci_nil : cinsts s [] [] []
  | ci_cons p ps t ts o os : cinst s p t o -> cinsts s ps ts os -> cinsts s (p :: ps) (t :: ts) (o ++ os).
  Scheme cinst_mind := Induction for cinst Sort Prop with cinsts_mind := Induction for cinsts Sort Prop.
  Combined Scheme cinst_ind2 from cinst_mind, cinsts_mind.

  Definition ren_occ (r : nat -> nat) (o : list (nat * tm)) : list (nat * tm) := map (fun p => (fst p, ren r (snd p))) o.
  Lemma cinst_ren s :
    (forall p t o, cinst s p t o -> forall r, cinst (fun n => ren r (s n)) p (ren r t) (ren_occ r o)) /\
    (forall ps ts o, cinsts s ps ts o -> forall r, cinsts (fun n => ren r (s n)) ps (map (ren r) ts) (ren_occ r o)).
  Proof.
    apply cinst_ind2.
    - intros m t H r. cbn. constructor. apply conv_ren. exact H.
    - intros t r. constructor.
    - intros c ps ts o _ IH r. rewrite ren_apps. constructor. apply IH.
    - intros r. constructor.
    - intros p ps t ts o os _ IH1 _ IH2 r. unfold ren_occ. rewrite map_app. cbn [map]. constructor; [apply IH1|apply IH2].
  Qed.

  (** Instances are convertible to the left-hand side after substitution. *)
  Lemma cinst_conv s :
    (forall p t o, cinst s p t o -> no_joker p -> forall l, inst Var p l -> conv (sub s l) t) /\
    (forall ps ts o, cinsts s ps ts o -> Forall no_joker ps -> forall ls, Forall2 (inst Var) ps ls -> Forall2 conv (map (sub s) ls) ts).
  Proof.
    apply cinst_ind2.
    - intros m t H _ l Hl. inversion Hl; subst. exact H.
    - intros t Hj. inversion Hj.
    - intros c ps ts o _ IH Hj l Hl. inversion Hl; subst. inversion Hj; subst. rewrite sub_apps. apply conv_apps; [apply conv_refl|]. apply IH; assumption.
    - intros _ ls H. inversion H; subst. constructor.
    - intros p ps t ts o os _ IH1 _ IH2 Hj ls H. inversion H; subst. inversion Hj; subst. cbn [map]. constructor; auto.
  Qed.

  Section Rule.
    Variables (D G : list tm) (s : nat -> tm).

    (** The types of [f'] are those of [f] after substitution. *)
    Definition hd (f f' : tm) : Prop := forall F X, has_type D f F -> has_type G f' X -> conv (sub s F) X.
    Definition typed_occ (o : list (nat * tm)) : Prop :=
      forall m u, In (m, u) o -> exists B, nth_error D m = Some B /\ has_type G u (sub s (lift (S m) B)).

    Lemma inst_typed :
      (forall p t o, cinst s p t o -> no_joker p -> forall l A, inst Var p l -> has_type D l A -> has_type G t (sub s A) -> typed_occ o) /\
      (forall ps ts o, cinsts s ps ts o -> Forall no_joker ps -> forall ls f f', Forall2 (inst Var) ps ls -> hd f f' ->
         hd (apps f ls) (apps f' ts) /\
         forall A T, has_type D (apps f ls) A -> has_type G (apps f' ts) T ->
           typed_occ o /\ exists F F', has_type D f F /\ has_type G f' F').
    Proof.
      apply cinst_ind2.
      - intros m t Hc _ l A Hl HA Ht. inversion Hl; subst. destruct (gen_var _ _ _ _ HA) as (B & HB & HBA).
        intros m' u [[= <- <-]|[]]. exists B. split; [exact HB|]. eapply ty_conv; [exact Ht|]. apply conv_sub, conv_sym. exact HBA.
      - intros t Hj. inversion Hj.
      - intros c ps ts o _ IH Hj l A Hl HA Ht. inversion Hl; subst. inversion Hj; subst.
        destruct (IH ltac:(assumption) _ (Const c) (Const c) ltac:(eassumption)) as [_ H].
        { intros F X HF HX. destruct (gen_const _ _ _ _ HF) as (A1 & E1 & C1). destruct (gen_const _ _ _ _ HX) as (A2 & E2 & C2).
          rewrite E1 in E2. injection E2 as <-. eapply conv_trans; [apply conv_sub, conv_sym; exact C1|].
          eapply conv_trans; [eapply Hst; exact E1|exact C2]. }
        eapply H; eassumption.
      - intros _ ls f f' H Hhd. inversion H; subst. cbn [apps]. split; [exact Hhd|]. intros A T HA HT. split; [intros m u []|eauto].
      - intros p ps t ts o os Hp IH1 Hps IH2 Hj ls f f' H Hhd. inversion H as [|? l ? ls' Hl Hls]; subst. inversion Hj as [|? ? Hj1 Hj2]; subst.
        cbn [apps].
        assert (Hhd' : hd (App f l) (App f' t)).
        { intros F X HF HX. destruct (gen_app _ _ _ _ _ HF) as (A & B & H1 & H2 & H3). destruct (gen_app _ _ _ _ _ HX) as (A' & B' & H1' & H2' & H3').
          pose proof (Hhd _ _ H1 H1') as Hc. cbn [sub] in Hc. destruct (Hpi _ _ _ _ Hc) as [CA CB].
          eapply conv_trans; [apply conv_sub, conv_sym; exact H3|]. rewrite sub_subst1. eapply conv_trans; [|exact H3'].
          apply conv_subst1; [|exact CB]. eapply (proj1 (cinst_conv s)); eassumption. }
        destruct (IH2 Hj2 _ _ _ Hls Hhd') as [I1 I2]. split; [exact I1|]. intros A T HA HT.
        destruct (I2 A T HA HT) as (Ho & F & F' & HF & HF').
        destruct (gen_app _ _ _ _ _ HF) as (A1 & B1 & H1 & H2 & H3). destruct (gen_app _ _ _ _ _ HF') as (A' & B' & H1' & H2' & H3').
        split; [|eauto]. intros m u Hin. apply in_app_or in Hin. destruct Hin as [Hin|Hin]; [|apply Ho; exact Hin].
        pose proof (Hhd _ _ H1 H1') as Hc. cbn [sub] in Hc. destruct (Hpi _ _ _ _ Hc) as [CA CB].
        eapply (IH1 Hj1 l A1); try eassumption. eapply ty_conv; [exact H2'|apply conv_sym; exact CA].
    Qed.
  End Rule.

  Lemma rule_type c r s ts o : rule_typed sg c r -> cinsts s (sr_args r) ts o ->
    (forall m, m < sr_vars r -> In (m, s m) o) -> (forall m, sr_vars r <= m -> s m <> Kind) ->
    forall G T, has_type G (apps (Const c) ts) T -> has_type G (sub s (sr_rhs r)) T.
  Proof.
    intros (Hj & D & l & A & HD & Hl & HlA & HrA) Hi Ho Hk G T HT. inversion Hl; subst.
    assert (Hhd : hd D G s (Const c) (Const c)).
    { intros F X HF HX. destruct (gen_const _ _ _ _ HF) as (A1 & E1 & C1). destruct (gen_const _ _ _ _ HX) as (A2 & E2 & C2).
      rewrite E1 in E2. injection E2 as <-. eapply conv_trans; [apply conv_sub, conv_sym; exact C1|].
      eapply conv_trans; [eapply Hst; exact E1|exact C2]. }
    destruct (proj2 (inst_typed D G s) _ _ _ Hi Hj _ _ _ ltac:(eassumption) Hhd) as [HH1 HH2].
    destruct (HH2 _ _ HlA HT) as [Hocc _]. eapply ty_conv; [eapply type_sub; [exact Hst|exact HrA|]|apply HH1; assumption].
    split.
    - intros m. destruct (Nat.lt_ge_cases m (sr_vars r)) as [Hm|Hm]; [|apply Hk; exact Hm].
      destruct (Hocc _ _ (Ho m Hm)) as (B & _ & HB). eapply typed_not_kind. exact HB.
    - intros m B HB. assert (Hm : m < sr_vars r) by (rewrite <- HD; apply nth_error_Some; congruence).
      destruct (Hocc _ _ (Ho m Hm)) as (B' & HB' & Ht). congruence.
  Qed.

  (** For terms instead of substitutions; the condition on [o] holds if all occurrences of a variable are convertible. *)
  Lemma pr_rule c rs r us ts o : sg_rules sg c = Some rs -> In r rs -> usable r -> rule_typed sg c r ->
    cinsts (slist us) (sr_args r) ts o -> length us = sr_vars r ->
    (forall m u, nth_error us m = Some u -> In (m, u) o) ->
    conv (sub (slist us) (sr_rhs r)) (apps (Const c) ts) ->
    pr (apps (Const c) ts) (sub (slist us) (sr_rhs r)).
  Proof.
    intros Hrs Hin Hu Ht Hi Hlen Ho Hc. split; [exact Hc|]. intros q G T HT. rewrite ren_apps in HT. cbn [ren] in HT.
    rewrite ren_sub. eapply rule_type; [exact Ht|apply (proj2 (cinst_ren _)); exact Hi| | |exact HT].
    - intros m Hm. rewrite <- Hlen in Hm. apply nth_error_Some in Hm. destruct (nth_error us m) as [u|] eqn:E; [|congruence].
      rewrite (slist_lt _ _ _ E). apply (in_map (fun p => (fst p, ren q (snd p))) o (m, u)). apply Ho. exact E.
    - intros m Hm. rewrite slist_ge by lia. discriminate.
  Qed.
End Pres.
