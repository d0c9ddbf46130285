(** * Facts about typing: generation, weakening, substitution *)

From Coq Require Import List Arith Lia Bool.
From Verif Require Import SpecTerm SpecConv SpecConvFacts SpecTyping SpecBidir SpecRed SpecType RedConfl.
Import ListNotations.

Section Facts.
  Variable sg : sig.
  Notation conv := (conv sg).
  Notation has_type := (has_type sg).

  (** ** Generation *)
  Lemma gen_kind G T : ~ has_type G Kind T.
  Proof. intros H. remember Kind as t eqn:E. induction H; try discriminate; auto. Qed.
  Lemma gen_type G T : has_type G Typ T -> conv Kind T.
  Proof. intros H. remember Typ as t eqn:E. induction H; try discriminate; eauto using conv_refl, conv_trans. Qed.
  Lemma gen_const G c T : has_type G (Const c) T -> exists A, sg_type sg c = Some A /\ conv A T.
  Proof.
    intros H. remember (Const c) as t eqn:E. induction H; try discriminate.
    - injection E as ->. eauto using conv_refl.
    - destruct (IHhas_type E) as (A0 & H1 & H2). eauto using conv_trans.
  Qed.
  Lemma gen_var G n T : has_type G (Var n) T -> exists A, nth_error G n = Some A /\ conv (lift (S n) A) T.
  Proof.
    intros H. remember (Var n) as t eqn:E. induction H; try discriminate.
    - injection E as ->. eauto using conv_refl.
    - destruct (IHhas_type E) as (A0 & H1 & H2). eauto using conv_trans.
  Qed.
  Lemma gen_app G t u T : has_type G (App t u) T ->
    exists A B, has_type G t (Pi A B) /\ has_type G u A /\ conv (subst1 u B) T.
  Proof.
    intros H. remember (App t u) as v eqn:E. induction H; try discriminate.
    - injection E as -> ->. eauto 6 using conv_refl.
    - destruct (IHhas_type E) as (A0 & B0 & H1 & H2 & H3). eauto 6 using conv_trans.
  Qed.
  Lemma gen_lam G a t T : has_type G (Lam a t) T ->
    exists K B, has_type G a K /\ has_type (a :: G) t B /\ B <> Kind /\ conv (Pi a B) T.
  Proof.
    intros H. remember (Lam a t) as v eqn:E. induction H; try discriminate.
    - injection E as -> ->. eauto 8 using conv_refl.
    - destruct (IHhas_type E) as (A0 & B0 & H1 & H2 & H3 & H4). eauto 8 using conv_trans.
  Qed.
  Lemma gen_ulam G t T : has_type G (ULam t) T ->
    exists A B, has_type (A :: G) t B /\ B <> Kind /\ conv (Pi A B) T.
  Proof.
    intros H. remember (ULam t) as v eqn:E. induction H; try discriminate.
    - injection E as ->. eauto 8 using conv_refl.
    - destruct (IHhas_type E) as (A0 & B0 & H1 & H2 & H3). eauto 8 using conv_trans.
  Qed.
  Lemma gen_pi G a b T : has_type G (Pi a b) T ->
    exists s, has_type G a Typ /\ has_type (a :: G) b s /\ (s = Typ \/ s = Kind) /\ conv s T.
  Proof.
    intros H. remember (Pi a b) as v eqn:E. induction H; try discriminate.
    - injection E as -> ->. eauto 8 using conv_refl.
    - destruct (IHhas_type E) as (s & H1 & H2 & H3 & H4). eauto 8 using conv_trans.
  Qed.

  (** ** Contexts with convertible types *)
  Lemma type_ctx_conv G t A : has_type G t A -> forall G', Forall2 conv G G' -> has_type G' t A.
  Proof.
    induction 1; intros G' HG.
    - constructor.
    - constructor; assumption.
    - assert (exists A', nth_error G' n = Some A' /\ conv A A') as (A' & H1 & H2).
      { clear - H HG. revert n H. induction HG; intros [|n]; cbn; try discriminate; eauto.
        intros [= <-]. eauto. }
      eapply ty_conv; [constructor; eassumption|]. apply conv_sym, conv_lift. exact H2.
    - eapply ty_app; eauto.
    - eapply ty_lam; eauto. apply IHhas_type2. constructor; auto using conv_refl.
    - eapply ty_ulam; eauto. apply IHhas_type. constructor; auto using conv_refl.
    - eapply ty_pi; eauto. apply IHhas_type2. constructor; auto using conv_refl.
    - eapply ty_conv; eauto.
  Qed.
  Lemma conv_ctx_refl G : Forall2 conv G G.
  Proof. induction G; constructor; auto using conv_refl. Qed.
  Lemma type_head_conv G a a' t A : conv a a' -> has_type (a :: G) t A -> has_type (a' :: G) t A.
  Proof. intros H Ht. eapply type_ctx_conv; [exact Ht|]. constructor; [exact H|apply conv_ctx_refl]. Qed.

  (** ** Typed terms have no variables beyond their context *)
  Lemma type_scoped G t A : has_type G t A -> scoped (length G) t.
  Proof.
    induction 1; cbn [scoped length] in *; auto. apply nth_error_Some. congruence.
  Qed.

  (** ** Renaming *)
  (** The type of every symbol is convertible to all its instances. *)
  Definition stable_types : Prop := forall c A, sg_type sg c = Some A -> forall s, conv (sub s A) A.
  Lemma closed_stable : closed_types sg -> stable_types.
  Proof.
    intros H c A HA s. rewrite (sub_scoped A 0 s Var (H _ _ HA)) by lia. rewrite sub_id. apply conv_refl.
  Qed.
  Hypothesis Hst : stable_types.

  Definition ren_ok (r : nat -> nat) (D G : list tm) : Prop :=
    forall m B, nth_error D m = Some B -> exists B', nth_error G (r m) = Some B' /\ lift (S (r m)) B' = ren r (lift (S m) B).
  Lemma ren_ok_up r D G A : ren_ok r D G -> ren_ok (up_ren r) (A :: D) (ren r A :: G).
  Proof.
    intros H [|m] B; cbn [nth_error up_ren].
    - intros [= <-]. exists (ren r A). split; [reflexivity|]. unfold lift. rewrite !ren_ren. apply ren_ext.
      intros n. replace (n + 1) with (S n) by lia. cbn. lia.
    - intros Hm. destruct (H _ _ Hm) as (B' & H1 & H2). exists B'. split; [exact H1|].
      change (S (S (r m))) with (1 + S (r m)). rewrite <- lift_lift, H2. change (S (S m)) with (1 + S m). rewrite <- lift_lift.
      unfold lift. rewrite !ren_ren. apply ren_ext. intros n. replace (n + S m + 1) with (S (n + S m)) by lia. cbn. lia.
  Qed.
  Lemma ren_kind r t : ren r t = Kind -> t = Kind.
  Proof. destruct t; cbn; congruence. Qed.
  Lemma ren_sort r s : s = Typ \/ s = Kind -> ren r s = s.
  Proof. intros [-> | ->]; reflexivity. Qed.
  Lemma type_ren D t A : has_type D t A -> forall r G, ren_ok r D G -> has_type G (ren r t) (ren r A).
  Proof.
    induction 1; intros r G' Hr; cbn [ren].
    - constructor.
    - eapply ty_conv; [constructor; eassumption|]. rewrite ren_as_sub. apply conv_sym, Hst with (c := c). assumption.
    - destruct (Hr _ _ H) as (B' & H1 & H2). rewrite <- H2. constructor. assumption.
    - rewrite ren_subst1. eapply ty_app; [apply (IHhas_type1 _ _ Hr)|apply IHhas_type2; assumption].
    - eapply ty_lam; [apply IHhas_type1; eassumption|apply IHhas_type2, ren_ok_up; assumption|].
      intros E. apply H1. eapply ren_kind; eassumption.
    - eapply ty_ulam; [apply IHhas_type, ren_ok_up; assumption|]. intros E. apply H0. eapply ren_kind; eassumption.
    - rewrite (ren_sort r s) by assumption.
      eapply ty_pi; [apply (IHhas_type1 _ _ Hr)| |eassumption].
      rewrite <- (ren_sort (up_ren r) s) by assumption. apply IHhas_type2, ren_ok_up; assumption.
    - eapply ty_conv; [apply IHhas_type; eassumption|]. apply conv_ren. assumption.
  Qed.
  Lemma ren_ok_S G A : ren_ok S G (A :: G).
  Proof.
    intros m B H. exists B. split; [exact H|]. unfold lift. rewrite ren_ren. apply ren_ext. intros; lia.
  Qed.
  Lemma type_weaken G A t T : has_type G t T -> has_type (A :: G) (ren S t) (ren S T).
  Proof. intros H. eapply type_ren; [exact H|apply ren_ok_S]. Qed.

  (** ** Substitution *)
  Definition sub_ok (s : nat -> tm) (D G : list tm) : Prop :=
    (forall n, s n <> Kind) /\
    forall m B, nth_error D m = Some B -> has_type G (s m) (sub s (lift (S m) B)).
  Lemma sub_ok_up s D G A : sub_ok s D G -> sub_ok (up s) (A :: D) (sub s A :: G).
  Proof.
    intros [HK H]. split.
    - intros [|n]; cbn; [discriminate|]. intros E. apply (HK n). eapply ren_kind; eassumption.
    - intros [|m] B; cbn [nth_error up].
      + intros [= <-]. replace (sub (up s) (lift 1 A)) with (lift 1 (sub s A)); [constructor; reflexivity|].
        unfold lift. rewrite ren_sub, sub_ren. apply sub_ext. intros n. replace (n + 1) with (S n) by lia. cbn.
        apply ren_ext. intros; lia.
      + intros Hm. replace (sub (up s) (lift (S (S m)) B)) with (ren S (sub s (lift (S m) B))); [apply type_weaken, H; assumption|].
        unfold lift. rewrite !ren_sub, !sub_ren, ?ren_sub. apply sub_ext. intros n. replace (n + S (S m)) with (S (n + S m)) by lia. reflexivity.
  Qed.
  Lemma sub_kind s t : (forall n, s n <> Kind) -> sub s t = Kind -> t = Kind.
  Proof. intros H. destruct t; cbn; try congruence. Qed.
  Lemma sub_sort s k : k = Typ \/ k = Kind -> sub s k = k.
  Proof. intros [-> | ->]; reflexivity. Qed.
  Lemma type_sub D t A : has_type D t A -> forall s G, sub_ok s D G -> has_type G (sub s t) (sub s A).
  Proof.
    induction 1; intros r G' Hr; cbn [sub].
    - constructor.
    - eapply ty_conv; [constructor; eassumption|]. apply conv_sym, Hst with (c := c). assumption.
    - apply Hr. assumption.
    - rewrite sub_subst1. eapply ty_app; [apply (IHhas_type1 _ _ Hr)|apply IHhas_type2; assumption].
    - eapply ty_lam; [apply IHhas_type1; eassumption|apply IHhas_type2, sub_ok_up; assumption|].
      intros E. apply H1. eapply sub_kind; [|eassumption]. apply (sub_ok_up _ _ _ A Hr).
    - eapply ty_ulam; [apply IHhas_type, sub_ok_up; assumption|]. intros E. apply H0. eapply sub_kind; [|eassumption].
      apply (sub_ok_up _ _ _ A Hr).
    - rewrite (sub_sort r s) by assumption.
      eapply ty_pi; [apply (IHhas_type1 _ _ Hr)| |eassumption].
      rewrite <- (sub_sort (up r) s) by assumption. apply IHhas_type2, sub_ok_up; assumption.
    - eapply ty_conv; [apply IHhas_type; eassumption|]. apply conv_sub. assumption.
  Qed.
  Lemma typed_not_kind G t A : has_type G t A -> t <> Kind.
  Proof. intros H ->. eapply gen_kind; eassumption. Qed.
  Lemma sub_ok_one G A u : has_type G u A -> sub_ok (scons u Var) (A :: G) G.
  Proof.
    intros H. split.
    - intros [|n]; cbn; [eapply typed_not_kind; eassumption|discriminate].
    - intros [|m] B; cbn [nth_error scons].
      + intros [= <-]. unfold lift. rewrite sub_ren. rewrite sub_id_ext; [exact H|]. intros n. replace (n + 1) with (S n) by lia. reflexivity.
      + intros Hm. replace (sub (scons u Var) (lift (S (S m)) B)) with (lift (S m) B); [constructor; exact Hm|].
        unfold lift. rewrite sub_ren, ren_as_sub. apply sub_ext. intros n. replace (n + S (S m)) with (S (n + S m)) by lia. reflexivity.
  Qed.
  Lemma type_subst1 G A t B u : has_type (A :: G) t B -> has_type G u A -> has_type G (subst1 u t) (subst1 u B).
  Proof. intros Ht Hu. eapply type_sub; [exact Ht|]. apply sub_ok_one. exact Hu. Qed.

  (** ** Uniqueness of inferred types *)
  Hypothesis Hpi : pi_injective sg.

  Lemma infers_unique G t A : infers sg G t A -> forall B, has_type G t B -> conv A B.
  Proof.
    induction 1 as [G|G c A H|G n A H|G t u T A B Ht IHt HT Hu|G A t B HA IHA Ht IHt HB|G A B s HA IHA HB IHB Hs]; intros X HX.
    - apply gen_type in HX. exact HX.
    - apply gen_const in HX. destruct HX as (A' & H1 & H2). congruence.
    - apply gen_var in HX. destruct HX as (A' & H1 & H2). congruence.
    - apply gen_app in HX. destruct HX as (A' & B' & H1 & H2 & H3).
      destruct (Hpi A B A' B') as [_ HB]; [eapply conv_trans; [apply conv_sym; exact HT|apply IHt; exact H1]|].
      eapply conv_trans; [|exact H3]. apply conv_subst1; [apply conv_refl|exact HB].
    - apply gen_lam in HX. destruct HX as (K & B' & H1 & H2 & H3 & H4). eapply conv_trans; [|exact H4].
      apply conv_pi; [apply conv_refl|]. apply IHt. exact H2.
    - apply gen_pi in HX. destruct HX as (s' & H1 & H2 & H3 & H4). eapply conv_trans; [|exact H4].
      apply IHB. exact H2.
  Qed.
End Facts.
