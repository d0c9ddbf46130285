(** * Faulty terms are not typable (C87) *)

From Verif Require Import Base ModelSubst SpecTerm SpecConv SpecConvFacts SpecRed SpecTyping SpecBidir SpecType SpecFault TypeFacts RefComplete MainTyped.

Section Untypable.
  Variable sg : sig.
  Hypothesis Hcr : church_rosser sg.
  Hypothesis Heta : sg_eta sg = false.
  Notation conv := (conv sg).
  Notation has_type := (has_type sg).

  Lemma has_ctx_conv G t A : has_type G t A -> forall G', Forall2 conv G G' -> has_type G' t A.
  Proof.
    induction 1; intros G' HG; try (econstructor; eauto using conv_refl; fail).
    destruct (Forall2_nth_ex _ _ _ HG _ _ H) as (B & H1 & H2). eapply ty_conv; [constructor; exact H1|]. apply conv_lift. apply conv_sym. exact H2.
  Qed.
  Lemma ctx_refl G : Forall2 conv G G.
  Proof. induction G; constructor; [apply conv_refl|assumption]. Qed.
  Lemma has_swap G A A' t B : has_type (A :: G) t B -> conv A A' -> has_type (A' :: G) t B.
  Proof. intros H Hc. eapply has_ctx_conv; [exact H|]. constructor; [exact Hc|apply ctx_refl]. Qed.

  Lemma faulty :
    (forall G t e, inf_fault sg G t e -> type_error e -> forall A, ~ has_type G t A) /\
    (forall G t T e, chk_fault sg G t T e -> type_error e -> ~ has_type G t T) /\
    (forall G t T, chk_bad sg G t T -> ~ has_type G t T).
  Proof.
    pose proof (church_rosser_pi sg Hcr) as Hpi.
    assert (Hu : forall G t A B, infers sg G t A -> has_type G t B -> conv A B) by (intros; eapply infers_unique; eassumption).
    assert (Hsafe : eta_safe sg) by (intros E; congruence).
    assert (Te : forall e (Q : Prop), type_error e -> (e = BindNoType \/ e = UnexpectedKind \/ e = SortExpected \/ e = DomainFreeAbstraction) -> Q).
    { intros e Q [-> |[-> |[-> | ->]]] [X|[X|[X|X]]]; discriminate. }
    assert (App : forall G t u T A B X, infers sg G t T -> conv T (Pi A B) -> has_type G (App t u) X -> has_type G u A).
    { intros G t u T A B X H1 H2 H3. apply gen_app in H3 as (A' & B' & H3 & H4 & _). eapply ty_conv; [exact H4|].
      destruct (Hpi A B A' B') as [X1 _]; [eapply conv_trans; [apply conv_sym; exact H2|eapply Hu; eassumption]|]. apply conv_sym. exact X1. }
    apply (fault_ind sg (fun G t e _ => type_error e -> forall A, ~ has_type G t A) (fun G t T e _ => type_error e -> ~ has_type G t T) (fun G t T _ => ~ has_type G t T)).
    - intros G _ A H. eapply gen_kind; exact H.
    - intros G c Hc _ A H. apply gen_const in H as (B & H & _). congruence.
    - intros G n Hn _ A H. apply gen_var in H as (B & H & _). congruence.
    - intros G t He. eapply Te; eauto.
    - intros G t u e _ IH He A H. apply gen_app in H as (A' & B' & H1 & _). eapply IH; eassumption.
    - intros G t u T H1 [_ Hn] He A H. apply gen_app in H as (A' & B' & H2 & _). eapply Hn; [exact Hcr|exact Heta|eapply Hu; eassumption].
    - intros G t u T A B e H1 H2 _ IH He X H. eapply IH; [exact He|eapply App; eassumption].
    - intros G t u T A B H1 H2 _ IH He X H. eapply IH. eapply App; eassumption.
    - intros G A t e _ IH He X H. apply gen_lam in H as (K & B & H & _). eapply IH; eassumption.
    - intros G A t K _ _ He. eapply Te; eauto.
    - intros G A t e _ _ IH He X H. apply gen_lam in H as (K & B & _ & H & _). eapply IH; eassumption.
    - intros G A t _ _ He. eapply Te; eauto.
    - intros G A B e _ IH He X H. apply gen_pi in H as (s & H & _). eapply IH; eassumption.
    - intros G A B K _ _ He. eapply Te; eauto.
    - intros G A B e _ _ IH He X H. apply gen_pi in H as (s & _ & H & _). eapply IH; eassumption.
    - intros G A B s _ _ _ _ He. eapply Te; eauto.
    - intros G t T Ht [_ Hn] He H. destruct t; try contradiction; [apply gen_lam in H as (K & B & _ & _ & _ & H)|apply gen_ulam in H as (A & B & _ & _ & H)];
        (eapply Hn; [exact Hcr|exact Heta|apply conv_sym; exact H]).
    - intros G A t T A' B e _ _ IH He H. apply gen_lam in H as (K & B' & H & _). eapply IH; eassumption.
    - intros G A K t T A' B e H1 H2 H3 _ IH He H. apply gen_lam in H as (K' & B' & _ & H & _ & Hc). apply IH; [exact He|].
      destruct (Hpi A B' A' B) as [_ X]; [eapply conv_trans; eassumption|]. eapply ty_conv; [eapply has_swap; eassumption|exact X].
    - intros G t T A B e H1 _ IH He H. apply gen_ulam in H as (A' & B' & H & _ & Hc). apply IH; [exact He|].
      destruct (Hpi A' B' A B) as [X1 X2]; [eapply conv_trans; eassumption|]. eapply ty_conv; [eapply has_swap; eassumption|exact X2].
    - intros G t T e _ _ IH He H. eapply IH; eassumption.
    - intros G A K t T A' B H1 _ [_ Hd] H. apply gen_lam in H as (K' & B' & _ & _ & _ & Hc). apply (Hd Hcr Hsafe).
      destruct (Hpi A B' A' B) as [X _]; [eapply conv_trans; eassumption|]. exact X.
    - intros G A K t T A' B H1 H2 H3 _ IH H. apply gen_lam in H as (K' & B' & _ & H & _ & Hc). apply IH.
      destruct (Hpi A B' A' B) as [_ X]; [eapply conv_trans; eassumption|]. eapply ty_conv; [eapply has_swap; eassumption|exact X].
    - intros G t T A B H1 _ IH H. apply gen_ulam in H as (A' & B' & H & _ & Hc). apply IH.
      destruct (Hpi A' B' A B) as [X1 X2]; [eapply conv_trans; eassumption|]. eapply ty_conv; [eapply has_swap; eassumption|exact X2].
    - intros G t A T _ H1 [_ Hd] H. apply (Hd Hcr Hsafe). eapply Hu; eassumption.
  Qed.
  Lemma refused_untypable G t T e : refused sg G t T e -> type_error e -> ~ has_type G t T.
  Proof. intros [H|[H _]] He; [exact (proj1 (proj2 faulty) _ _ _ _ H He)|exact (proj2 (proj2 faulty) _ _ _ H)]. Qed.
End Untypable.

Lemma closed_faults sg :
  (forall G t e, inf_fault sg G t e -> closed_in sg (length G) t -> e <> KindNotTypable /\ e <> TypeNotFound) /\
  (forall G t T e, chk_fault sg G t T e -> closed_in sg (length G) t -> e <> KindNotTypable /\ e <> TypeNotFound) /\
  (forall G t T, chk_bad sg G t T -> True).
Proof.
  apply (fault_ind sg (fun G t e _ => closed_in sg (length G) t -> e <> KindNotTypable /\ e <> TypeNotFound)
    (fun G t T e _ => closed_in sg (length G) t -> e <> KindNotTypable /\ e <> TypeNotFound) (fun G t T _ => True)); intros; cbn [closed_in length] in *;
    try exact I; try (split; discriminate); try tauto.
  exfalso. apply nth_error_None in e. lia.
Qed.
