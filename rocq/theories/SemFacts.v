(** * Types that are inhabited hold in models (C81): terms *)

From Coq Require Import List Arith Lia Bool.
From Verif Require Import Base ModelCommand SpecTerm SpecConv SpecConvFacts SpecWhnf SpecRed SpecSN SpecType SpecProcess SpecDomain SpecRec SpecSem
  RedConfl EtaConfl RedStuck TypeFacts DomFacts EtaTyped DomUnique DeriveFacts.
Import ListNotations.

(** ** Terms that are not touched by substitutions where they matter for [holds] *)
Section Level.
  Variable P : nat -> Prop.
  Fixpoint tl (t : tm) : Prop :=
    match t with
    | Kind | Typ => True
    | Const c => P c
    | Var _ => False
    | App t _ | Lam _ t | ULam t => tl t
    | Pi a b => tl a /\ tl b
    end.
  Lemma tl_ren t : forall r, tl (ren r t) <-> tl t.
  Proof. induction t; intros r; cbn; try tauto; auto. rewrite IHt1, IHt2. tauto. Qed.
  Lemma tl_sub t : forall s, tl t -> tl (sub s t).
  Proof. induction t; intros s; cbn; try tauto; auto. intros [? ?]. auto. Qed.
  Lemma tl_apps us : forall h, tl (apps h us) <-> tl h.
  Proof. induction us as [|u us IH]; intros h; cbn; [tauto|]. rewrite IH. cbn. tauto. Qed.
End Level.

Section Holds.
  Variables (W : Type) (le : W -> W -> Prop) (v : nat -> W -> Prop).
  Notation holds := (holds W le v).
  Lemma holds_strip t : forall w, holds (strip t) w <-> holds t w.
  Proof.
    induction t; intros w; cbn; try tauto; auto.
    split; intros H w' Hw Ha; apply IHt2; apply H; try exact Hw; apply IHt1; exact Ha.
  Qed.
  Lemma holds_ren t : forall r w, holds (ren r t) w <-> holds t w.
  Proof.
    induction t; intros r w; cbn; try tauto; auto.
    split; intros H w' Hw Ha.
    - apply (IHt2 (up_ren r)). apply H; [exact Hw|]. apply IHt1. exact Ha.
    - apply IHt2. apply H; [exact Hw|]. apply (IHt1 r). exact Ha.
  Qed.
  Lemma holds_sub P t : forall s w, tl P t -> holds (sub s t) w <-> holds t w.
  Proof.
    induction t; intros s w; cbn; try tauto; auto.
    intros [Ha Hb]. split; intros H w' Hw Hx.
    - apply (IHt2 (up s)); [exact Hb|]. apply H; [exact Hw|]. apply IHt1; assumption.
    - apply IHt2; [exact Hb|]. apply H; [exact Hw|]. apply (IHt1 s); assumption.
  Qed.
  Lemma holds_apps us : forall h w, holds (apps h us) w <-> holds h w.
  Proof. induction us as [|u us IH]; intros h w; cbn; [tauto|]. rewrite IH. cbn. tauto. Qed.
  Hypothesis Hk : kripke W le v.
  Lemma holds_mono t : forall w w', le w w' -> holds t w -> holds t w'.
  Proof.
    destruct Hk as (_ & Ht & Hm). induction t; intros w w' Hw; cbn; try tauto; eauto.
  Qed.
End Holds.

Section Facts.
  Variable sg : sig.
  Notation conv := (conv sg).
  Notation wt := (well_typed sg).
  Notation sort s := (s = Typ \/ s = Kind).
  Hypothesis Hst : stable_types sg.
  Hypothesis Hcr : church_rosser sg.
  Hypothesis Hpi : pi_injective sg.
  Hypothesis Hrules : good_rules sg.
  Hypothesis Htypes : good_types sg.
  Hypothesis Hsn : normalising sg.
  Hypothesis Hsafe : eta_safe sg.

  Notation not_kind := (not_kind sg Hst Hcr Hpi Hrules Hsn Hsafe).
  Notation sort_unique := (sort_unique sg Hst Hcr Hpi Hrules Hsn Hsafe).

  Lemma sort_conv s s' : sort s -> sort s' -> conv s s' -> s = s'.
  Proof.
    intros [-> | ->] [-> | ->] H; try reflexivity; [|apply conv_sym in H]; destruct (sorts_apart sg Hcr); first [exact H|apply conv_sym; exact H].
  Qed.
  (** a type that is convertible with a product *)
  Lemma type_pi G T A B s : type_ctx sg G -> sort s -> wt G T s -> conv T (Pi A B) ->
    exists A' B', wt G A' Typ /\ wt (A' :: G) B' s /\ wt G (Pi A' B') s /\ conv A' A /\ conv B' B.
  Proof.
    intros HG Hs HT HcT.
    assert (exists A' B', wt G (Pi A' B') s /\ conv (Pi A' B') (Pi A B)) as (A' & B' & HP & HcP).
    { destruct (sg_eta sg) eqn:He.
      { destruct (eta_type_pi sg Hcr Hpi Hst Hrules Hsn Hsafe He _ _ _ _ _ HG Hs HT HcT) as (A' & B' & R & CA & CB).
        exists A', B'. split; [eapply wt_reds; eassumption|apply conv_pi; assumption]. }
      destruct (Hcr _ _ HcT) as (x & R1 & R2). apply (redxs_reds _ _ _ He) in R1, R2. rewrite (wt_strip _ _ _ _ HT) in R1. cbn [strip] in R2. apply reds_pi in R2.
      destruct R2 as (A' & B' & -> & RA & RB). exists A', B'. split; [eapply wt_reds; eassumption|].
      eapply conv_trans; [apply conv_sym, reds_conv; exact R1|exact HcT]. }
    destruct (Hpi _ _ _ _ HcP) as [CA CB]. destruct (wgen_pi _ _ _ _ _ HP) as (s' & HA' & HB' & Hs' & Hc).
    apply sort_conv in Hc; [|assumption..]. subst s'. exists A', B'. auto.
  Qed.
  (** the type of an application *)
  Lemma app_type G T u A B s : type_ctx sg G -> sort s -> wt G T s -> conv T (Pi A B) -> wt G u A ->
    exists A' B', wt G A' Typ /\ wt (A' :: G) B' s /\ wt G (Pi A' B') s /\ conv A' A /\ conv B' B /\ wt G u A' /\
      wt G (subst1 u B') s /\ conv (subst1 u B') (subst1 u B).
  Proof.
    intros HG Hs HT Hc Hu. destruct (type_pi _ _ _ _ _ HG Hs HT Hc) as (A' & B' & H1 & H2 & H3 & CA & CB). exists A', B'.
    assert (Hu' : wt G u A') by (eapply wt_conv; [exact Hu|apply conv_sym; exact CA]).
    repeat split; try assumption.
    - pose proof (wt_subst1 _ Hst _ _ _ _ u H2 Hu') as X. unfold subst1 in X at 2. rewrite sub_sort in X by exact Hs. exact X.
    - apply conv_subst1; [apply conv_refl|exact CB].
  Qed.
  (** types are types or kinds, up to convertibility *)
  Lemma regular G t A : wt G t A -> type_ctx sg G -> exists T, conv A T /\ (T = Kind \/ exists s, sort s /\ wt G T s).
  Proof.
    induction 1 as [G|G c A HA|G n A Hn|G t u A B Ht IHt Hu IHu|G A t B s HA IHA Ht IHt HB IHB Hs|G A B s HA IHA HB IHB Hs|G t A B Ht IHt Hc]; intros HG.
    - exists Kind. split; [apply conv_refl|auto].
    - exists (strip A). split; [apply conv_refl|]. right. destruct (Htypes _ _ HA) as (_ & s & Hs & Hw). exists s. split; [exact Hs|]. eapply wt_closed; eassumption.
    - exists (lift (S n) A). split; [apply conv_refl|]. right. exists Typ. split; [auto|]. eapply type_ctx_nth; eassumption.
    - destruct (IHt HG) as (T & Hc & [->|(s & Hs & HT)]).
      + destruct (conv_pi_sort sg A B Kind Hcr (or_intror eq_refl) Hc).
      + destruct (app_type _ _ _ _ _ _ HG Hs HT (conv_sym _ _ _ Hc) Hu) as (A' & B' & _ & _ & _ & _ & _ & _ & H1 & H2).
        exists (subst1 u B'). split; [apply conv_sym; exact H2|]. right. eauto.
    - exists (Pi A B). split; [apply conv_refl|]. right. exists s. split; [exact Hs|]. econstructor; eassumption.
    - exists s. split; [apply conv_refl|]. destruct Hs as [-> | ->]; [|auto]. right. exists Kind. split; [auto|constructor].
    - destruct (IHt HG) as (T & H1 & H2). exists T. split; [|exact H2]. eapply conv_trans; [apply conv_sym; exact Hc|exact H1].
  Qed.

  (** ** Terms that are types, kinds, or functions to types *)
  Definition kinded (c : nat) : Prop := exists A, sg_type sg c = Some A /\ wt [] (strip A) Kind.
  Definition upper (G : list tm) (T : tm) : Prop := T = Kind \/ wt G T Kind.
  Lemma not_upper G A T : type_ctx sg G -> wt G A Typ -> conv A T -> ~ upper G T.
  Proof.
    intros HG HA Hc [->|HT]; [exact (not_kind _ _ _ HG HA Hc)|].
    pose proof (sort_unique _ _ _ _ _ HG Hc (or_introl eq_refl) HA HT) as X. apply sort_conv in X; auto. discriminate.
  Qed.
  Lemma upper_tl t : forall G T T', type_ctx sg G -> wt G t T -> conv T T' -> upper G T' -> tl kinded t.
  Proof.
    induction t as [| |c|n|t IHt u IHu|a IHa t IHt|t IHt|a IHa b IHb]; intros G T T' HG Ht Hc HU; cbn [tl]; try exact I.
    - destruct (wgen_const _ _ _ _ Ht) as (A & HA & Hc'). destruct (Htypes _ _ HA) as (_ & s & Hs & Hw).
      destruct Hs as [-> | ->]; [|exists A; auto]. exfalso. apply (not_upper G (strip A) T' HG); [eapply wt_closed; eauto|eapply conv_trans; eassumption|exact HU].
    - destruct (wgen_var _ _ _ _ Ht) as (A & HA & Hc'). apply (not_upper G (lift (S n) A) T' HG); [eapply type_ctx_nth; eassumption|eapply conv_trans; eassumption|exact HU].
    - destruct (wgen_app _ _ _ _ _ Ht) as (A & B & H1 & H2 & Hc'). destruct (regular _ _ _ H1 HG) as (T0 & Hc0 & [->|(s & Hs & HT)]).
      { destruct (conv_pi_sort sg A B Kind Hcr (or_intror eq_refl) Hc0). }
      destruct (app_type _ _ _ _ _ _ HG Hs HT (conv_sym _ _ _ Hc0) H2) as (A' & B' & _ & _ & HP & CA & CB & _ & H3 & H4).
      destruct Hs as [-> | ->].
      + exfalso. apply (not_upper G _ T' HG H3); [|exact HU]. eapply conv_trans; [exact H4|]. eapply conv_trans; eassumption.
      + eapply IHt; [exact HG|exact H1| |right; exact HP]. apply conv_sym. apply conv_pi; assumption.
    - destruct (wgen_lam _ _ _ _ _ Ht).
    - destruct (wgen_ulam _ _ _ _ Ht) as (A & B & H1 & H2 & (s & Hs & H3) & Hc').
      destruct Hs as [-> | ->].
      + exfalso. apply (not_upper G (Pi A B) T' HG); [econstructor; eauto|eapply conv_trans; eassumption|exact HU].
      + eapply (IHt (A :: G)); [constructor; assumption|exact H2|apply conv_refl|right; exact H3].
    - destruct (wgen_pi _ _ _ _ _ Ht) as (s & H1 & H2 & Hs & _). split.
      + eapply IHa; [exact HG|exact H1|apply conv_refl|right; constructor].
      + eapply (IHb (a :: G)); [constructor; assumption|exact H2|apply conv_refl|]. destruct Hs as [-> | ->]; [right; constructor|left; reflexivity].
  Qed.
  Lemma sort_tl G T s : type_ctx sg G -> sort s -> wt G T s -> tl kinded T.
  Proof.
    intros HG Hs HT. eapply upper_tl; [exact HG|exact HT|apply conv_refl|]. destruct Hs as [-> | ->]; [right; constructor|left; reflexivity].
  Qed.
  (** right-hand sides of rules *)
  Lemma head_sort G c A s ts : type_ctx sg G -> sg_type sg c = Some A -> sort s -> wt [] (strip A) s -> forall K, wt G (apps (Const c) ts) K ->
    exists T, wt G T s /\ conv T K.
  Proof.
    intros HG HA Hs Hw. induction ts as [|u ts IH] using rev_ind; intros K H.
    - cbn in H. destruct (wgen_const _ _ _ _ H) as (A' & HA' & Hc). rewrite HA in HA'. injection HA' as <-.
      exists (strip A). split; [eapply wt_closed; eassumption|exact Hc].
    - rewrite apps_snoc in H. destruct (wgen_app _ _ _ _ _ H) as (A0 & B & H1 & H2 & Hc).
      destruct (IH _ H1) as (T & HT & HcT).
      destruct (app_type _ _ _ _ _ _ HG Hs HT HcT H2) as (A' & B' & _ & _ & _ & _ & _ & _ & H3 & H4).
      exists (subst1 u B'). split; [exact H3|]. eapply conv_trans; eassumption.
  Qed.
  Definition rules_with_types : Prop := forall c r, rule_of sg c r ->
    (exists t A, r = MkSRule 0 [] t /\ sg_type sg c = Some A /\ wt [] (strip t) (strip A)) \/ typed_rule sg c r.
  Hypothesis Htr : rules_with_types.
  Lemma rule_tl c r : kinded c -> rule_of sg c r -> tl kinded (strip (sr_rhs r)).
  Proof.
    intros (A & HA & Hw) Hr. destruct (Htr _ _ Hr) as [(t & A' & -> & HA' & Ht)|(r' & Hn & _ & D & l & K & _ & HD & Hi & Hl & Hrhs)].
    - rewrite HA in HA'. injection HA' as <-. cbn. eapply upper_tl; [constructor|exact Ht|apply conv_refl|right; exact Hw].
    - inversion Hi as [| |? ? ts Hts]; subst. destruct (head_sort _ _ _ _ ts HD HA (or_intror eq_refl) Hw _ Hl) as (T & HT & Hc).
      assert (X : tl kinded (strip (sr_rhs r'))) by (eapply upper_tl; [exact HD|exact Hrhs|apply conv_sym; exact Hc|right; exact HT]).
      destruct Hn as [->|(_ & _ & _ & _ & f & _ & E)]; [exact X|]. rewrite E, strip_ren in X. apply tl_ren in X. exact X.
  Qed.

  (** ** Models *)
  Variables (W : Type) (le : W -> W -> Prop) (v : nat -> W -> Prop).
  Notation holds := (holds W le v).
  Hypothesis Hk : kripke W le v.
  Hypothesis Hvr : forall c r, rule_of sg c r -> forall w, v c w <-> holds (sr_rhs r) w.
  Definition same (t u : tm) : Prop := tl kinded u /\ forall w, holds t w <-> holds u w.
  Lemma same_pi a a' b b' : same a a' -> same b b' -> same (Pi a b) (Pi a' b').
  Proof.
    intros [Ha Ea] [Hb Eb]. split; [split; assumption|]. intros w. cbn.
    split; intros H w' Hw Hx; apply Eb; apply H; try exact Hw; apply Ea; exact Hx.
  Qed.
  Lemma same_refl t : tl kinded t -> same t t.
  Proof. intros H. split; [exact H|tauto]. Qed.
  Lemma red_same t u : red sg t u -> tl kinded t -> same t u.
  Proof.
    induction 1 as [t u|c rs r s ts H1 H2 H3 H4| | | | | | |]; cbn [tl]; intros Ht.
    - split; [apply tl_sub; exact Ht|]. intros w. cbn. symmetry. unfold subst1. apply (holds_sub W le v kinded). exact Ht.
    - apply tl_apps in Ht. assert (Hr : rule_of sg c r) by (exists rs; auto). pose proof (rule_tl _ _ Ht Hr) as X.
      split; [apply tl_sub; exact X|]. intros w. rewrite (holds_apps W le v). cbn. rewrite (Hvr _ _ Hr w). rewrite (holds_sub W le v kinded) by exact X. symmetry. apply holds_strip.
    - destruct (IHred Ht) as [A1 A2]. split; [exact A1|exact A2].
    - split; [exact Ht|intros w; cbn; tauto].
    - destruct (IHred Ht) as [A1 A2]. split; [exact A1|exact A2].
    - split; [exact Ht|intros w; cbn; tauto].
    - destruct (IHred Ht) as [A1 A2]. split; [exact A1|exact A2].
    - destruct Ht. apply same_pi; [auto|apply same_refl; assumption].
    - destruct Ht. apply same_pi; [apply same_refl; assumption|auto].
  Qed.
  Lemma eta_same t u : eta_red t u -> tl kinded t -> same t u.
  Proof.
    induction 1 as [t| | | | | | |]; cbn [tl]; intros Ht.
    - apply (tl_ren kinded) in Ht. split; [exact Ht|]. intros w. cbn. apply holds_ren.
    - destruct (IHeta_red Ht) as [A1 A2]. split; [exact A1|exact A2].
    - split; [exact Ht|intros w; cbn; tauto].
    - destruct (IHeta_red Ht) as [A1 A2]. split; [exact A1|exact A2].
    - split; [exact Ht|intros w; cbn; tauto].
    - destruct (IHeta_red Ht) as [A1 A2]. split; [exact A1|exact A2].
    - destruct Ht. apply same_pi; [auto|apply same_refl; assumption].
    - destruct Ht. apply same_pi; [apply same_refl; assumption|auto].
  Qed.
  Lemma redxs_same t u : redxs sg t u -> tl kinded t -> forall w, holds t w <-> holds u w.
  Proof.
    induction 1 as [t|t u x H _ IH|t u x _ H _ IH]; intros Ht w; [tauto| |].
    - destruct (red_same _ _ H Ht) as [Hu E]. rewrite E. apply IH. exact Hu.
    - destruct (eta_same _ _ H Ht) as [Hu E]. rewrite E. apply IH. exact Hu.
  Qed.
  Lemma conv_same t u : conv t u -> strip t = t -> strip u = u -> tl kinded t -> tl kinded u -> forall w, holds t w <-> holds u w.
  Proof.
    intros H St Su Ht Hu w. destruct (Hcr _ _ H) as (x & H1 & H2). rewrite St in H1. rewrite Su in H2.
    rewrite (redxs_same _ _ H1 Ht w), (redxs_same _ _ H2 Hu w). tauto.
  Qed.
  Lemma types_same G T s T' s' : type_ctx sg G -> sort s -> wt G T s -> sort s' -> wt G T' s' -> conv T T' -> forall w, holds T w -> holds T' w.
  Proof.
    intros HG Hs HT Hs' HT' Hc w. apply (conv_same T T' Hc (wt_strip _ _ _ _ HT) (wt_strip _ _ _ _ HT') (sort_tl _ _ _ HG Hs HT) (sort_tl _ _ _ HG Hs' HT') w).
  Qed.

  Hypothesis Hvt : forall c A, sg_type sg c = Some A -> forall w, holds A w.
  Lemma sound G t A : wt G t A -> type_ctx sg G -> forall T s, sort s -> wt G T s -> conv A T -> forall w, (forall B, In B G -> holds B w) -> holds T w.
  Proof.
    induction 1 as [G|G c A HA|G n A Hn|G t u A B Ht IHt Hu IHu|G A t B s HA IHA Ht IHt HB IHB Hs|G A B s HA IHA HB IHB Hs|G t A B Ht IHt Hc];
      intros HG T s0 Hs0 HT Hconv w Hw.
    - destruct (not_kind _ _ _ HG HT (conv_sym _ _ _ Hconv)).
    - destruct (Htypes _ _ HA) as (_ & s & Hs & Hws). apply (types_same G (strip A) s T s0); try assumption; [eapply wt_closed; eassumption|].
      apply holds_strip. apply (Hvt c). exact HA.
    - apply (types_same G (lift (S n) A) Typ T s0); auto; [eapply type_ctx_nth; eassumption|]. apply holds_ren. apply Hw. eapply nth_error_In. exact Hn.
    - destruct (regular _ _ _ Ht HG) as (T0 & Hc0 & [->|(s & Hs & HT0)]).
      { destruct (conv_pi_sort sg A B Kind Hcr (or_intror eq_refl) Hc0). }
      destruct (app_type _ _ _ _ _ _ HG Hs HT0 (conv_sym _ _ _ Hc0) Hu) as (A' & B' & HA' & HB' & HP & CA & CB & _ & H3 & H4).
      pose proof (IHt HG _ _ Hs HP (conv_pi _ _ _ _ _ (conv_sym _ _ _ CA) (conv_sym _ _ _ CB)) w Hw) as F. cbn in F.
      pose proof (IHu HG _ _ (or_introl eq_refl) HA' (conv_sym _ _ _ CA) w Hw) as X.
      apply (types_same G (subst1 u B') s T s0); try assumption.
      + eapply conv_trans; [exact H4|exact Hconv].
      + unfold subst1. apply (holds_sub W le v kinded); [eapply (sort_tl (A' :: G)); [constructor|..]; eassumption|].
        apply F; [apply Hk|exact X].
    - apply (types_same G (Pi A B) s T s0); try assumption; [econstructor; eassumption|]. cbn. intros w' Hle HAw.
      apply (IHt (tc_cons _ _ _ HG HA) B s Hs HB (conv_refl _ _)). intros C [<-|HC]; [exact HAw|].
      eapply holds_mono; [exact Hk|exact Hle|]. apply Hw. exact HC.
    - destruct Hs as [-> | ->]; [|destruct (not_kind _ _ _ HG HT (conv_sym _ _ _ Hconv))].
      apply (types_same G Typ Kind T s0); auto; [constructor|exact I].
    - apply (IHt HG T s0 Hs0 HT); [|exact Hw]. eapply conv_trans; eassumption.
  Qed.
  Lemma sound_closed t A s : wt [] t (strip A) -> sort s -> wt [] (strip A) s -> valid W le v A.
  Proof.
    intros Ht Hs HA w. apply holds_strip. eapply (sound [] t (strip A)); try eassumption; [constructor|apply conv_refl|]. intros B [].
  Qed.
End Facts.
