(** * Well-typed terms over structurally recursive functions are strongly normalising *)

From Coq Require Import List Arith Lia Bool Relation_Operators Transitive_Closure.
From Verif Require Import SpecTerm SpecConv SpecConvFacts SpecWhnf SpecRed SpecSN SpecType SpecProcess SpecDomain SpecRec RedConfl EtaConfl RedSN TypeFacts DomFacts MainTyped MainProgTotal SnBase.
Import ListNotations.

Scheme guarded_ind2 := Induction for guarded Sort Prop
  with partial_ind2 := Induction for partial Sort Prop.
Combined Scheme guarded_mutind from guarded_ind2, partial_ind2.

Fixpoint arrs (l : list ty) (b : ty) : ty := match l with [] => b | a :: l => arr a (arrs l b) end.
Lemma arrs_app l l' b : arrs (l ++ l') b = arrs l (arrs l' b).
Proof. induction l; cbn; congruence. Qed.
Lemma arrs_split l : forall l' b b', arrs l b = arrs l' b' -> length l' <= length l -> exists l2, l = l' ++ l2 /\ b' = arrs l2 b.
Proof.
  induction l as [|a l IH]; intros [|a' l'] b b'; cbn; intros E H.
  - exists []. auto.
  - lia.
  - exists (a :: l). split; [reflexivity|]. cbn. congruence.
  - injection E as -> E. destruct (IH _ _ _ E ltac:(lia)) as (l2 & -> & ->). eauto.
Qed.
Lemma arrs_inj l l' b b' : arrs l b = arrs l' b' -> length l' = length l -> l = l' /\ b = b'.
Proof.
  intros E H. destruct (arrs_split _ _ _ _ E) as (l2 & -> & ->); [lia|]. rewrite app_length in H.
  destruct l2; [|cbn in H; lia]. rewrite app_nil_r. auto.
Qed.
Lemma small_arrs l b : small (arrs l b) -> Forall small l /\ small b.
Proof. induction l as [|a l IH]; cbn; [auto|]. intros [H1 H2]. destruct (IH H2). auto. Qed.
Lemma small_big a : small a -> big a -> False.
Proof. induction a; cbn; tauto. Qed.

(** ** Shapes of types *)
Section Shapes.
  Variable sg : sig.
  Hypothesis Hcr : church_rosser sg.
  Hypothesis Hpi : pi_injective sg.
  Notation conv := (conv sg).
  Notation isty := (isty sg).

  (** RED without strong normalisation: the terms that are types have a shape *)
  Fixpoint SH (a : ty) (t : tm) : Prop :=
    match a with
    | o => True
    | star => exists b, isty t b /\ small b
    | box => exists b, isty t b /\ big b
    | arr a b => forall u, SH b (App t u)
    end.
  Lemma SH_conv a : forall t u, SH a t -> conv t u -> SH a u.
  Proof.
    induction a as [| | |a _ b IHb]; cbn; intros t u H C; [exact I| | |].
    - destruct H as (b & H1 & H2). exists b. split; [eapply isty_conv; eassumption|exact H2].
    - destruct H as (b & H1 & H2). exists b. split; [eapply isty_conv; eassumption|exact H2].
    - intros v. eapply IHb; [apply H|]. apply conv_app; [exact C|apply conv_refl].
  Qed.
  Lemma SH_small a : small a -> forall t, SH a t.
  Proof. induction a; cbn; try tauto. intros [_ H] t u. auto. Qed.
  Lemma SH_inert c : inert sg c -> forall a t, small a \/ big a -> head t = Const c -> SH a t.
  Proof.
    intros Hc. induction a as [| | |a _ b IHb]; cbn; intros t Ha Hh; [exact I| | |].
    - exists o. split; [apply isty_shape; econstructor; eassumption|exact I].
    - destruct Ha as [[]|[]].
    - intros u. apply IHb; [tauto|exact Hh].
  Qed.

  Section Sub.
  Variable sg0 : sig.
  Hypothesis Hmono : sig_mono sg0 sg.
  Hypothesis Hconst : forall c A, sg_type sg0 c = Some A -> exists a, isty (strip A) a /\ SH a (Const c).

  Lemma wt_SH G t A : well_typed sg0 G t A -> small_ctx sg G -> exists a, isty A a /\ forall s, SH a (sub s t).
  Proof.
    induction 1 as [G|G c A HA|G n A HA|G t u A B _ IHt _ IHu|G A t B k0 _ IHA _ IHt _ _ _|G A B k _ IHA _ IHB Hk|G t A B _ IH HAB]; intros HG.
    - exists box. split; [apply isty_shape; constructor|]. intros s. cbn. exists star. split; [apply isty_shape; constructor|exact I].
    - destruct (Hconst _ _ HA) as (a & H1 & H2). exists a. split; [exact H1|]. intros s. exact H2.
    - unfold small_ctx in HG. rewrite Forall_forall in HG. destruct (HG _ (nth_error_In _ _ HA)) as (a & H1 & H2).
      exists a. split; [apply isty_ren; exact H1|]. intros s. apply SH_small. exact H2.
    - destruct (IHt HG) as (c & Hc & Ht). destruct (isty_pi_inv _ Hcr Hpi _ _ _ Hc) as (a' & b & -> & HA & HB).
      exists b. split; [apply isty_sub; exact HB|]. intros s. cbn [sub]. apply Ht.
    - destruct (IHA HG) as (k & Hk & HA). rewrite (isty_fun _ Hcr _ _ _ Hk (isty_shape _ _ _ (sh_typ sg))) in HA.
      destruct (HA Var) as (a & Ha & Hsm). rewrite sub_id_ext in Ha by reflexivity.
      assert (HG' : small_ctx sg (A :: G)) by (constructor; [eauto|exact HG]).
      destruct (IHt HG') as (b & Hb & Ht). exists (arr a b). split; [apply isty_pi; assumption|]. intros s u. cbn [sub].
      eapply SH_conv; [|apply conv_sym, conv_beta]. rewrite <- sub_scons_up. apply Ht.
    - destruct (IHA HG) as (k' & Hk' & HA). rewrite (isty_fun _ Hcr _ _ _ Hk' (isty_shape _ _ _ (sh_typ sg))) in HA.
      destruct (HA Var) as (a & Ha & Hsm). rewrite sub_id_ext in Ha by reflexivity.
      assert (HG' : small_ctx sg (A :: G)) by (constructor; [eauto|exact HG]).
      destruct (IHB HG') as (b & Hb & HB). pose proof (HB Var) as HBi. rewrite sub_id_ext in HBi by reflexivity.
      destruct Hk as [-> | ->].
      + rewrite (isty_fun _ Hcr _ _ _ Hb (isty_shape _ _ _ (sh_typ sg))) in *. exists star. split; [apply isty_shape; constructor|].
        destruct HBi as (b' & Hb' & Hsb). intros s. exists (arr a b'). split; [apply isty_sub, isty_pi; assumption|split; assumption].
      + rewrite (isty_fun _ Hcr _ _ _ Hb (isty_shape _ _ _ (sh_kind sg))) in *. exists box. split; [apply isty_shape; constructor|].
        destruct HBi as (b' & Hb' & Hsb). intros s. exists (arr a b'). split; [apply isty_sub, isty_pi; assumption|split; assumption].
    - destruct (IH HG) as (a & Ha & Ht). exists a. split; [eapply isty_conv; [exact Ha|eapply sig_mono_conv; eassumption]|exact Ht].
  Qed.
  Lemma sort_shape G A s : small_ctx sg G -> s = Typ \/ s = Kind -> well_typed sg0 G A s -> exists a, isty A a /\ (small a \/ big a).
  Proof.
    intros HG Hs H. destruct (wt_SH G A s H HG) as (k & Hk & HA).
    specialize (HA Var). rewrite sub_id_ext in HA by reflexivity. destruct Hs as [-> | ->].
    - rewrite (isty_fun _ Hcr _ _ _ Hk (isty_shape _ _ _ (sh_typ sg))) in HA. destruct HA as (a & H1 & H2). eauto.
    - rewrite (isty_fun _ Hcr _ _ _ Hk (isty_shape _ _ _ (sh_kind sg))) in HA. destruct HA as (a & H1 & H2). eauto.
  Qed.
  Lemma typ_shape G A : small_ctx sg G -> well_typed sg0 G A Typ -> exists a, isty A a /\ small a.
  Proof.
    intros HG H. destruct (wt_SH G A _ H HG) as (k & Hk & HA).
    specialize (HA Var). rewrite sub_id_ext in HA by reflexivity.
    rewrite (isty_fun _ Hcr _ _ _ Hk (isty_shape _ _ _ (sh_typ sg))) in HA. exact HA.
  Qed.
  Lemma type_ctx_small G : type_ctx sg0 G -> small_ctx sg G.
  Proof. induction 1 as [|G A HG IH HA]; [constructor|]. constructor; [eapply typ_shape; eassumption|exact IH]. Qed.
  End Sub.

  (** types with a target of base type *)
  Lemma target_small T : base sg (target T) -> forall a, isty T a -> small a \/ big a -> small a.
  Proof.
    induction T as [| |d|d|T1 _ T2 _|T1 _ T2 _|T1 _|T1 _ T2 IH]; cbn [target]; intros (c & Hh & Hc) a Ha Hs;
      try (rewrite (isty_fun _ Hcr _ _ _ Ha (isty_shape _ _ _ (sh_base sg _ c Hh Hc))); exact I).
    destruct (isty_pi_inv _ Hcr Hpi _ _ _ Ha) as (a1 & b & -> & _ & Hb). cbn in Hs |- *.
    split; [tauto|]. apply IH; [exists c; auto|exact Hb|tauto].
  Qed.
  Lemma first_order_shape T : first_order sg T -> exists l, isty T (arrs l o) /\ Forall (eq o) l.
  Proof.
    induction 1 as [t (c & Hh & Hc)|A B (c & Hh & Hc) _ (l & IH & Hl)].
    - exists []. split; [apply isty_shape; econstructor; eassumption|constructor].
    - exists (o :: l). split; [|constructor; auto]. cbn. apply isty_pi; [apply isty_shape; econstructor; eassumption|exact IH].
  Qed.
End Shapes.

(** ** Facts about built signatures *)
Lemma built_dom sg : built sg -> sig_dom sg.
Proof.
  induction 1 as [sg HT HR HE|sg c A rs sg' s _ IH _ _ _ _ _ Hx|sg c A t sg' s _ IH _ _ _ _ _ _ Hx|sg rs sg' _ IH _ (Hh & HT & HR & HE)]; [|eapply extends_dom; eassumption..|].
  - intros c H. destruct (H (HR c)).
  - intros c. rewrite HR, HT. destruct (sg_rules sg c) eqn:E; [intros _; apply IH; congruence|congruence].
Qed.
Lemma built_eta sg : built sg -> sg_eta sg = false.
Proof.
  induction 1 as [sg HT HR HE|sg c A rs sg' s _ IH _ _ _ _ _ Hx|sg c A t sg' s _ IH _ _ _ _ _ _ Hx|sg rs sg' _ IH _ Hx]; [exact HE|destruct Hx as (_ & _ & _ & ->); exact IH..].
Qed.
Lemma built_extends sg c A rs sg' : built sg -> extends sg c A rs sg' -> sig_mono sg sg'.
Proof. intros Hd Hx. eapply extends_mono; [|exact Hx]. apply no_rules; [apply built_dom; exact Hd|apply Hx]. Qed.
Lemma rules_mono sg rs sg' : extends_rules sg rs sg' -> sig_mono sg sg'.
Proof.
  intros (Hh & HT & HR & HE). split; [|split].
  - intros c A Hc. rewrite HT. exact Hc.
  - intros c rs0 r Hc Hin. rewrite HR, Hc. eexists. split; [reflexivity|apply in_or_app; auto].
  - exact HE.
Qed.
Lemma tc_mono sg sg' G : sig_mono sg sg' -> type_ctx sg G -> type_ctx sg' G.
Proof. intros M. induction 1; constructor; [assumption|eapply wt_mono; eassumption]. Qed.
Lemma typed_rule_mono sg sg' c r : sig_mono sg sg' -> typed_rule sg c r -> typed_rule sg' c r.
Proof.
  intros M (r' & Hn & H & D & l & A & H1 & H2 & H3 & H4 & H5). exists r'. split; [exact Hn|]. split; [exact H|]. exists D, l, A. repeat split; try assumption; try (eapply wt_mono; eassumption). eapply tc_mono; eassumption.
Qed.
Lemma built_bound sg : built sg -> exists N, forall d, sg_type sg d <> None -> d < N.
Proof.
  induction 1 as [sg HT HR HE|sg c A rs sg' s _ _ Hc _ _ _ _ Hx|sg c A t sg' s _ _ Hc _ _ _ _ _ Hx|sg rs sg' _ IH _ Hx].
  - exists 0. intros d H. destruct (H (HT d)).
  - exists (S c). intros d. destruct Hx as (_ & -> & _). destruct (Nat.eqb_spec d c) as [->|]; [lia|]. intros H. apply Hc in H. lia.
  - exists (S c). intros d. destruct Hx as (_ & -> & _). destruct (Nat.eqb_spec d c) as [->|]; [lia|]. intros H. apply Hc in H. lia.
  - destruct IH as [N H]. exists N. intros d. destruct Hx as (_ & -> & _). apply H.
Qed.
(** terms typed with smaller symbols *)
Lemma wt_guarded_lt sg f k : (forall d, sg_type sg d <> None -> d < f) -> forall G t A, well_typed sg G t A -> forall X, guarded f k X t.
Proof. intros Hf G t A. induction 1; intros X; try (constructor; auto; fail); [constructor; apply Hf; congruence|auto]. Qed.

(** a definition, in terms of smaller symbols *)
Definition defined (sg : sig) (c : nat) (r : srule) : Prop :=
  exists t A, r = MkSRule 0 [] t /\ sg_type sg c = Some A /\ well_typed sg [] (strip t) (strip A) /\ forall k X, guarded c k X (strip t).
Lemma defined_mono sg sg' c r : sig_mono sg sg' -> defined sg c r -> defined sg' c r.
Proof.
  intros M (t & A & H1 & H2 & H3 & H4). exists t, A. repeat split; [exact H1|apply M; exact H2|eapply wt_mono; eassumption|exact H4].
Qed.
Lemma built_rule sg : built sg -> forall c rs r, sg_rules sg c = Some rs -> In r rs -> defined sg c r \/ sr_args r <> [] /\ typed_rule sg c r.
Proof.
  induction 1 as [sg HT HR HE|sg c A rs sg' s Hb IH Hc HK Hs HA Hrs Hx|sg c A t sg' s Hb IH Hc HK Hs HA Hsc Ht Hx|sg rs sg' Hb IH Hrs Hx]; intros d l r.
  - rewrite HR. discriminate.
  - pose proof (built_extends _ _ _ _ _ Hb Hx) as M. destruct Hx as (_ & HT & HR & _). rewrite HR. destruct (Nat.eqb_spec d c) as [->|].
    + intros E. destruct Hrs as [-> | ->]; [discriminate|]. injection E as <-. intros [].
    + intros E Hin. destruct (IH _ _ _ E Hin) as [H|[H1 H2]]; [left; eapply defined_mono; eassumption|right]. split; [exact H1|eapply typed_rule_mono; eassumption].
  - pose proof (built_extends _ _ _ _ _ Hb Hx) as M. destruct Hx as (_ & HT & HR & _). rewrite HR. destruct (Nat.eqb_spec d c) as [->|].
    + intros [= <-] [<-|[]]. left. exists t, A. split; [reflexivity|]. split; [rewrite HT, Nat.eqb_refl; reflexivity|].
      split; [eapply wt_mono; eassumption|]. intros k X. eapply wt_guarded_lt; eassumption.
    + intros E Hin. destruct (IH _ _ _ E Hin) as [H|[H1 H2]]; [left; eapply defined_mono; eassumption|right]. split; [exact H1|eapply typed_rule_mono; eassumption].
  - pose proof (rules_mono _ _ _ Hx) as M. destruct Hx as (_ & HT & HR & _). rewrite HR. destruct (sg_rules sg d) as [l0|] eqn:E; [|discriminate].
    intros [= <-] Hin. apply in_app_or in Hin. destruct Hin as [Hin|Hin].
    + destruct (IH _ _ _ E Hin) as [H|[H1 H2]]; [left; eapply defined_mono; eassumption|right]. split; [exact H1|eapply typed_rule_mono; eassumption].
    + apply rules_for_in in Hin as (v & Hv & <- & ->). rewrite Forall_forall in Hrs. destruct (Hrs _ Hv) as [H1 H2]. right. split; [exact H1|].
      eapply typed_rule_mono; [exact M|exact H2].
Qed.
Lemma built_types sg : built sg -> good_types sg.
Proof.
  induction 1 as [sg HT HR HE|sg c A rs sg' s Hb IH Hc HK Hs HA Hrs Hx|sg c A t sg' s Hb IH Hc HK Hs HA Hsc Ht Hx|sg rs sg' Hb IH Hrs Hx]; intros d B.
  - rewrite HT. discriminate.
  - pose proof (built_extends _ _ _ _ _ Hb Hx) as M. destruct Hx as (_ & HT & _). rewrite HT. destruct (Nat.eqb_spec d c) as [->|].
    + intros [= <-]. split; [exact HK|]. exists s. split; [exact Hs|eapply wt_mono; eassumption].
    + intros HB. apply (good_type_mono sg _ _ M). apply (IH _ _ HB).
  - pose proof (built_extends _ _ _ _ _ Hb Hx) as M. destruct Hx as (_ & HT & _). rewrite HT. destruct (Nat.eqb_spec d c) as [->|].
    + intros [= <-]. split; [exact HK|]. exists s. split; [exact Hs|eapply wt_mono; eassumption].
    + intros HB. apply (good_type_mono sg _ _ M). apply (IH _ _ HB).
  - pose proof (rules_mono _ _ _ Hx) as M. destruct Hx as (_ & HT & _). rewrite HT. intros HB. apply (good_type_mono sg _ _ M). apply (IH _ _ HB).
Qed.
Lemma built_good_rules sg : built sg -> good_rules sg.
Proof.
  intros Hb c rs r H1 H2 _. destruct (built_rule sg Hb _ _ _ H1 H2) as [(t & A & -> & HA & Ht & _)|[_ H]]; [|apply typed_good; exact H].
  exact (def_good sg c A t HA Ht).
Qed.

(** usable rules can be found *)
Lemma usable_dec r : {usable r} + {~ usable r}.
Proof.
  destruct (forallb (fun m => existsb (Nat.eqb m) (flat_map pat_vars (sr_args r))) (seq 0 (sr_vars r))) eqn:E1.
  - destruct (forallb (fun m => m <? sr_vars r) (flat_map pat_vars (sr_args r))) eqn:E2.
    + left. rewrite forallb_forall in E1, E2. intros m. split.
      * intros H. specialize (E1 m). rewrite in_seq in E1. specialize (E1 ltac:(lia)). apply existsb_exists in E1 as (x & Hx & E).
        apply Nat.eqb_eq in E. subst. exact Hx.
      * intros H. apply E2, Nat.ltb_lt in H. exact H.
    + right. intros H. assert (X : forallb (fun m => m <? sr_vars r) (flat_map pat_vars (sr_args r)) = true); [|congruence].
      apply forallb_forall. intros m Hm. apply Nat.ltb_lt, H. exact Hm.
  - right. intros H. assert (X : forallb (fun m => existsb (Nat.eqb m) (flat_map pat_vars (sr_args r))) (seq 0 (sr_vars r)) = true); [|congruence].
    apply forallb_forall. intros m Hm. apply in_seq in Hm. apply existsb_exists. exists m. split; [apply H; lia|apply Nat.eqb_refl].
Qed.
Lemma rule_dec sg c : (exists r, rule_of sg c r) \/ no_rule sg c.
Proof.
  destruct (sg_rules sg c) as [rs|] eqn:E.
  - destruct (List.Exists_dec usable rs usable_dec) as [H|H].
    + apply Exists_exists in H as (r & H1 & H2). left. exists r, rs. auto.
    + right. intros r (l & H1 & H2 & H3). rewrite E in H1. injection H1 as <-. apply H, Exists_exists. eauto.
  - right. intros r (l & H1 & _). congruence.
Qed.

(** ** The shapes of the types of all symbols *)
Section Chain.
  Variable fin : sig.
  Hypothesis Hcr : church_rosser fin.
  Hypothesis Hpi : pi_injective fin.
  Hypothesis Hfin : forall c r, rule_of fin c r -> sr_args r = [] \/ exists A, sg_type fin c = Some A /\ base fin (target (strip A)).

  Lemma chain sg : built sg -> sig_mono sg fin -> (forall c r, sg_type sg c <> None -> rule_of fin c r -> sr_args r = [] -> rule_of sg c r) ->
    forall c A, sg_type sg c = Some A -> exists a, isty fin (strip A) a /\ SH fin a (Const c) /\ (small a \/ big a).
  Proof.
    induction 1 as [sg HT HR HE|sg c A rs sg' s Hb IH Hc HK Hs HA Hrs Hx|sg c A t sg' s Hb IH Hc HK Hs HA Hsc Ht Hx|sg rs sg' Hb IH Hrs Hx]; intros M Hdef d B HB.
    - rewrite HT in HB. discriminate.
    - pose proof (sig_mono_trans _ _ _ (built_extends _ _ _ _ _ Hb Hx) M) as M0. destruct Hx as (Hn & HT & HR & _).
      assert (Hold : forall c A, sg_type sg c = Some A -> exists a, isty fin (strip A) a /\ SH fin a (Const c) /\ (small a \/ big a)).
      { apply IH; [exact M0|]. intros e r He Hr1 Hr2. destruct (Hdef e r) as (l & H1 & H2 & H3); [rewrite HT; destruct (e =? c); congruence|exact Hr1|exact Hr2|].
        rewrite HR in H1. destruct (Nat.eqb_spec e c) as [->|]; [congruence|]. exists l. auto. }
      assert (Hold' : forall c A, sg_type sg c = Some A -> exists a, isty fin (strip A) a /\ SH fin a (Const c)) by (intros ? ? E; destruct (Hold _ _ E) as (a & ? & ? & _); eauto).
      rewrite HT in HB. destruct (Nat.eqb_spec d c) as [->|]; [|eauto]. injection HB as <-.
      destruct (sort_shape fin Hcr Hpi sg M0 Hold' [] _ _ ltac:(constructor) Hs HA) as (a & Ha & Hsb). exists a. split; [exact Ha|]. split; [|exact Hsb].
      destruct Hsb as [Hsm|Hbg]; [apply SH_small; exact Hsm|]. apply (SH_inert fin c); [|right; exact Hbg|reflexivity].
      intros r Hr. destruct (Hfin _ _ Hr) as [Hz|(A' & HA' & Ht')].
      + destruct (Hdef c r) as (l & H1 & H2 & _); [rewrite HT, Nat.eqb_refl; discriminate|exact Hr|exact Hz|]. rewrite HR, Nat.eqb_refl in H1.
        destruct Hrs as [-> | ->]; [discriminate|]. injection H1 as <-. destruct H2.
      + assert (E : sg_type fin c = Some A) by (apply M; rewrite HT, Nat.eqb_refl; reflexivity). rewrite E in HA'. injection HA' as <-.
        apply (small_big a); [|exact Hbg]. eapply target_small; try eassumption. right. exact Hbg.
    - pose proof (sig_mono_trans _ _ _ (built_extends _ _ _ _ _ Hb Hx) M) as M0. destruct Hx as (Hn & HT & HR & _).
      assert (Hold : forall c A, sg_type sg c = Some A -> exists a, isty fin (strip A) a /\ SH fin a (Const c) /\ (small a \/ big a)).
      { apply IH; [exact M0|]. intros e r He Hr1 Hr2. destruct (Hdef e r) as (l & H1 & H2 & H3); [rewrite HT; destruct (e =? c); congruence|exact Hr1|exact Hr2|].
        rewrite HR in H1. destruct (Nat.eqb_spec e c) as [->|]; [congruence|]. exists l. auto. }
      assert (Hold' : forall c A, sg_type sg c = Some A -> exists a, isty fin (strip A) a /\ SH fin a (Const c)) by (intros ? ? E; destruct (Hold _ _ E) as (a & ? & ? & _); eauto).
      rewrite HT in HB. destruct (Nat.eqb_spec d c) as [->|]; [|eauto]. injection HB as <-.
      destruct (sort_shape fin Hcr Hpi sg M0 Hold' [] _ _ ltac:(constructor) Hs HA) as (a & Ha & Hsb). exists a. split; [exact Ha|]. split; [|exact Hsb].
      destruct (wt_SH fin Hcr Hpi sg M0 Hold' [] _ _ Ht ltac:(constructor)) as (a' & Ha' & H). rewrite (isty_fun _ Hcr _ _ _ Ha Ha').
      eapply SH_conv; [apply (H Var)|]. rewrite sub_id_ext by reflexivity. apply conv_sym. eapply conv_trans; [|apply conv_strip].
      destruct (proj1 (proj2 M) c [MkSRule 0 [] t] (MkSRule 0 [] t)) as (l & H1 & H2); [rewrite HR, Nat.eqb_refl; reflexivity|left; reflexivity|].
      pose proof (conv_rule fin c l (MkSRule 0 [] t) Var [] H1 H2 ltac:(intros m; cbn; lia) ltac:(constructor)) as C. cbn in C. rewrite sub_id_ext in C by reflexivity. exact C.
    - pose proof (sig_mono_trans _ _ _ (rules_mono _ _ _ Hx) M) as M0. destruct Hx as (_ & HT & HR & _). rewrite HT in HB. apply (IH M0); [|exact HB].
      intros c r Hc H1 H2. destruct (Hdef c r) as (l & H3 & H4 & H5); [rewrite HT; exact Hc|exact H1|exact H2|].
      rewrite HR in H3. destruct (sg_rules sg c) as [l0|] eqn:E; [|discriminate]. injection H3 as <-. apply in_app_or in H4. destruct H4 as [H4|H4]; [exists l0; auto|].
      apply rules_for_in in H4 as (v & Hv & _ & ->). rewrite Forall_forall in Hrs. destruct (Hrs _ Hv) as [Hne _]. destruct (Hne H2).
  Qed.
End Chain.

(** ** Steps of calls *)
Inductive lstep (R : tm -> tm -> Prop) : list tm -> list tm -> Prop :=
| ls_here t u l : R t u -> lstep R (t :: l) (u :: l)
| ls_there t l l' : lstep R l l' -> lstep R (t :: l) (t :: l').
Lemma lstep_snoc (R : tm -> tm -> Prop) l l' x : lstep R l l' -> lstep R (l ++ [x]) (l' ++ [x]).
Proof. induction 1; cbn; constructor; assumption. Qed.
Lemma lstep_last (R : tm -> tm -> Prop) l x y : R x y -> lstep R (l ++ [x]) (l ++ [y]).
Proof. intros H. induction l; cbn; constructor; assumption. Qed.
Lemma lstep_acc (R : tm -> tm -> Prop) l : Forall (Acc (fun u t => R t u)) l -> Acc (fun l' l => lstep R l l') l.
Proof.
  induction 1 as [|x l Hx _ IH]; [constructor; intros l' H; inversion H|]. revert x Hx. induction IH as [l Hl IHl].
  intros x Hx. induction Hx as [x Hx IHx]. constructor. intros l' H. inversion H; subst; [auto|].
  apply IHl; [assumption|constructor; exact Hx].
Qed.
Lemma lstep_nth (R : tm -> tm -> Prop) l l' : lstep R l l' -> forall k d, nth k l' d = nth k l d \/ R (nth k l d) (nth k l' d).
Proof. induction 1; intros [|k] d; cbn; auto. Qed.

Section Fun.
  Variable sg : sig.
  Hypothesis Hcr : church_rosser sg.
  Hypothesis Hpi : pi_injective sg.
  Notation conv := (conv sg).
  Notation red := (red sg).
  Notation sn := (sn sg).
  Notation isty := (isty sg).
  Notation RED := (RED sg).
  Notation wt := (well_typed sg).

  Hypothesis Hshapes : forall c A, sg_type sg c = Some A -> exists a, isty (strip A) a /\ SH sg a (Const c) /\ (small a \/ big a).
  Lemma Hsh c A : sg_type sg c = Some A -> exists a, isty (strip A) a /\ SH sg a (Const c).
  Proof. intros H. destruct (Hshapes _ _ H) as (a & H1 & H2 & _). eauto. Qed.
  Lemma tc_small G : type_ctx sg G -> small_ctx sg G.
  Proof. exact (type_ctx_small sg Hcr Hpi sg (sig_mono_refl sg) Hsh G). Qed.
  Lemma ty_small G A : type_ctx sg G -> wt G A Typ -> exists a, isty A a /\ small a.
  Proof. intros HG. exact (typ_shape sg Hcr Hpi sg (sig_mono_refl sg) Hsh G A (tc_small G HG)). Qed.
  Lemma has_shape G t A : type_ctx sg G -> wt G t A -> exists a, isty A a.
  Proof. intros HG H. destruct (wt_SH sg Hcr Hpi sg (sig_mono_refl sg) Hsh G t A H (tc_small G HG)) as (a & Ha & _). eauto. Qed.
  Lemma wgen_typ G T : wt G Typ T -> conv Kind T.
  Proof. remember Typ as t eqn:E. induction 1; try discriminate; [apply conv_refl|]. eapply conv_trans; [apply IHwell_typed; exact E|eassumption]. Qed.
  Lemma shape_const G c T a : wt G (Const c) T -> isty T a -> exists A, sg_type sg c = Some A /\ isty (strip A) a.
  Proof. intros H Ha. apply wgen_const in H as (A & HA & C). exists A. split; [exact HA|]. eapply isty_conv; [exact Ha|apply conv_sym; exact C]. Qed.
  Lemma shape_app G t u T : type_ctx sg G -> wt G (App t u) T -> exists A B a b, wt G t (Pi A B) /\ wt G u A /\ isty (Pi A B) (arr a b) /\ isty A a /\ isty T b.
  Proof.
    intros HG H. apply wgen_app in H as (A & B & Ht & Hu & C). destruct (has_shape _ _ _ HG Ht) as (c & Hc).
    destruct (isty_pi_inv _ Hcr Hpi _ _ _ Hc) as (a & b & -> & HA & HB). exists A, B, a, b. repeat split; try assumption.
    eapply isty_conv; [|exact C]. apply isty_sub. exact HB.
  Qed.

  (** *** Terms that call [f] for smaller arguments only *)
  Section Guarded.
    Variables (f k : nat) (af : ty) (Sm : tm -> Prop).
    Hypothesis Hf : forall A a, sg_type sg f = Some A -> isty (strip A) a -> a = af.
    Hypothesis Hlt : forall d A, d < f -> sg_type sg d = Some A -> exists a, isty (strip A) a /\ RED a (Const d).
    Hypothesis Hcall : forall l b us v, af = arrs l b -> length us = k -> Forall2 RED l (us ++ [v]) -> Sm v -> RED b (apps (Const f) (us ++ [v])).

    Definition env (X : tm -> Prop) (G : list tm) (s : nat -> tm) : Prop := RED_ctx sg G s /\ forall u, X u -> Sm (sub s u).
    Lemma env_cons X G s A a u : env X G s -> isty A a -> RED a u -> env (under X) (A :: G) (scons u s).
    Proof. intros [H1 H2] HA Hu. split; [eapply RED_ctx_cons; eassumption|]. intros ? (v & -> & Hv).
      replace (sub (scons u s) (lift 1 v)) with (sub s v); [apply H2; exact Hv|]. unfold lift. rewrite sub_ren. apply sub_ext. intros x. rewrite Nat.add_comm. reflexivity.
    Qed.

    Lemma guarded_RED :
      (forall X t, guarded f k X t -> forall G T a s, type_ctx sg G -> wt G t T -> isty T a -> env X G s -> RED a (sub s t)) /\
      (forall X j t, partial f k X j t -> forall G T a s, type_ctx sg G -> wt G t T -> isty T a -> env X G s ->
        exists l us, af = arrs l a /\ length us = j /\ Forall2 RED l us /\ sub s t = apps (Const f) us).
    Proof.
      apply guarded_mutind.
      - intros X G T a s _ H. destruct (wgen_kind _ _ _ H).
      - intros X G T a s HG H Ha _. apply wgen_typ in H. assert (Hb : isty Kind a) by (eapply isty_conv; [exact Ha|apply conv_sym; exact H]).
        rewrite (isty_fun _ Hcr _ _ _ Hb (isty_shape _ _ _ (sh_kind sg))). cbn.
        split; [constructor; intros u Hu; apply red_inv in Hu; contradiction|]. exists star. split; [apply isty_shape; constructor|exact I].
      - intros X c Hc G T a s HG H Ha _. destruct (shape_const _ _ _ _ H Ha) as (A & HA & Ha'). destruct (Hlt _ _ Hc HA) as (a' & H1 & H2).
        rewrite (isty_fun _ Hcr _ _ _ Ha' H1). exact H2.
      - intros X n G T a s HG H Ha [Hs _]. apply wgen_var in H as (A & HA & C). cbn.
        pose proof (tc_small _ HG) as Hsm. unfold small_ctx in Hsm. rewrite Forall_forall in Hsm. destruct (Hsm _ (nth_error_In _ _ HA)) as (b & Hb & _).
        assert (E : isty T b) by (eapply isty_conv; [apply isty_ren; exact Hb|exact C]). rewrite (isty_fun _ Hcr _ _ _ Ha E). eapply Hs; eassumption.
      - intros X t u _ IHt _ IHu G T a s HG H Ha Hs. destruct (shape_app _ _ _ _ HG H) as (A & B & a1 & b & H1 & H2 & H3 & H4 & H5).
        rewrite (isty_fun _ Hcr _ _ _ Ha H5). cbn [sub]. apply (IHt G _ _ s HG H1 H3 Hs). exact (IHu G _ _ s HG H2 H4 Hs).
      - intros X t _ IH G T a s HG H Ha Hs. apply wgen_ulam in H as (A & B & HA & Ht & _ & C). destruct (ty_small _ _ HG HA) as (a1 & Ha1 & Hsm).
        assert (HG' : type_ctx sg (A :: G)) by (constructor; assumption).
        assert (Hp : isty (Pi A B) a) by (eapply isty_conv; [exact Ha|apply conv_sym; exact C]).
        destruct (isty_pi_inv _ Hcr Hpi _ _ _ Hp) as (a2 & b & -> & HA2 & HB). rewrite (isty_fun _ Hcr _ _ _ HA2 Ha1) in *. cbn [sub].
        assert (Hall : forall u, RED a1 u -> RED b (subst1 u (sub (up s) t))).
        { intros u Hu. rewrite <- sub_scons_up. apply (IH (A :: G) B); [exact HG'|exact Ht|exact HB|]. exact (env_cons X G s A a1 u Hs Ha1 Hu). }
        assert (Hsn : sn (sub (up s) t)) by (eapply sn_unsub, RED_sn, Hall, (RED_var sg 0); exact Hsm).
        split; [apply sn_ulam; exact Hsn|]. intros u Hu. apply RED_beta; [exact Hsn|eapply RED_sn; exact Hu|apply Hall; exact Hu].
      - intros X A B _ IHA _ IHB G T a s HG H Ha Hs. pose proof H as H'. apply wgen_pi in H as (q & HA & HB & Hq & C). destruct (ty_small _ _ HG HA) as (a1 & Ha1 & Hsm).
        assert (HG' : type_ctx sg (A :: G)) by (constructor; assumption).
        assert (Ht : isty q a) by (eapply isty_conv; [exact Ha|apply conv_sym; exact C]).
        assert (Hsn : sn (sub s (Pi A B))).
        { cbn [sub]. apply sn_pi; [eapply RED_sn, (IHA G Typ); [exact HG|exact HA|apply isty_shape; constructor|exact Hs]|].
          apply (sn_unsub sg (scons (Var 0) Var)), (RED_sn sg a). change (RED a (subst1 (Var 0) (sub (up s) B))). rewrite <- sub_scons_up.
          apply (IHB (A :: G) q); [exact HG'|exact HB|exact Ht|]. eapply env_cons; [exact Hs|exact Ha1|apply RED_var; exact Hsm]. }
        destruct (wt_SH sg Hcr Hpi sg (sig_mono_refl sg) Hsh _ _ _ H' (tc_small _ HG)) as (a2 & Ha2 & HS). rewrite (isty_fun _ Hcr _ _ _ Ha2 Ha) in HS.
        specialize (HS s). destruct Hq as [-> | ->].
        + rewrite (isty_fun _ Hcr _ _ _ Ht (isty_shape _ _ _ (sh_typ sg))) in *. split; [exact Hsn|exact HS].
        + rewrite (isty_fun _ Hcr _ _ _ Ht (isty_shape _ _ _ (sh_kind sg))) in *. split; [exact Hsn|exact HS].
      - intros X t u _ IH _ IHu Hu G T a s HG H Ha Hs. destruct (shape_app _ _ _ _ HG H) as (A & B & a1 & b & H1 & H2 & H3 & H4 & H5).
        rewrite (isty_fun _ Hcr _ _ _ Ha H5). destruct (IH G _ _ s HG H1 H3 Hs) as (l & us & El & Eu & HF & E). cbn [sub]. rewrite E, <- apps_snoc.
        apply (Hcall (l ++ [a1])); [rewrite arrs_app; exact El|exact Eu| |apply Hs; exact Hu].
        apply Forall2_app; [exact HF|]. constructor; [|constructor]. exact (IHu G _ _ s HG H2 H4 Hs).
      - intros X G T a s HG H Ha Hs. destruct (shape_const _ _ _ _ H Ha) as (A & HA & Ha'). exists [], []. cbn. rewrite (Hf _ _ HA Ha'). repeat split; constructor.
      - intros X j t u _ IHt _ IHu G T a s HG H Ha Hs. destruct (shape_app _ _ _ _ HG H) as (A & B & a1 & b & H1 & H2 & H3 & H4 & H5).
        rewrite (isty_fun _ Hcr _ _ _ Ha H5). destruct (IHt G _ _ s HG H1 H3 Hs) as (l & us & El & Eu & HF & E).
        exists (l ++ [a1]), (us ++ [sub s u]). split; [rewrite arrs_app; exact El|]. split; [rewrite app_length; cbn; lia|].
        split; [apply Forall2_app; [exact HF|constructor; [exact (IHu G _ _ s HG H2 H4 Hs)|constructor]]|]. cbn [sub]. rewrite E, apps_snoc. reflexivity.
    Qed.
  End Guarded.

  (** *** Terms that get smaller by reduction or by taking parts of applications *)
  Definition part (v u : tm) : Prop := red u v \/ exists w, u = App v w \/ u = App w v.
  Definition smaller : tm -> tm -> Prop := clos_trans tm part.
  Lemma acc_part u : sn u -> Acc part u.
  Proof.
    intros H. induction H as [u _ IH]. revert IH.
    induction u as [| |c|n|u1 IH1 u2 IH2|u1 _ u2 _|u1 _|u1 _ u2 _]; intros IH; constructor; intros v [Hv|(w & Hv)]; auto; try (destruct Hv; discriminate).
    destruct Hv as [E|E]; injection E as -> ->.
    - apply IH1. intros v' Hv'. apply (Acc_inv (IH _ (red_appl _ _ _ _ Hv'))). right. exists w. auto.
    - apply IH2. intros v' Hv'. apply (Acc_inv (IH _ (red_appr _ _ _ _ Hv'))). right. exists w. auto.
  Qed.
  Lemma acc_smaller u : sn u -> Acc smaller u.
  Proof. intros H. apply Acc_clos_trans, acc_part, H. Qed.
  Lemma smaller_trans u v w : smaller u v -> smaller v w -> smaller u w.
  Proof. apply t_trans. Qed.
  Lemma smaller_head us : forall t, us = [] \/ smaller t (apps t us).
  Proof.
    induction us as [|u us IH]; intros t; [auto|]. right. cbn [apps].
    assert (H : smaller t (App t u)) by (apply t_step; right; eauto). destruct (IH (App t u)) as [->|H']; [exact H|eapply t_trans; eassumption].
  Qed.
  Lemma smaller_arg u us : In u us -> forall t, smaller u (apps t us).
  Proof.
    induction us as [|v us IH]; [intros []|]. intros [->|H] t; cbn [apps]; [|auto].
    assert (X : smaller u (App t u)) by (apply t_step; right; eauto). destruct (smaller_head us (App t u)) as [->|H']; [exact X|eapply t_trans; eassumption].
  Qed.
  Lemma sn_smaller u : sn u -> forall v, smaller v u -> sn v.
  Proof.
    intros Hu v H. revert Hu. induction H as [v u H|v w u _ IH1 _ IH2]; [|auto]. intros Hu. destruct H as [H|(w & H)]; [eapply sn_step; eassumption|].
    destruct H as [->| ->].
    - remember (App v w) as z eqn:E. revert v E. induction Hu as [z _ IH]. intros v ->. constructor. intros v' Hv'. eapply IH; [apply red_appl; exact Hv'|reflexivity].
    - remember (App w v) as z eqn:E. revert v E. induction Hu as [z _ IH]. intros v ->. constructor. intros v' Hv'. eapply IH; [apply red_appr; exact Hv'|reflexivity].
  Qed.
  Lemma inst_arg s q qs ts : Forall2 (inst s) qs ts -> In q qs -> exists u, In u ts /\ inst s q u.
  Proof.
    intros HF Hq. induction HF as [|p u ps us H _ IH]; [destruct Hq|]. destruct Hq as [->|Hq]; [exists u; split; [left; reflexivity|exact H]|].
    destruct (IH Hq) as (v & ? & ?). exists v. split; [right; assumption|assumption].
  Qed.
  Lemma inst_subpat s p q : subpat p q -> forall t, inst s q t -> exists u, inst s p u /\ (u = t \/ smaller u t).
  Proof.
    induction 1 as [|c qs q Hq _ IH]; intros t Ht; [eauto|]. inversion Ht as [| |? ? ts HF]; subst.
    destruct (inst_arg s q qs ts HF Hq) as (u & Hu & Hqu). destruct (IH _ Hqu) as (v & Hv & Hs). exists v. split; [exact Hv|]. right.
    destruct Hs as [->|Hs]; [apply smaller_arg; exact Hu|eapply t_trans; [exact Hs|apply smaller_arg; exact Hu]].
  Qed.
  Lemma inst_part s p : forall t x, inst s p t -> In x (pat_vars p) -> s x = t \/ smaller (s x) t.
  Proof.
    induction p as [c ps IH|m|] using pat_ind'; intros t x Hi Hx; inversion Hi as [| |? ? ts HF]; subst; cbn in Hx.
    - right. apply in_flat_map in Hx as (q & Hq & Hx). rewrite Forall_forall in IH.
      assert (exists u, In u ts /\ inst s q u) as (u & Hu & Hqu).
      { clear - HF Hq. induction HF as [|p u ps us H _ IH]; [destruct Hq|]. destruct Hq as [->|Hq]; [exists u; split; [left; reflexivity|exact H]|].
        destruct (IH Hq) as (v & ? & ?). exists v. split; [right; assumption|assumption]. }
      destruct (IH _ Hq _ _ Hqu Hx) as [->|H]; [apply smaller_arg; exact Hu|eapply t_trans; [exact H|apply smaller_arg; exact Hu]].
    - destruct Hx as [->|[]]. auto.
    - destruct Hx.
  Qed.

  (** *** Patterns *)
  Lemma shape_apps G t ls : forall T, type_ctx sg G -> wt G (apps t ls) T ->
    exists A l b, wt G t A /\ isty A (arrs l b) /\ isty T b /\ Forall2 (fun u a => exists B, wt G u B /\ isty B a) ls l.
  Proof.
    induction ls as [|u ls IH] using rev_ind; intros T HG H.
    - destruct (has_shape _ _ _ HG H) as (a & Ha). exists T, [], a. auto.
    - rewrite apps_snoc in H. destruct (shape_app _ _ _ _ HG H) as (A & B & a & b & H1 & H2 & H3 & H4 & H5).
      destruct (IH _ HG H1) as (A0 & l & b0 & K1 & K2 & K3 & K4). rewrite (isty_fun _ Hcr _ _ _ K3 H3) in K2.
      exists A0, (l ++ [a]), b. split; [exact K1|]. split; [rewrite arrs_app; exact K2|]. split; [exact H5|]. apply Forall2_app; [exact K4|]. constructor; [eauto|constructor].
  Qed.
  Lemma var_shape G n A T a : type_ctx sg G -> nth_error G n = Some A -> wt G (Var n) T -> isty T a -> isty A a.
  Proof.
    intros HG HA H Ha. apply wgen_var in H as (A' & HA' & C). rewrite HA in HA'. injection HA' as <-.
    pose proof (tc_small _ HG) as Hsm. unfold small_ctx in Hsm. rewrite Forall_forall in Hsm. destruct (Hsm _ (nth_error_In _ _ HA)) as (b & Hb & _).
    assert (E : isty T b) by (eapply isty_conv; [apply isty_ren; exact Hb|exact C]). rewrite (isty_fun _ Hcr _ _ _ Ha E). exact Hb.
  Qed.
  Lemma data_shape G p : data sg p -> no_joker p -> forall c ps l T, p = PatSymb c ps -> type_ctx sg G -> inst Var p l -> wt G l T ->
    forall x A, In x (pat_vars p) -> nth_error G x = Some A -> isty A o.
  Proof.
    induction p as [c ps IH|m|] using pat_ind'; intros Hd Hj c' ps' l T E HG Hi Hl x A Hx HA; try discriminate. clear E c' ps'.
    inversion Hi as [| |? ? ts HF]; subst. destruct (shape_apps _ _ _ _ HG Hl) as (B & tl & b & K1 & K2 & _ & K4).
    inversion Hd as [| |? C ? Hc HC Hfo Hds]; subst. inversion Hj as [|? ? Hjs]; subst.
    destruct (shape_const _ _ _ _ K1 K2) as (C' & HC' & HsC). rewrite HC in HC'. injection HC' as <-.
    destruct (first_order_shape _ _ Hfo) as (tl' & HsC' & Htl').
    assert (Ho : Forall (eq o) tl).
    { pose proof (isty_fun _ Hcr _ _ _ HsC HsC') as E. clear - E Htl'. revert tl' E Htl'. induction tl as [|a tl IH]; [constructor|].
      intros [|a' tl']; cbn; [discriminate|]. intros [= -> E] H. inversion H; subst. constructor; [reflexivity|eauto]. }
    cbn in Hx. clear K1 K2 HsC Hl Hi Hd Hj. revert ts tl HF K4 Ho. induction ps as [|p ps IHps]; intros ts tl HF K4 Ho; [destruct Hx|].
    inversion HF as [|? u ? us Hu Hus]; subst. inversion K4 as [|? a ? as' (B' & HB1 & HB2) Has]; subst. inversion Ho; subst.
    inversion IH as [|? ? IHp IHr]; subst. inversion Hds as [|? ? Hd1 Hd2]; subst. inversion Hjs as [|? ? Hj1 Hj2]; subst.
    cbn in Hx. apply in_app_or in Hx. destruct Hx as [Hx|Hx]; [|eapply (IHps IHr Hx Hd2 Hj2); eassumption].
    destruct p as [d qs|m|].
    - eapply IHp; try eassumption. reflexivity.
    - cbn in Hx. destruct Hx as [->|[]]. inversion Hu; subst. eapply var_shape; eassumption.
    - destruct Hx.
  Qed.

  (** *** A symbol with rules *)
  Lemma red_call f us v : red (apps (Const f) us) v ->
    (exists us', lstep red us us' /\ v = apps (Const f) us') \/
    (exists r s us1 us2, us = us1 ++ us2 /\ rule_of sg f r /\ Forall2 (inst s) (sr_args r) us1 /\ v = apps (sub s (strip (sr_rhs r))) us2).
  Proof.
    revert v. induction us as [|u us IH] using rev_ind; intros v H.
    - apply red_inv in H. destruct H as (c & r & s & ts & H1 & H2 & E & ->). destruct (apps_const_inj f [] c ts E) as [<- <-].
      right. exists r, s, [], []. auto.
    - rewrite apps_snoc in H. apply red_inv in H. destruct H as [(b & E & _)|[(t' & H & ->)|[(u' & H & ->)|H]]].
      + destruct us using rev_ind; cbn in E; [discriminate|]. rewrite apps_snoc in E. discriminate.
      + destruct (IH _ H) as [(us' & H1 & ->)|(r & s & us1 & us2 & -> & H1 & H2 & ->)].
        * left. exists (us' ++ [u]). split; [apply lstep_snoc; exact H1|symmetry; apply apps_snoc].
        * right. exists r, s, us1, (us2 ++ [u]). split; [symmetry; apply app_assoc|]. split; [exact H1|]. split; [exact H2|]. symmetry. apply apps_snoc.
      + left. exists (us ++ [u']). split; [apply lstep_last; exact H|symmetry; apply apps_snoc].
      + destruct H as (c & r & s & ts & H1 & H2 & E & ->). rewrite <- apps_snoc in E. destruct (apps_const_inj f _ c ts E) as [<- <-].
        right. exists r, s, (us ++ [u]), []. rewrite app_nil_r. auto.
  Qed.
  Lemma lstep_RED l us us' : lstep red us us' -> Forall2 RED l us -> Forall2 RED l us'.
  Proof.
    intros H. revert l. induction H as [t u ts H|t ts ts' _ IH]; intros l HF; inversion HF; subst; constructor; auto. eapply RED_red; eassumption.
  Qed.
  Lemma RED_complete l : forall b t, Forall small l -> (forall ws, Forall2 RED l ws -> RED b (apps t ws)) -> RED (arrs l b) t.
  Proof.
    induction l as [|a l IH]; intros b t Hs H; cbn [arrs]; [apply (H []); constructor|]. inversion Hs; subst.
    assert (X : forall u, RED a u -> RED (arrs l b) (App t u)).
    { intros u Hu. apply IH; [assumption|]. intros ws Hw. apply (H (u :: ws)). constructor; assumption. }
    split; [|exact X]. eapply (sn_smaller (App t (Var 0))); [eapply RED_sn, X, RED_var; assumption|]. apply t_step. right. eauto.
  Qed.
  Lemma RED_list_sn l us : Forall2 RED l us -> Forall sn us.
  Proof. induction 1; constructor; [eapply RED_sn; eassumption|assumption]. Qed.

  Lemma sn_lists us : Forall sn us -> Acc (fun l' l => lstep red l l') us.
  Proof.
    intros H. apply lstep_acc. induction H as [|u us Hu _ IH]; constructor; [|exact IH]. clear IH. induction Hu as [u _ IH]. constructor. exact IH.
  Qed.

  Section Symbol.
    Variables (f n k : nat) (Af : tm) (af : ty).
    Hypothesis HAf : sg_type sg f = Some Af.
    Hypothesis Haf : isty (strip Af) af.
    Hypothesis Hsm : small af.
    Hypothesis Hlt : forall d A, d < f -> sg_type sg d = Some A -> exists a, isty (strip A) a /\ RED a (Const d).
    Hypothesis Hrules : forall r0, rule_of sg f r0 -> length (sr_args r0) = n /\ exists r, common_type sg f r /\ usable r /\ length (sr_args r) = n /\ Forall (data sg) (sr_args r) /\
      guarded f k (inner (sr_args r) k) (strip (sr_rhs r)) /\
      forall s ts, Forall2 (inst s) (sr_args r0) ts -> exists s', Forall2 (inst s') (sr_args r) ts /\ sub s (strip (sr_rhs r0)) = sub s' (strip (sr_rhs r)).

    Lemma rule_shape r : common_type sg f r -> exists l b D L T, length D = sr_vars r /\ type_ctx sg D /\ Forall2 (inst Var) (sr_args r) L /\ wt D (strip (sr_rhs r)) T /\
      isty T b /\ af = arrs l b /\ Forall2 (fun u a => exists B, wt D u B /\ isty B a) L l.
    Proof.
      intros (_ & D & l0 & T & H1 & H2 & H3 & H4 & H5). inversion H3 as [| |? ? L HL]; subst. destruct (shape_apps _ _ _ _ H2 H4) as (A & l & b & K1 & K2 & K3 & K4).
      destruct (shape_const _ _ _ _ K1 K2) as (A' & HA' & HA). rewrite HAf in HA'. injection HA' as <-.
      exists l, b, D, L, T. repeat split; try assumption. exact (isty_fun _ Hcr _ _ _ Haf HA).
    Qed.
    Lemma RED_call l b : length l = n -> af = arrs l b -> forall us, Forall2 RED l us -> RED b (apps (Const f) us).
    Proof.
      intros Hn El. destruct (small_arrs l b) as [Hsl Hsb]; [rewrite <- El; exact Hsm|].
      assert (X : forall m, Acc smaller m -> forall us, Acc (fun l' l => lstep red l l') us -> nth k us Typ = m -> Forall2 RED l us -> RED b (apps (Const f) us)).
      2:{ intros us Hus. pose proof (RED_list_sn _ _ Hus) as Hs. apply (X (nth k us Typ)); [|apply sn_lists; exact Hs|reflexivity|exact Hus].
          apply acc_smaller. destruct (Nat.lt_ge_cases k (length us)) as [Hk|Hk].
          - rewrite Forall_forall in Hs. apply Hs, nth_In, Hk.
          - rewrite nth_overflow by exact Hk. constructor. intros u Hu. apply red_inv in Hu. contradiction. }
      intros m Hm. induction Hm as [m _ IHm]. intros us Hus. induction Hus as [us Hus IHus]. intros Em HF.
      assert (Hlen : length us = n) by (rewrite <- Hn; symmetry; eapply Forall2_len; exact HF).
      apply RED_neutral; [| |left; exact Hsb].
      - split; [intros t E; destruct us using rev_ind; cbn in E; [discriminate|rewrite apps_snoc in E; discriminate]|].
        intros c r Hc Hr. rewrite head_apps in Hc. cbn in Hc. injection Hc as <-. rewrite nargs_apps. cbn. destruct (Hrules r Hr) as (E & _). lia.
      - intros v Hv. apply red_call in Hv. destruct Hv as [(us' & Hst & ->)|(r0 & s0 & us1 & us2 & -> & Hr & Hi0 & ->)].
        + pose proof (lstep_RED _ _ _ Hst HF) as HF'. destruct (lstep_nth _ _ _ Hst k Typ) as [E|E].
          * apply IHus; [exact Hst|congruence|exact HF'].
          * apply (IHm (nth k us' Typ)); [apply t_step; left; rewrite <- Em; exact E|apply Hus; exact Hst|reflexivity|exact HF'].
        + destruct (Hrules r0 Hr) as (Hlr0 & r & Hty & Hus' & Hlr & Hda & Hgd & Hinst). destruct (Hinst s0 us1 Hi0) as (s & Hi & ->).
          assert (us2 = []) as ->.
          { apply Forall2_len in Hi. rewrite app_length in Hlen. destruct us2; [reflexivity|cbn in Hlen; lia]. }
          rewrite app_nil_r in *. cbn [apps]. pose proof Hty as (Hj & _).
          destruct (rule_shape r Hty) as (l' & b' & D & L & T & K1 & K2 & K3 & K4 & K5 & K6 & K7).
          assert (El' : length l' = n) by (rewrite <- Hlr; apply Forall2_len in K3; apply Forall2_len in K7; congruence).
          rewrite K6 in El. destruct (arrs_inj _ _ _ _ El) as [-> ->]; [congruence|].
          apply (proj1 (guarded_RED f k af (fun v => smaller v m /\ k < n)
            ltac:(intros A a HA Ha; rewrite HAf in HA; injection HA as <-; exact (isty_fun _ Hcr _ _ _ Ha Haf)) Hlt
            ltac:(intros l0 b0 us v E Eu HF0 [Hv Hk];
                  assert (Ell : length l0 = S k) by (apply Forall2_len in HF0; rewrite app_length in HF0; cbn in HF0; lia);
                  rewrite K6 in E; destruct (arrs_split _ _ _ _ E) as (l2 & -> & ->); [lia|];
                  apply Forall_app in Hsl as [_ Hsl2]; apply RED_complete; [exact Hsl2|]; intros ws Hw; rewrite <- apps_app;
                  pose proof (Forall2_app HF0 Hw) as HFw;
                  apply (IHm v); [exact Hv|apply sn_lists; exact (RED_list_sn _ _ HFw)| |exact HFw];
                  rewrite <- app_assoc, app_nth2 by lia; rewrite Eu, Nat.sub_diag; reflexivity)) _ _ Hgd D T b s K2 K4 K5).
          split.
          * (* the variables are reducible *)
            intros x A a HA Ha. assert (Hx : In x (flat_map pat_vars (sr_args r))).
            { apply Hus'. rewrite <- K1. apply nth_error_Some. congruence. }
            clear Hgd Hlr K4 K5 K6 El El' Em IHus Hus Hlen Hn IHm Hty Hi0 Hinst Hlr0 Hus'. revert us1 L l Hi K3 K7 HF Hsl Hj Hda Hx.
            induction (sr_args r) as [|p ps IHp]; intros us1 L l Hi K3 K7 HF Hsl Hj Hda Hx; [destruct Hx|].
            inversion Hi as [|? u ? us Hu Hus0]; subst. inversion K3 as [|? w ? ws Hw Hws]; subst. inversion K7 as [|? al ? ls (B & HB1 & HB2) Hls]; subst.
            inversion HF; subst. inversion Hsl; subst. inversion Hj; subst. inversion Hda; subst.
            cbn in Hx. apply in_app_or in Hx. destruct Hx as [Hx|Hx]; [|eapply IHp; eassumption]. destruct p as [d qs|m0|].
            -- assert (Ho : isty A o) by (eapply (data_shape D (PatSymb d qs)); try eassumption; reflexivity).
               rewrite (isty_fun _ Hcr _ _ _ Ha Ho). cbn. destruct (inst_part s (PatSymb d qs) u x Hu Hx) as [->|Hs]; [eapply RED_sn; eassumption|].
               eapply sn_smaller; [eapply RED_sn; eassumption|exact Hs].
            -- cbn in Hx. destruct Hx as [->|[]]. inversion Hu; subst. inversion Hw; subst.
               assert (E : isty A al) by (eapply var_shape; eassumption). rewrite (isty_fun _ Hcr _ _ _ Ha E). assumption.
            -- destruct Hx.
          * (* calls are for smaller arguments *)
            intros w (c & qs & q & p & Hp & Hq & Hsp & Hjp & Hw). assert (Hk : k < n) by (rewrite <- Hlr; apply nth_error_Some; congruence). split; [|exact Hk].
            assert (Hu : exists u, nth k us1 Typ = u /\ inst s (PatSymb c qs) u).
            { clear - Hi Hp. revert k Hp. induction Hi as [|p' u ps us H _ IH]; intros [|k]; cbn; try discriminate; [intros [= ->]; eauto|apply IH]. }
            destruct Hu as (u & Eu & Hu). rewrite Em in Eu. subst u. inversion Hu as [| |? ? ts Hts]; subst.
            destruct (inst_arg s q qs ts Hts Hq) as (u & Hin & Hqu). destruct (inst_subpat s p q Hsp u Hqu) as (v & Hv & Hpv).
            rewrite (winst_sub s p Hjp w v Hw Hv). destruct Hpv as [->|H']; [apply smaller_arg; exact Hin|eapply t_trans; [exact H'|apply smaller_arg; exact Hin]].
    Qed.
    Lemma RED_fun : (exists r, rule_of sg f r) -> RED af (Const f).
    Proof.
      intros [r0 Hr]. destruct (Hrules r0 Hr) as (_ & r & Hty & _ & Hlr & _). destruct (rule_shape r Hty) as (l & b & D & L & T & _ & _ & K3 & _ & _ & K6 & K7).
      assert (El : length l = n) by (rewrite <- Hlr; apply Forall2_len in K3; apply Forall2_len in K7; congruence).
      rewrite K6. apply RED_complete; [apply (small_arrs l b); rewrite <- K6; exact Hsm|]. apply RED_call; assumption.
    Qed.
  End Symbol.
End Fun.

(** ** Variables for jokers *)
Lemma fill_data sg f p : forall q, fill f p q -> data sg p -> data sg q.
Proof.
  induction p as [c ps IH|x|] using pat_ind'; intros q H Hd; inversion H as [| |? ? qs HF]; subst; try constructor.
  inversion Hd as [| |? A ? H1 H2 H3 H4]; subst. apply (data_symb _ _ A); try assumption. clear - IH HF H4. induction HF; inversion IH; inversion H4; subst; constructor; auto.
Qed.
Lemma fill_no_joker f p : forall q, fill f p q -> no_joker q.
Proof.
  induction p as [c ps IH|x|] using pat_ind'; intros q H; inversion H as [| |? ? qs HF]; subst; try constructor.
  clear H. induction HF; inversion IH; subst; constructor; auto.
Qed.
Lemma fill_subpat f p p0 : subpat p0 p -> forall q, fill f p q -> exists q0, subpat q0 q /\ fill f p0 q0.
Proof.
  induction 1 as [|c ps p Hp _ IH]; intros q Hq; [exists q; split; [constructor|exact Hq]|]. inversion Hq as [| |? ? qs HF]; subst.
  assert (exists q', In q' qs /\ fill f p q') as (q' & H1 & H2).
  { clear - HF Hp. induction HF as [|a b ps qs Hab _ IH]; [destruct Hp|]. destruct Hp as [->|Hp]; [exists b; split; [left; reflexivity|exact Hab]|].
    destruct (IH Hp) as (q' & ? & ?). exists q'. split; [right; assumption|assumption]. }
  destruct (IH _ H2) as (q0 & H3 & H4). exists q0. split; [eapply subpat_arg; eassumption|exact H4].
Qed.
Lemma fill_term f p : forall q u, fill f p q -> no_joker p -> inst Var p u -> inst Var q (ren f u).
Proof.
  induction p as [c ps IH|x|] using pat_ind'; intros q u H Hj Hu; inversion H as [| |? ? qs HF]; subst; inversion Hu as [| |? ? us HU]; subst; inversion Hj as [|? ? Hjs]; subst.
  - rewrite ren_apps. cbn [ren]. constructor. clear - IH HF Hjs HU. revert us HU. induction HF as [|p q ps qs Hq _ IHF]; intros us HU; inversion HU; inversion IH; inversion Hjs; subst; cbn [map]; constructor; auto.
  - constructor.
Qed.
Lemma fill_inner f ps qs k u : Forall2 (fill f) ps qs -> inner ps k u -> inner qs k (ren f u).
Proof.
  intros HF (c & ps' & p & p0 & H1 & H2 & H3 & H4 & H5).
  assert (exists q, nth_error qs k = Some q /\ fill f (PatSymb c ps') q) as (q & Hq & Hf).
  { clear - HF H1. revert k H1. induction HF as [|a b ps qs Hab _ IH]; intros [|k]; cbn; try discriminate; [intros [= ->]; eauto|apply IH]. }
  inversion Hf as [| |? ? qs' HF']; subst.
  assert (exists q', In q' qs' /\ fill f p q') as (q' & H6 & H7).
  { clear - HF' H2. induction HF' as [|a b ps qs Hab _ IH]; [destruct H2|]. destruct H2 as [->|Hp]; [exists b; split; [left; reflexivity|exact Hab]|].
    destruct (IH Hp) as (q' & ? & ?). exists q'. split; [right; assumption|assumption]. }
  destruct (fill_subpat f p p0 H3 q' H7) as (q0 & H8 & H9). exists c, qs', q', q0. repeat split; try assumption; [eapply fill_no_joker; exact H9|eapply fill_term; eassumption].
Qed.
Lemma guarded_ren f k :
  (forall X t, guarded f k X t -> forall (Y : tm -> Prop) g, (forall u, X u -> Y (ren g u)) -> guarded f k Y (ren g t)) /\
  (forall X j t, partial f k X j t -> forall (Y : tm -> Prop) g, (forall u, X u -> Y (ren g u)) -> partial f k Y j (ren g t)).
Proof.
  assert (U : forall (X Y : tm -> Prop) g, (forall u, X u -> Y (ren g u)) -> forall u, under X u -> under Y (ren (up_ren g) u)).
  { intros X Y g H u (v & -> & Hv). exists (ren g v). split; [|auto]. unfold lift. rewrite !ren_ren. apply ren_ext. intros n. rewrite Nat.add_comm. cbn. lia. }
  apply guarded_mutind; intros; cbn [ren]; try (constructor; auto; fail).
  - constructor. apply H. apply U. exact H0.
  - constructor; [auto|]. apply H0. apply U. exact H1.
Qed.

(** ** Signatures *)
(** ** Signatures *)
Section Final.
  Variable sg : sig.
  Hypothesis Hb : built sg.
  Hypothesis Ho : complete sg.
  Variables n k : nat -> nat.
  Hypothesis Hst : forall c, (forall r, rule_of sg c r -> sr_args r = []) \/ forall r, rule_of sg c r -> structural_rule sg c (n c) (k c) r.

  Lemma final_cr : church_rosser sg.
  Proof. apply complete_church_rosser; [exact Ho|apply built_eta; exact Hb]. Qed.
  Lemma final_pi : pi_injective sg.
  Proof. apply church_rosser_pi, final_cr. Qed.
  Lemma final_shapes c A : sg_type sg c = Some A -> exists a, isty sg (strip A) a /\ SH sg a (Const c) /\ (small a \/ big a).
  Proof.
    apply (chain sg final_cr final_pi); [|exact Hb|apply sig_mono_refl|auto].
    intros d r Hr. destruct (Hst d) as [E|E]; [left; apply E; exact Hr|right; apply (E _ Hr)].
  Qed.
  Lemma final_const c : forall A, sg_type sg c = Some A -> exists a, isty sg (strip A) a /\ RED sg a (Const c).
  Proof.
    pattern c. apply lt_wf_ind. clear c. intros c IH A HA. destruct (final_shapes c A HA) as (a & Ha & _ & Hs). exists a. split; [exact Ha|].
    destruct (rule_dec sg c) as [[r Hr]|Hc]; [|apply RED_const; assumption].
    assert (Hlt : forall d A, d < c -> sg_type sg d = Some A -> exists a, isty sg (strip A) a /\ RED sg a (Const d)) by eauto.
    assert (Hdef : (forall r, rule_of sg c r -> sr_args r = []) -> RED sg a (Const c)).
    { intros Hnil. apply RED_delta; [eauto|]. intros r' (l & Hl & Hin & Hu).
      destruct (built_rule sg Hb c l r' Hl Hin) as [(t & A' & -> & HA' & Ht & Hg)|[Hne Hty]]; [|destruct Hne; apply Hnil; exists l; auto].
      rewrite HA in HA'. injection HA' as <-. split; [reflexivity|]. intros s. cbn [sr_rhs].
      apply (proj1 (guarded_RED sg final_cr final_pi final_shapes c 0 a (fun _ => False)
        ltac:(intros B b HB Hb'; rewrite HA in HB; injection HB as <-; exact (isty_fun _ final_cr _ _ _ Hb' Ha)) Hlt ltac:(intros; contradiction)) (fun _ => False) _ (Hg 0 (fun _ => False)) [] (strip A)); [constructor|exact Ht|exact Ha|].
      split; [intros x ? ?; destruct x; discriminate|auto]. }
    destruct (Hst c) as [Hnil|Hrec]; [exact (Hdef Hnil)|]. destruct (Nat.eq_dec (n c) 0) as [En|En].
    { apply Hdef. intros r' Hr'. destruct (Hrec _ Hr') as (_ & El & _). rewrite En in El. destruct (sr_args r'); [reflexivity|discriminate]. }
    destruct (Hrec _ Hr) as ((A' & HA' & Htg) & _). rewrite HA in HA'. injection HA' as <-.
    apply (RED_fun sg final_cr final_pi final_shapes c (n c) (k c) A a HA Ha); [|exact Hlt| |eauto].
    - eapply target_small; try eassumption; [apply final_cr|apply final_pi].
    - intros r' Hr'. destruct (Hrec _ Hr') as (_ & El & Hda & Hgd). split; [exact El|]. pose proof Hr' as (l' & Hl' & Hin' & Hu').
      destruct (built_rule sg Hb c l' r' Hl' Hin') as [(t & B & -> & _)|[_ (r2 & Hn & Hty)]]; [cbn in El; congruence|].
      exists r2. split; [exact Hty|]. pose proof (named_inst _ _ Hn Hu') as Hinst.
      destruct Hn as [->|(_ & _ & Hu2 & _ & f & Hf & E)].
      + split; [exact Hu'|]. split; [exact El|]. split; [exact Hda|]. split; [exact Hgd|]. intros s ts Hi. exists s. auto.
      + split; [exact Hu2|]. split; [rewrite <- El; symmetry; eapply Forall2_len; exact Hf|]. split.
        { clear - Hf Hda. induction Hf; inversion Hda; subst; constructor; [eapply fill_data; eassumption|auto]. }
        split; [rewrite E, strip_ren; apply (proj1 (guarded_ren c (k c)) _ _ Hgd); intros u; apply fill_inner; exact Hf|].
        intros s ts Hi. destruct (Hinst s ts Hi) as (s' & _ & H1 & H2). eauto.
  Qed.
  Lemma final_sn : normalising sg.
  Proof. intros G t A. exact (base_sn sg final_cr final_pi sg (sig_mono_refl sg) (fun c A => final_const c A) G t A). Qed.
End Final.

Theorem structural_normalising sg : built sg -> structural sg -> church_rosser sg /\ normalising sg.
Proof.
  intros Hb (_ & Ho & n & k & H). split; [apply final_cr; assumption|]. exact (final_sn sg Hb Ho n k H).
Qed.
