(** * Lemmas for C84: interpretations of symbols *)

From Verif Require Import Base LibMono ModelTerm ModelGctx ModelCommand ModelSubst ModelReduce ModelInfer ModelSyntax ModelSymbols ModelShare ModelLex ModelParse ModelMake ModelProcess ModelMain
  SpecTerm SpecConv SpecConvFacts SpecRed SpecSN SpecType SpecQuery SpecSyntax SpecSymbols SpecShare SpecProcess SpecDomain SpecDerive SpecDecide SpecMake SpecParse SpecProgram SpecWhole SpecDef SpecInterp
  RedConfl Erase DomFacts DeriveFacts MainKernel MainGctx MainProcess MainRun MainVerify MainTyped MainProgTotal MainDecide MainProgram SnDef MainWhole MainSem SamplesProg MainAlpha MainAlphaProg MainEmbedProg MainOrder.

(** ** Closed terms *)
Lemma ren_closed t : forall k r, scoped k t -> (forall m, m < k -> r m = m) -> ren r t = t.
Proof.
  induction t; cbn; intros k r H Hr; try reflexivity; try (destruct H as [H1 H2]); f_equal; eauto; try (eapply IHt2 || eapply IHt); try eassumption; intros [|m] Hm; cbn; auto; rewrite Hr; lia.
Qed.
Lemma sub_id t : sub Var t = t.
Proof.
  assert (X : forall t f, (forall n, f n = Var n) -> sub f t = t); [|apply X; reflexivity]. clear t.
  induction t; cbn; intros f Hf; f_equal; auto; (apply IHt2 || apply IHt); intros [|n]; cbn; rewrite ?Hf; reflexivity.
Qed.
Lemma sub_closed t f : scoped 0 t -> sub f t = t.
Proof. intros H. rewrite (sub_scoped t 0 f Var H); [apply sub_id|]. intros m Hm. lia. Qed.
Lemma strip_scoped t : forall k, scoped k t -> scoped k (strip t).
Proof. induction t; cbn; intros k H; intuition auto. Qed.
Lemma annotations_less t : forall b, annotations true t -> annotations b t.
Proof. induction t; cbn; intros [|] H; intuition auto. Qed.

Section Put.
  Variable s : nat -> tm.
  Hypothesis Hs : forall c, scoped 0 (s c).
  Lemma put_ren t : forall r, put s (ren r t) = ren r (put s t).
  Proof. induction t; cbn; intros r; f_equal; auto. symmetry. apply (ren_closed _ 0); [apply Hs|lia]. Qed.
  Lemma put_sub t : forall f, put s (sub f t) = sub (fun n => put s (f n)) (put s t).
  Proof.
    assert (U : forall f n, put s (up f n) = up (fun n => put s (f n)) n) by (intros f [|n]; cbn; [reflexivity|apply put_ren]).
    induction t; cbn; intros f; f_equal; auto; try (rewrite IHt2 || rewrite IHt; apply sub_ext; apply U). symmetry. apply sub_closed. apply Hs.
  Qed.
  Lemma put_subst1 u t : put s (subst1 u t) = subst1 (put s u) (put s t).
  Proof. unfold subst1. rewrite put_sub. apply sub_ext. intros [|n]; reflexivity. Qed.
  Lemma put_lift n t : put s (lift n t) = lift n (put s t).
  Proof. apply put_ren. Qed.
End Put.
Lemma put_scoped s : (forall c, scoped 0 (s c)) -> forall t k, scoped k t -> scoped k (put s t).
Proof.
  intros Hs. assert (W : forall t k k', scoped k t -> k <= k' -> scoped k' t).
  { clear. induction t; cbn; intros k k' H L; try (destruct H); repeat split; eauto; try lia; (eapply IHt2 || eapply IHt); try eassumption; lia. }
  induction t; cbn; intros k H; intuition auto. eapply W; [apply Hs|lia].
Qed.
Lemma put_ext s s' t : (forall c, s c = s' c) -> put s t = put s' t.
Proof. intros H. induction t; cbn; f_equal; auto. Qed.
Lemma strip_put s t : strip (put s t) = put (fun c => strip (s c)) (strip t).
Proof. induction t; cbn; f_equal; auto. Qed.
Lemma annotations_put s : (forall c, annotations true (s c)) -> forall t b, annotations b t -> annotations b (put s t).
Proof. intros H. induction t; cbn; intros b Ha; try destruct b; intuition auto. apply annotations_less. apply H. Qed.

(** ** Larger contexts and signatures *)
Lemma wt_append sg G t A D : well_typed sg G t A -> well_typed sg (G ++ D) t A.
Proof. induction 1; try (econstructor; eassumption). constructor. rewrite nth_error_app1; [assumption|]. apply nth_error_Some. congruence. Qed.
Lemma derives_append sg G t A D : derives sg G t A -> derives sg (G ++ D) t A.
Proof.
  induction 1; try (econstructor; eassumption).
  - constructor. rewrite nth_error_app1; [assumption|]. apply nth_error_Some. congruence.
  - eapply d_lam; [assumption|assumption|apply (wt_append _ (_ :: _)); eassumption|assumption].
  - eapply d_ulam; [apply wt_append; eassumption|assumption|apply (wt_append _ (_ :: _)); eassumption|assumption].
  - eapply d_conv; [eassumption|assumption|apply wt_append; eassumption|assumption].
Qed.
Lemma derives_mono sg sg' G t A : sig_mono sg sg' -> derives sg G t A -> derives sg' G t A.
Proof.
  intros M H. induction H.
  - constructor.
  - constructor. apply M. assumption.
  - constructor. assumption.
  - econstructor; eassumption.
  - eapply d_lam; [assumption|assumption|eapply wt_mono; eassumption|assumption].
  - eapply d_ulam; [eapply wt_mono; eassumption|assumption|eapply wt_mono; eassumption|assumption].
  - econstructor; eassumption.
  - eapply d_conv; [eassumption|eapply sig_mono_conv; eassumption|eapply wt_mono; eassumption|assumption].
Qed.

(** ** Signatures *)
Section Morph.
  Variable s : nat -> tm.
  Hypothesis Hs : closed_terms s.
  Let ss c := strip (s c).
  Let Hc : forall c, scoped 0 (s c).
  Proof. intros c. apply Hs. Qed.
  Let Hcs : forall c, scoped 0 (ss c).
  Proof. intros c. apply strip_scoped. apply Hc. Qed.
  Definition morph (sg sg' : sig) : Prop :=
    (forall c A, sg_type sg c = Some A -> derives sg' [] (s c) (strip (put s A))) /\
    (forall c r, rule_of sg c r -> exists t, r = MkSRule 0 [] t /\ scoped 0 t /\ conv sg' (s c) (put s t)) /\ sg_eta sg' = sg_eta sg.
  Lemma put_strips sg' t : conv sg' (put s t) (put ss t).
  Proof.
    eapply conv_trans; [apply conv_strip|]. rewrite strip_put. apply conv_sym. eapply conv_trans; [apply conv_strip|]. rewrite strip_put.
    rewrite (put_ext _ ss (strip t)); [apply conv_refl|]. intros c. unfold ss. apply strip_strip.
  Qed.
  Variables sg sg' : sig.
  Hypothesis M : morph sg sg'.
  Lemma put_conv t u : conv sg t u -> conv sg' (put ss t) (put ss u).
  Proof.
    destruct M as (_ & M2 & M3).
    induction 1; cbn [put]; rewrite ?(put_subst1 ss Hcs), ?(put_lift ss Hcs); eauto using conv.
    - destruct (M2 c r) as (t & -> & Ht & Hr); [exists rs; auto|]. cbn [sr_args sr_rhs] in *. match goal with X : Forall2 _ [] _ |- _ => inversion X; subst end. cbn [apps put].
      rewrite sub_closed by exact Ht. eapply conv_trans; [apply conv_sym, conv_strip|]. eapply conv_trans; [exact Hr|]. apply put_strips.
  Qed.
  Lemma put_sort x : x = Typ \/ x = Kind -> put ss x = x.
  Proof. intros [->| ->]; reflexivity. Qed.
  Lemma put_wt G t A : well_typed sg G t A -> well_typed sg' (map (put ss) G) (put ss t) (put ss A).
  Proof.
    induction 1; cbn [put map] in *.
    - constructor.
    - apply (wt_append _ []). destruct M as [M1 _]. specialize (M1 _ _ H). apply derives_wt in M1. rewrite strip_put in M1. exact M1.
    - rewrite put_lift by exact Hcs. constructor. rewrite nth_error_map, H. reflexivity.
    - rewrite put_subst1 by exact Hcs. econstructor; eassumption.
    - eapply wt_lam; [eassumption|eassumption| |eassumption]. rewrite <- (put_sort s0) by assumption. eassumption.
    - rewrite (put_sort s0) in * by assumption. eapply wt_pi; eassumption.
    - eapply wt_conv; [eassumption|apply put_conv; assumption].
  Qed.
  Lemma put_derives G t A : derives sg G t A -> derives sg' (map (put ss) G) (put s t) (put ss A).
  Proof.
    assert (E : forall t, strip (put s t) = put ss (strip t)) by apply strip_put.
    induction 1; cbn [put map] in *; rewrite <- ?E in *.
    - constructor.
    - apply (derives_append _ []). destruct M as [M1 _]. exact (M1 _ _ H).
    - rewrite put_lift by exact Hcs. constructor. rewrite nth_error_map, H. reflexivity.
    - rewrite put_subst1, <- E by exact Hcs. econstructor; eassumption.
    - eapply d_lam; [eassumption|eassumption| |eassumption]. rewrite E. rewrite <- (put_sort s0) by assumption. apply (put_wt (strip a :: G)). assumption.
    - eapply d_ulam; [apply (put_wt G A Typ); assumption|eassumption| |eassumption]. rewrite <- (put_sort s0) by assumption. apply (put_wt (A :: G)). assumption.
    - rewrite (put_sort s0) in * by assumption. eapply d_pi; eassumption.
    - eapply d_conv; [eassumption|apply put_conv; assumption| |eassumption]. rewrite <- (put_sort s0) by assumption. apply put_wt. assumption.
  Qed.
  Lemma put_derives_nil t A : derives sg [] t (strip A) -> derives sg' [] (put s t) (strip (put s A)).
  Proof. intros H. rewrite strip_put. exact (put_derives [] _ _ H). Qed.
  Lemma put_type A : type_or_kind sg A -> type_or_kind sg' (put s A).
  Proof.
    intros (H1 & x & H2 & H3). split; [apply annotations_put; [intros c; apply Hs|exact H1]|]. exists x. split; [exact H2|]. rewrite <- (put_sort x) by exact H2. exact (put_derives [] _ _ H3).
  Qed.
  Lemma put_checks t A : checks sg t A -> checks sg' (put s t) (put s A).
  Proof. intros (H1 & H2). split; [apply annotations_put; [intros c; apply Hs|exact H1]|]. apply put_derives_nil. exact H2. Qed.
  Lemma put_synthesises t A : synthesises sg t A -> synthesises sg' (put s t) (put s A).
  Proof.
    intros (H1 & H2 & x & H3 & H4). split; [apply annotations_put; [intros c; apply Hs|exact H1]|]. split; [apply put_derives_nil; exact H2|]. exists x. split; [exact H3|].
    rewrite strip_put. rewrite <- (put_sort x) by exact H3. exact (put_wt [] _ _ H4).
  Qed.
End Morph.
Lemma morph_mono s sg sg1 sg2 : morph s sg sg1 -> sig_mono sg1 sg2 -> morph s sg sg2.
Proof.
  intros (M1 & M2 & M3) M. split; [|split].
  - intros c A H. eapply derives_mono; [exact M|]. apply M1. exact H.
  - intros c r H. destruct (M2 _ _ H) as (t & E & Ht & Hr). exists t. split; [exact E|]. split; [exact Ht|]. eapply sig_mono_conv; eassumption.
  - destruct M as (_ & _ & ->). exact M3.
Qed.
(** one more symbol *)
Lemma morph_extend s sg sg' c A rs sg1 : morph s sg sg' -> extends sg c A rs sg1 -> derives sg' [] (s c) (strip (put s A)) ->
  (forall l r, rs = Some l -> In r l -> exists t, r = MkSRule 0 [] t /\ scoped 0 t /\ conv sg' (s c) (put s t)) -> morph s sg1 sg'.
Proof.
  intros (M1 & M2 & M3) (_ & HT & HR & HE) Hd Hr. split; [|split].
  - intros d B. rewrite HT. destruct (Nat.eqb_spec d c) as [->|]; [intros [= <-]; exact Hd|apply M1].
  - intros d r (l & E & Hin & Hu). rewrite HR in E. destruct (Nat.eqb_spec d c) as [->|]; [eapply Hr; eassumption|]. apply M2. exists l. auto.
  - congruence.
Qed.

(** ** Programs *)
Definition ids (vs : list vcmd) : list nat := flat_map (fun v => match v with VIntro c _ => [c] | VRules _ => [] end) vs.
Lemma extends_exists sg c A rs : sg_type sg c = None -> exists sg', extends sg c A rs sg'.
Proof.
  intros H. exists (MkSig (fun d => if d =? c then Some A else sg_type sg d) (fun d => if d =? c then rs else sg_rules sg d) (sg_eta sg)). repeat split; auto.
Qed.
Lemma usable_def t : usable (MkSRule 0 [] t).
Proof. intros m. cbn. lia. Qed.
(** a symbol that is introduced again *)
Lemma morph_again s sg sg' c d A rs sg1 sg1' : (forall e, scoped 0 (s e)) -> morph s sg sg' -> sig_mono sg' sg1' -> s c = Const d -> extends sg c A rs sg1 ->
  extends sg' d (put s A) (option_map (map (fun r => MkSRule (sr_vars r) (sr_args r) (put s (sr_rhs r)))) rs) sg1' ->
  (forall l r, rs = Some l -> In r l -> exists t, r = MkSRule 0 [] t /\ scoped 0 t) -> morph s sg1 sg1'.
Proof.
  intros Hs M Hm E Hx (_ & HT & HR & _) Hr. eapply morph_extend; [eapply morph_mono; eassumption|exact Hx| |].
  - rewrite E. constructor. rewrite HT, Nat.eqb_refl. reflexivity.
  - intros l r El Hin. destruct (Hr _ _ El Hin) as (t & -> & Ht). exists t. split; [reflexivity|]. split; [exact Ht|]. rewrite E.
    rewrite <- (sub_closed (put s t) Var) by (apply put_scoped; assumption). apply (conv_rule sg1' d (map (fun r => MkSRule (sr_vars r) (sr_args r) (put s (sr_rhs r))) l) (MkSRule 0 [] (put s t)) Var []).
    + rewrite HR, Nat.eqb_refl, El. reflexivity.
    + apply in_map_iff. exists (MkSRule 0 [] t). auto.
    + apply usable_def.
    + constructor.
Qed.
Section Interp.
  Variables (s : nat -> tm) (Q : list vcmd).
  Hypothesis Hs : closed_terms s.
  Let Hc : forall c, scoped 0 (s c).
  Proof. intros c. apply Hs. Qed.
  Lemma interp_keep sg sg' c d it sg1 : definitional sg' -> morph s sg sg' -> s c = Const d -> sg_type sg' d = None -> typable sg (VIntro c it) sg1 ->
    exists sg1', typable sg' (VIntro d (put_intro s it)) sg1' /\ morph s sg1 sg1'.
  Proof.
    intros Hd M E Hn H.
    assert (X : forall A rs, extends sg c A rs sg1 -> (forall l r, rs = Some l -> In r l -> exists t, r = MkSRule 0 [] t /\ scoped 0 t) ->
      exists sg1', extends sg' d (put s A) (option_map (map (fun r => MkSRule (sr_vars r) (sr_args r) (put s (sr_rhs r)))) rs) sg1' /\ morph s sg1 sg1').
    { intros A rs Hx Hr. destruct (extends_exists sg' d (put s A) (option_map (map (fun r => MkSRule (sr_vars r) (sr_args r) (put s (sr_rhs r)))) rs) Hn) as (sg1' & Hx').
      exists sg1'. split; [exact Hx'|]. eapply morph_again; try eassumption. eapply extends_mono'; eassumption. }
    inversion H as [c0 rw A sg0 Ht Hx|c0 A sg0 Ht Hx|c0 A t sg0 Ht Hk Hx|c0 A t sg0 Hk Hx|c0 A t sg0 Ht Hk Hx]; subst; cbn [put_intro map_type map_term option_map].
    - destruct (X _ _ Hx) as (sg1' & Hx' & M'); [intros l r; destruct rw; [intros [= <-] []|discriminate]|]. exists sg1'. split; [|exact M']. constructor; [eapply put_type; eassumption|]. destruct rw; exact Hx'.
    - destruct (X _ _ Hx) as (sg1' & Hx' & M'); [intros l r [= <-] []|]. exists sg1'. split; [|exact M']. constructor; [eapply put_type; eassumption|]. exact Hx'.
    - destruct (X _ _ Hx) as (sg1' & Hx' & M'); [intros l r [= <-] [<-|[]]; exists t; split; [reflexivity|exact (derives_scoped _ _ _ _ (proj2 Hk))]|].
      exists sg1'. split; [|exact M']. constructor; [eapply put_type; eassumption|eapply put_checks; eassumption|exact Hx'].
    - destruct (X _ _ Hx) as (sg1' & Hx' & M'); [intros l r [= <-] [<-|[]]; exists t; split; [reflexivity|exact (derives_scoped _ _ _ _ (proj1 (proj2 Hk)))]|].
      exists sg1'. split; [|exact M']. econstructor; [eapply put_synthesises; eassumption|exact Hx'].
    - destruct (X _ _ Hx) as (sg1' & Hx' & M'); [discriminate|]. exists sg1'. split; [|exact M']. constructor; [eapply put_type; eassumption|eapply put_checks; eassumption|exact Hx'].
  Qed.
  Lemma interp_unfold sg sg' c it t sg1 : morph s sg sg' -> has_term it t -> s c = put s t -> typable sg (VIntro c it) sg1 -> morph s sg1 sg'.
  Proof.
    intros M Ht E H. inversion H as [c0 rw A sg0 Ha Hx|c0 A sg0 Ha Hx|c0 A u sg0 Ha Hk Hx|c0 A u sg0 Hk Hx|c0 A u sg0 Ha Hk Hx]; subst; inversion Ht; subst; eapply morph_extend; try eassumption; rewrite ?E.
    - eapply put_checks; eassumption.
    - intros l r [= <-] [<-|[]]. exists t. split; [reflexivity|]. split; [exact (derives_scoped _ _ _ _ (proj2 Hk))|]. apply conv_refl.
    - eapply put_synthesises; eassumption.
    - intros l r [= <-] [<-|[]]. exists t. split; [reflexivity|]. split; [exact (derives_scoped _ _ _ _ (proj1 (proj2 Hk)))|]. apply conv_refl.
    - eapply put_checks; eassumption.
    - discriminate.
  Qed.
  Lemma interp_given sg sg' c it A d sg1 : morph s sg sg' -> opaque it A -> s c = Const d -> sg_type sg' d = Some (put s A) -> typable sg (VIntro c it) sg1 -> morph s sg1 sg'.
  Proof.
    intros M Ho E HT H. inversion H as [c0 rw B sg0 Ha Hx|c0 B sg0 Ha Hx|c0 B u sg0 Ha Hk Hx|c0 B u sg0 Hk Hx|c0 B u sg0 Ha Hk Hx]; subst; inversion Ho; subst; eapply morph_extend; try eassumption; rewrite ?E;
      try (constructor; assumption); intros l r; [destruct rw; [intros [= <-] []|discriminate]|intros [= <-] []|discriminate].
  Qed.
  Lemma typable_types sg v sg' : typable sg v sg' -> (forall c A, sg_type sg c = Some A -> sg_type sg' c = Some A) /\ (forall c, ~ In c (ids [v]) -> sg_type sg' c = sg_type sg c) /\
    forall d it A, v = VIntro d it -> states it A -> sg_type sg' d = Some A.
  Proof.
    assert (X : forall c A rs, extends sg c A rs sg' -> (forall d B, sg_type sg d = Some B -> sg_type sg' d = Some B) /\ (forall d, ~ In d [c] -> sg_type sg' d = sg_type sg d) /\ sg_type sg' c = Some A).
    { intros c A rs (Hn & HT & _). split; [|split].
      - intros d B H. rewrite HT. destruct (Nat.eqb_spec d c) as [->|]; [congruence|exact H].
      - intros d H. rewrite HT. destruct (Nat.eqb_spec d c) as [->|]; [|reflexivity]. cbn in H. tauto.
      - rewrite HT, Nat.eqb_refl. reflexivity. }
    destruct 1 as [c rw A sg0 Ha Hx|c A sg0 Ha Hx|c A u sg0 Ha Hk Hx|c A u sg0 Hk Hx|c A u sg0 Ha Hk Hx]; destruct (X _ _ _ Hx) as (X1 & X2 & X3); (split; [exact X1|]; split; [exact X2|]);
      intros d it B [= <- <-] Hst; inversion Hst; subst; exact X3.
  Qed.
  Lemma interp_all vs vs' : interprets s Q vs vs' -> forall sg sg' sgf, typable_all sg vs sgf -> definitional sg' -> morph s sg sg' ->
    (forall d it A, In (VIntro d it) Q -> states it A -> sg_type sg' d = Some A) -> (forall d, In d (ids vs') -> sg_type sg' d = None) -> NoDup (ids vs') ->
    exists sgf', typable_all sg' vs' sgf'.
  Proof.
    induction 1 as [|c d it vs vs' E _ IH|c it t vs vs' Ht E _ IH|c it A d it' vs vs' Ho E Hin Hst _ IH]; intros sg sg' sgf H Hd M HQ Hf Hn.
    - exists sg'. constructor.
    - inversion H as [|? ? sg1 ? ? H1 H2]; subst. cbn [ids flat_map app] in *. fold (ids vs') in *. apply NoDup_cons_iff in Hn as [Hn1 Hn2].
      destruct (interp_keep sg sg' c d it sg1 Hd M E (Hf d (or_introl eq_refl)) H1) as (sg1' & T & M'). destruct (typable_types _ _ _ T) as (T1 & T2 & _).
      destruct (IH sg1 sg1' sgf H2 (typable_definitional _ _ _ Hd T) M') as (sgf' & H'); [| | |exists sgf'; econstructor; eassumption].
      + intros e jt B HB1 HB2. apply T1. eapply HQ; eassumption.
      + intros e He. rewrite T2; [apply Hf; right; exact He|]. intros [->|[]]. contradiction.
      + exact Hn2.
    - inversion H as [|? ? sg1 ? ? H1 H2]; subst. eapply IH; try eassumption. eapply interp_unfold; eassumption.
    - inversion H as [|? ? sg1 ? ? H1 H2]; subst. eapply IH; try eassumption. eapply interp_given; try eassumption. eapply HQ; eassumption.
  Qed.
  Lemma typable_all_types vs : forall sg sg', typable_all sg vs sg' -> (forall c A, sg_type sg c = Some A -> sg_type sg' c = Some A) /\ (forall c, ~ In c (ids vs) -> sg_type sg' c = sg_type sg c) /\
    forall d it A, In (VIntro d it) vs -> states it A -> sg_type sg' d = Some A.
  Proof.
    induction vs as [|v vs IH]; intros sg sg' H; inversion H as [|? ? sg1 ? ? H1 H2]; subst; [split; [auto|]; split; [reflexivity|intros d it A []]|].
    destruct (typable_types _ _ _ H1) as (T1 & T2 & T3), (IH _ _ H2) as (I1 & I2 & I3). split; [auto|]. split.
    - intros c Hin. cbn [ids flat_map] in *. fold (ids vs) in Hin. rewrite I2, T2; [reflexivity| |]; intros X; apply Hin; apply in_or_app; [left|right; exact X]. rewrite app_nil_r in X. exact X.
    - intros d it A [->|Hin] Hst; [apply I1; eapply T3; [reflexivity|exact Hst]|eapply I3; eassumption].
  Qed.
  Lemma typable_all_app vs1 vs2 : forall sg sg1 sg2, typable_all sg vs1 sg1 -> typable_all sg1 vs2 sg2 -> typable_all sg (vs1 ++ vs2) sg2.
  Proof. induction vs1 as [|v vs1 IH]; intros sg sg1 sg2 H H'; inversion H; subst; [exact H'|]. cbn. econstructor; [eassumption|]. eapply IH; eassumption. Qed.
  Lemma typable_all_definitional vs : forall sg sg', typable_all sg vs sg' -> definitional sg -> definitional sg'.
  Proof. induction vs as [|v vs IH]; intros sg sg' H Hd; inversion H as [|? ? sg1 ? ? H1 H2]; subst; [exact Hd|]. eapply IH; [exact H2|]. eapply typable_definitional; eassumption. Qed.
  Lemma interp_programs eta vs vs' sg sgQ : interprets s Q vs vs' -> typable_all (empty_sig eta) vs sg -> typable_all (empty_sig eta) Q sgQ -> NoDup (ids (Q ++ vs')) ->
    exists sg', typable_all (empty_sig eta) (Q ++ vs') sg'.
  Proof.
    intros H H1 H2 Hn. destruct (typable_all_types _ _ _ H2) as (_ & T2 & T3).
    assert (Hd : definitional sgQ). { eapply typable_all_definitional; [exact H2|]. constructor; reflexivity. }
    unfold ids in Hn. rewrite flat_map_app in Hn. fold (ids Q) in Hn. fold (ids vs') in Hn.
    assert (Heta : sg_eta sgQ = eta). { clear - H2. change eta with (sg_eta (empty_sig eta)). remember (empty_sig eta) as sg0 eqn:E0. clear E0. revert sg0 H2. induction Q as [|v q IH]; intros sg0 H2; inversion H2 as [|? ? sg1 ? ? H1 H3]; subst; [reflexivity|]. rewrite (IH _ H3). destruct H1 as [? ? ? ? ? Hx|? ? ? ? Hx|? ? ? ? ? ? Hx|? ? ? ? ? Hx|? ? ? ? ? ? Hx]; apply Hx. }
    destruct (interp_all vs vs' H (empty_sig eta) sgQ sg H1 Hd) as (sg' & H').
    - split; [discriminate|]. split; [|exact Heta]. intros c r (l & E & _). discriminate.
    - exact T3.
    - intros d Hin. rewrite T2; [reflexivity|]. intros X. clear - Hn Hin X. apply NoDup_disj with (x := d) in Hn; [contradiction|exact X].
    - clear - Hn. induction (ids Q) as [|q l IH]; [exact Hn|]. apply IH. inversion Hn. assumption.
    - exists sg'. eapply typable_all_app; eassumption.
  Qed.
End Interp.

Lemma fresh_ids cs : forall n, fresh_cmds n cs -> NoDup (ids (map er_cmd cs)) /\ forall c, In c (ids (map er_cmd cs)) -> n <= c.
Proof.
  induction cs as [|c cs IH]; intros n H; inversion H; subst; cbn [map er_cmd ids flat_map app]; [split; [constructor|intros c []]|fold (ids (map er_cmd cs))..].
  - match goal with X : fresh_cmds _ cs |- _ => destruct (IH _ X) as [I1 I2] end. split; [constructor; [|exact I1]; intros X; apply I2 in X; lia|]. intros d [<-|X]; [assumption|]. apply I2 in X. lia.
  - match goal with X : fresh_cmds _ cs |- _ => destruct (IH _ X) as [I1 I2] end. split; [exact I1|]. intros d X. apply I2 in X. lia.
Qed.
Lemma elaborates_ids srcs vs : Forall (fun src => Forall nonempty (snd src)) srcs -> elaborates srcs vs -> NoDup (ids vs).
Proof.
  intros Hn He. destruct (elab_sources_share srcs Hn [] 0 (pst_new (Opts false None false)) vs (at_hist_new _) He) as (cs & E & <-).
  exact (proj1 (fresh_ids _ _ (share_fresh_cmds _ _ _ (fresh_new _) E))).
Qed.
Lemma interp_typable eta s srcs srcq srcs' vs Q vs' : Forall (fun src => Forall nonempty (snd src)) srcs -> Forall (fun src => Forall nonempty (snd src)) srcq -> Forall (fun src => Forall nonempty (snd src)) srcs' ->
  elaborates srcs vs -> elaborates srcq Q -> elaborates srcs' (Q ++ vs') -> closed_terms s -> interprets s Q vs vs' ->
  typable_sources eta srcs -> typable_sources eta srcq -> typable_sources eta srcs'.
Proof.
  intros N Nq N' He Heq He' Hs Hi (vs0 & sg & H1 & H2) (q0 & sgq & H3 & H4). rewrite (elaborates_unique _ _ _ N H1 He) in *. rewrite (elaborates_unique _ _ _ Nq H3 Heq) in *.
  destruct (interp_programs s Q Hs eta vs vs' sg sgq Hi H2 H4 (elaborates_ids _ _ N' He')) as (sg' & H'). exists (Q ++ vs'), sg'. auto.
Qed.
Lemma interp_typable_nil eta s srcs srcs' vs vs' : Forall (fun src => Forall nonempty (snd src)) srcs -> Forall (fun src => Forall nonempty (snd src)) srcs' ->
  elaborates srcs vs -> elaborates srcs' vs' -> closed_terms s -> interprets s [] vs vs' -> typable_sources eta srcs -> typable_sources eta srcs'.
Proof.
  intros N N' He He' Hs Hi (vs0 & sg & H1 & H2). rewrite (elaborates_unique _ _ _ N H1 He) in *.
  destruct (interp_programs s [] Hs eta vs vs' sg (empty_sig eta) Hi H2 (tpa_nil _) (elaborates_ids _ _ N' He')) as (sg' & H'). exists vs', sg'. auto.
Qed.
(** symbols are replaced by their terms *)
Theorem main_unfold s junk junk' O O' n eta jobs jobs' channel channel' inputs inputs' srcs srcs' vs vs' :
  Forall2 (source_of junk) inputs srcs -> Forall2 (source_of junk') inputs' srcs' -> without_rules srcs -> without_rules srcs' -> elaborates srcs vs -> elaborates srcs' vs' ->
  closed_terms s -> interprets s [] vs vs' ->
  kocheck junk (real_kernel O n) (Opts eta None jobs) channel inputs (Ok tt) ->
  exists n0, forall n', n0 <= n' -> kocheck junk' (real_kernel O' n') (Opts eta None jobs') channel' inputs' (Ok tt).
Proof.
  intros S S' W W' He He' Hs Hi Hk. destruct (main_whole_accepts junk O eta jobs channel inputs srcs S W) as (_ & _ & Ht). apply Ht in Hk.
  destruct (main_whole_accepts junk' O' eta jobs' channel' inputs' srcs' S' W') as (n0 & Ha & _). exists n0. intros n' Hn. apply Ha; [exact Hn|].
  exact (interp_typable_nil eta s srcs srcs' vs vs' (source_of_nonempty _ _ _ S) (source_of_nonempty _ _ _ S') He He' Hs Hi Hk).
Qed.
(** assumptions are replaced by symbols of another program *)
Theorem main_interp s junk junkq junk' O Oq O' n nq eta jobs jobsq jobs' channel channelq channel' inputs inputsq inputs' srcs srcq srcs' vs Q vs' :
  Forall2 (source_of junk) inputs srcs -> Forall2 (source_of junkq) inputsq srcq -> Forall2 (source_of junk') inputs' srcs' ->
  without_rules srcs -> without_rules srcq -> without_rules srcs' -> elaborates srcs vs -> elaborates srcq Q -> elaborates srcs' (Q ++ vs') ->
  closed_terms s -> interprets s Q vs vs' ->
  kocheck junk (real_kernel O n) (Opts eta None jobs) channel inputs (Ok tt) ->
  kocheck junkq (real_kernel Oq nq) (Opts eta None jobsq) channelq inputsq (Ok tt) ->
  exists n0, forall n', n0 <= n' -> kocheck junk' (real_kernel O' n') (Opts eta None jobs') channel' inputs' (Ok tt).
Proof.
  intros S Sq S' W Wq W' He Heq He' Hs Hi Hk Hq. destruct (main_whole_accepts junk O eta jobs channel inputs srcs S W) as (_ & _ & Ht). apply Ht in Hk.
  destruct (main_whole_accepts junkq Oq eta jobsq channelq inputsq srcq Sq Wq) as (_ & _ & Htq). apply Htq in Hq.
  destruct (main_whole_accepts junk' O' eta jobs' channel' inputs' srcs' S' W') as (n0 & Ha & _). exists n0. intros n' Hn. apply Ha; [exact Hn|].
  exact (interp_typable eta s srcs srcq srcs' vs Q vs' (source_of_nonempty _ _ _ S) (source_of_nonempty _ _ _ Sq) (source_of_nonempty _ _ _ S') He Heq He' Hs Hi Hk Hq).
Qed.
(** koweb *)
Theorem main_interp_web s junk junkq junk' O Oq O' n nq eta modules modulesq modules' srcs srcq srcs' vs Q vs' :
  Forall2 (web_source junk) modules srcs -> Forall2 (web_source junkq) modulesq srcq -> Forall2 (web_source junk') modules' srcs' ->
  without_rules srcs -> without_rules srcq -> without_rules srcs' -> elaborates srcs vs -> elaborates srcq Q -> elaborates srcs' (Q ++ vs') ->
  closed_terms s -> interprets s Q vs vs' ->
  web_check junk (real_kernel O n) (Opts eta None false) modules (Ok tt) ->
  web_check junkq (real_kernel Oq nq) (Opts eta None false) modulesq (Ok tt) ->
  exists n0, forall n', n0 <= n' -> web_check junk' (real_kernel O' n') (Opts eta None false) modules' (Ok tt).
Proof.
  intros S Sq S' W Wq W' He Heq He' Hs Hi Hk Hq.
  assert (T : forall junk O n modules srcs, Forall2 (web_source junk) modules srcs -> without_rules srcs -> web_check junk (real_kernel O n) (Opts eta None false) modules (Ok tt) -> typable_sources eta srcs).
  { clear. intros junk O n modules srcs S W H. destruct (main_whole_web junk O eta modules srcs S W) as (n0 & r & _ & R & Hr & Ht). apply Ht.
    apply (web_seq _ _ _ _ _ _ _ S) in H. pose proof (seq_mono O n (Nat.max n n0) ltac:(lia) parse_error (Opts eta None false) (map Ok (program_events srcs)) (pst_new (Opts eta None false))) as E.
    rewrite H in E. specialize (E ltac:(discriminate)). symmetry. apply (Hr (Nat.max n n0)); [lia|]. apply (web_seq _ _ _ _ _ _ _ S). rewrite E. exact H. }
  destruct (main_whole_web junk' O' eta modules' srcs' S' W') as (n0 & r & _ & _ & Hr & Ht). exists n0. intros n' Hn. apply Hr; [exact Hn|]. symmetry. apply Ht.
  exact (interp_typable eta s srcs srcq srcs' vs Q vs' (web_source_nonempty _ _ _ S) (web_source_nonempty _ _ _ Sq) (web_source_nonempty _ _ _ S') He Heq He' Hs Hi (T _ _ _ _ _ S W Hk) (T _ _ _ _ _ Sq Wq Hq)).
Qed.
