(** * Reference inference decides typability: soundness and completeness for [derives] *)

From Coq Require Import List Arith Lia Bool.
From Verif Require Import Base ModelTerm ModelGctx ModelCommand ModelSubst ModelReduce ModelInfer
  SpecTerm SpecConv SpecConvFacts SpecRed SpecSN SpecType SpecDomain SpecDerive RedConfl EtaConfl RedStuck TypeFacts DomFacts DomUnique DeriveFacts
  RefMachine RefSound RefRed RefInfer RefStuck RefComplete SoundDom.
Import ListNotations.
Open Scope sm_scope.

Lemma strip_typ t : strip t = Typ -> t = Typ.
Proof. destruct t; cbn; congruence. Qed.
Lemma annot_mono t : annotations true t -> annotations false t.
Proof. induction t; cbn [annotations]; tauto. Qed.

(** results of computations that return, and of computations that do not fail *)
Definition oks {A} (m : RM A) (P : A -> Prop) : Prop :=
  forall h, match m h with Ok (a, _) => P a | _ => True end.
Definition okn {A} (m : RM A) (P : A -> Prop) : Prop :=
  forall h, match m h with Ok (a, _) => P a | Err _ => False | _ => True end.
Lemma oks_ret {A} (a : A) (P : A -> Prop) : P a -> oks (ret a) P.
Proof. intros H h. exact H. Qed.
Lemma oks_fail {A} e (P : A -> Prop) : oks (fail e) P.
Proof. intros h. exact I. Qed.
Lemma oks_nofuel {A} (P : A -> Prop) : oks nofuel P.
Proof. intros h. exact I. Qed.
Lemma oks_bind {A B} (m : RM A) (k : A -> RM B) P Q : oks m P -> (forall a, P a -> oks (k a) Q) -> oks (bind m k) Q.
Proof. intros Hm Hk h. unfold bind. specialize (Hm h). destruct (m h) as [[a h']| | |]; auto. apply Hk. exact Hm. Qed.
Lemma oks_post {A} (m : RM A) (P Q : A -> Prop) : oks m P -> (forall a, P a -> Q a) -> oks m Q.
Proof. intros Hm Hk h. specialize (Hm h). destruct (m h) as [[a h']| | |]; auto. Qed.
Lemma okn_ret {A} (a : A) (P : A -> Prop) : P a -> okn (ret a) P.
Proof. intros H h. exact H. Qed.
Lemma okn_nofuel {A} (P : A -> Prop) : okn nofuel P.
Proof. intros h. exact I. Qed.
Lemma okn_bind {A B} (m : RM A) (k : A -> RM B) P Q : okn m P -> (forall a, P a -> okn (k a) Q) -> okn (bind m k) Q.
Proof. intros Hm Hk h. unfold bind. specialize (Hm h). destruct (m h) as [[a h']| | |]; auto. apply Hk. exact Hm. Qed.
Lemma okn_and {A} (m : RM A) (P Q : A -> Prop) : okn m P -> oks m Q -> okn m (fun a => P a /\ Q a).
Proof. intros H1 H2 h. specialize (H1 h). specialize (H2 h). destruct (m h) as [[a h']| | |]; auto. Qed.
Lemma okn_okc {A} (m : RM A) (P : A -> Prop) : ne m -> okc m P -> okn m P.
Proof. intros H1 H2 h. specialize (H1 h). specialize (H2 h). destruct (m h) as [[a h']|e| |]; auto. exact (H1 e eq_refl). Qed.

Section Decide.
  Variable sg : sig.
  Notation conv := (conv sg).
  Notation wt := (well_typed sg).
  Notation der := (derives sg).
  Notation sort s := (s = Typ \/ s = Kind).
  Hypothesis Hcr : church_rosser sg.
  Hypothesis Hsafe : eta_safe sg.
  Hypothesis Hst : stable_types sg.
  Hypothesis Hpi : pi_injective sg.
  Hypothesis Hlin : left_linear sg.
  Hypothesis Hrules : good_rules sg.
  Hypothesis Htypes : good_types sg.
  Hypothesis Hsn : normalising sg.

  Definition atype (G : list tm) (T : tm) : Prop := T = Kind \/ exists s, sort s /\ wt G T s.
  Lemma atype_sort G T s : type_ctx sg G -> atype G (strip T) -> sort s -> conv s T -> T = s.
  Proof.
    intros HG HT Hs Hc. assert (E : strip T = s).
    { eapply type_is_sort; try eassumption; [|eapply conv_trans; [exact Hc|apply conv_strip]].
      destruct HT as [->|(s' & _ & HT)]; eauto. }
    destruct Hs as [-> | ->]; [apply strip_typ|apply strip_kind]; exact E.
  Qed.

  Lemma whnf_pi n G T : atype G (strip T) ->
    oks (r_whnf sg n T) (fun t => match t with
      | Pi a b => conv T t /\ exists s, wt G (strip a) Typ /\ wt (strip a :: G) (strip b) s /\ sort s /\ wt G (strip t) s
      | _ => True
      end).
  Proof.
    intros HT h. destruct (r_whnf sg n T h) as [[t h']| | |] eqn:E; auto. destruct t; auto.
    apply r_whnf_red in E; auto. split.
    { eapply conv_trans; [apply conv_strip|]. eapply conv_trans; [apply reds_conv; exact E|apply conv_sym, conv_strip]. }
    destruct HT as [HT|(s & Hs & HT)].
    - rewrite HT in E. apply reds_sort in E; [discriminate|right; reflexivity].
    - pose proof (wt_reds _ Hst Hpi Hrules _ _ E _ _ HT) as HP. cbn [strip] in HP.
      destruct (wgen_pi _ _ _ _ _ HP) as (s' & H1 & H2 & H3 & H4). exists s'. split; [exact H1|]. split; [exact H2|]. split; [exact H3|].
      cbn [strip]. eapply wt_conv; [exact HP|]. apply conv_sym. exact H4.
  Qed.
  Lemma conv_ok n t u : oks (r_convertible sg n t u) (fun b => b = true -> conv t u).
  Proof. intros h. destruct (r_convertible sg n t u h) as [[[|] h']| | |] eqn:E; auto. - intros _. eapply r_conv_sound; exact E. - discriminate. Qed.

  Lemma conv_strips t u : conv t u -> conv (strip t) (strip u).
  Proof. intros H. eapply conv_trans; [apply conv_sym, conv_strip|]. eapply conv_trans; [exact H|apply conv_strip]. Qed.

  Lemma r_check_lam n G a t A : r_check sg (S n) G (Lam a t) A =
    (ty <- r_whnf sg n A ;;
     match ty with
     | Pi ta tb => r_infer sg n G a ;;; ok <- r_convertible sg n a ta ;; if ok : bool then r_check sg n (ta :: G) t tb else ret false
     | _ => fail ProductExpected
     end).
  Proof. reflexivity. Qed.
  Lemma r_check_ulam n G t A : r_check sg (S n) G (ULam t) A =
    (ty <- r_whnf sg n A ;; match ty with Pi ta tb => r_check sg n (ta :: G) t tb | _ => fail ProductExpected end).
  Proof. reflexivity. Qed.

  Notation D G := (map strip G).

  Lemma sound n :
    (forall G t, type_ctx sg (D G) -> oks (r_infer sg n G t) (fun B => annotations true t /\ der (D G) t (strip B) /\ atype (D G) (strip B))) /\
    (forall G t A s, type_ctx sg (D G) -> wt (D G) (strip A) s -> sort s ->
      oks (r_check sg n G t A) (fun b => b = true -> annotations false t /\ der (D G) t (strip A))).
  Proof.
    induction n as [|n [IH1 IH2]]; [split; intros; apply oks_nofuel|]. split.
    - intros G t HG. rewrite r_infer_unfold. revert G HG.
      induction t as [| |c|x|t IHt u IHu|a IHa t IHt|t IHt|a IHa b IHb]; intros G HG; cbn [r_infer_s annotations].
      + apply oks_fail.
      + apply oks_ret. split; [exact I|]. split; [apply d_type|left; reflexivity].
      + destruct (sg_type sg c) as [A|] eqn:E; cbn [ok_or]; [|apply oks_fail]. apply oks_ret. split; [exact I|]. split; [apply d_const; exact E|].
        destruct (Htypes _ _ E) as (_ & s & Hs & Hw). right. exists s. split; [exact Hs|]. apply wt_closed; assumption.
      + destruct (nth_error G x) as [A|] eqn:E; cbn [option_map ok_or]; [|apply oks_fail]. apply oks_ret. split; [exact I|].
        assert (E' : nth_error (D G) x = Some (strip A)) by (rewrite nth_error_map, E; reflexivity).
        rewrite strip_lift. split; [apply d_var; exact E'|]. right. exists Typ. split; [left; reflexivity|]. apply type_ctx_nth; assumption.
      + eapply oks_bind; [apply IHt; exact HG|]. intros T (Ha & Ht & HT). unfold r_infer_arg.
        eapply oks_bind; [apply whnf_pi; exact HT|]. intros T' HT'. destruct T'; try apply oks_fail.
        destruct HT' as (Hc & s & H1 & H2 & Hs & H3).
        eapply oks_bind; [eapply IH2; [exact HG|exact H1|left; reflexivity]|]. intros [|] Hu; [|apply oks_fail].
        destruct (Hu eq_refl) as [Hau Hu']. apply oks_ret. split; [split; assumption|]. rewrite strip_subst1. split.
        * eapply d_app; [|exact Hu']. eapply d_conv; [exact Ht|apply conv_strips in Hc; exact Hc|exact H3|exact Hs].
        * right. exists s. split; [exact Hs|]. pose proof (wt_subst1 _ Hst _ _ _ _ _ H2 (derives_wt _ _ _ _ Hu')) as Hsub.
          unfold subst1 in Hsub at 2. rewrite sub_sort in Hsub by exact Hs. exact Hsub.
      + eapply oks_bind; [apply IHa; exact HG|]. intros k (H1 & H2 & H3). destruct k; try apply oks_fail. cbn [strip] in H2.
        assert (HG' : type_ctx sg (D (a :: G))) by (cbn [map]; constructor; [exact HG|apply derives_wt; exact H2]).
        eapply oks_bind; [apply IHt; exact HG'|]. intros B (H4 & H5 & H6). cbn [map] in H5, H6.
        destruct H6 as [E|(s & Hs & H6)]; [rewrite (strip_kind _ E); apply oks_fail|].
        assert (HB : (annotations true a /\ annotations true t) /\ der (D G) (Lam a t) (strip (Pi a B)) /\ atype (D G) (strip (Pi a B))).
        { split; [split; assumption|]. cbn [strip]. split; [eapply d_lam; eassumption|]. right. exists s. split; [exact Hs|].
          eapply wt_pi; [apply derives_wt; exact H2|exact H6|exact Hs]. }
        destruct B; try apply oks_fail; apply oks_ret; exact HB.
      + apply oks_fail.
      + eapply oks_bind; [apply IHa; exact HG|]. intros k (H1 & H2 & H3). destruct k; try apply oks_fail. cbn [strip] in H2.
        assert (HG' : type_ctx sg (D (a :: G))) by (cbn [map]; constructor; [exact HG|apply derives_wt; exact H2]).
        eapply oks_bind; [apply IHb; exact HG'|]. intros B (H4 & H5 & H6). cbn [map] in H5, H6.
        destruct B; try apply oks_fail; apply oks_ret; (split; [split; assumption|]); cbn [strip] in *.
        * split; [eapply d_pi; [exact H2|exact H5|right; reflexivity]|left; reflexivity].
        * split; [eapply d_pi; [exact H2|exact H5|left; reflexivity]|]. right. exists Kind. split; [right; reflexivity|constructor].
    - intros G t A s HG HA Hs.
      assert (Hother : oks (ty' <- r_infer sg n G t ;; r_convertible sg n ty' A) (fun b => b = true -> annotations false t /\ der (D G) t (strip A))).
      { eapply oks_bind; [apply IH1; exact HG|]. intros T (H1 & H2 & _). eapply oks_post; [apply conv_ok|]. cbn beta. intros b Hb E.
        split; [apply annot_mono; exact H1|]. eapply d_conv; [exact H2|apply conv_strips, Hb, E|exact HA|exact Hs]. }
      assert (HAt : atype (D G) (strip A)) by (right; eauto).
      destruct t as [| |c|x|t u|a t|t|a b]; try exact Hother; clear Hother; cbn [annotations].
      + rewrite r_check_lam. eapply oks_bind; [apply whnf_pi; exact HAt|]. intros T' HT'. destruct T' as [| | | | | | |ta tb]; try apply oks_fail.
        destruct HT' as (Hc & s' & H1 & H2 & Hs' & H3).
        eapply oks_bind; [apply IH1; exact HG|]. intros K (Ha1 & Ha2 & _).
        eapply oks_bind; [apply conv_ok|]. intros [|] Hcv; [|apply oks_ret; discriminate]. specialize (Hcv eq_refl). apply conv_strips in Hcv.
        assert (HG' : type_ctx sg (D (ta :: G))) by (cbn [map]; constructor; assumption).
        eapply oks_post; [eapply IH2; [exact HG'|exact H2|exact Hs']|]. cbn beta. intros b Hb E. destruct (Hb E) as [Hat Hdt]. cbn [map] in Hdt.
        split; [split; assumption|].
        assert (Hda : der (D G) a Typ).
        { eapply d_conv; [exact Ha2| |constructor|right; reflexivity].
          refine (sort_unique sg _ _ _ _ _ _ (D G) (strip ta) (strip a) (strip K) Typ HG (conv_sym _ _ _ Hcv) (or_introl eq_refl) H1 (derives_wt _ _ _ _ Ha2)); assumption. }
        eapply d_conv; [|apply conv_sym; apply conv_strips in Hc; exact Hc|exact HA|exact Hs].
        cbn [strip]. eapply d_conv with (A := Pi (strip a) (strip tb)); [|apply conv_pi; [exact Hcv|apply conv_refl]|cbn [strip] in H3; exact H3|exact Hs'].
        eapply d_lam; [exact Hda| | |exact Hs'].
        * eapply derives_head_conv; [exact Hst|exact HG'|apply conv_sym; exact Hcv|exact Hdt].
        * eapply wt_head_conv; [apply conv_sym; exact Hcv|exact H2].
      + rewrite r_check_ulam. eapply oks_bind; [apply whnf_pi; exact HAt|]. intros T' HT'. destruct T' as [| | | | | | |ta tb]; try apply oks_fail.
        destruct HT' as (Hc & s' & H1 & H2 & Hs' & H3).
        assert (HG' : type_ctx sg (D (ta :: G))) by (cbn [map]; constructor; assumption).
        eapply oks_post; [eapply IH2; [exact HG'|exact H2|exact Hs']|]. cbn beta. intros b Hb E. destruct (Hb E) as [Hat Hdt]. cbn [map] in Hdt.
        split; [exact Hat|].
        eapply d_conv; [|apply conv_sym; apply conv_strips in Hc; exact Hc|exact HA|exact Hs].
        cbn [strip]. eapply d_ulam; [exact H1|exact Hdt|exact H2|exact Hs'].
  Qed.

  Lemma whnf_prod n G T A B : conv T (Pi A B) -> atype G (strip T) ->
    okn (r_whnf sg n T) (fun t => exists A' B', t = Pi A' B' /\ conv A A' /\ conv B B').
  Proof.
    intros Hc HT h. pose proof (ne_whnf sg n T h) as Hne. destruct (r_whnf sg n T h) as [[t h']|e| |] eqn:E; auto; [|exact (Hne e eq_refl)].
    pose proof (r_whnf_stuck sg Hcr Hsafe _ _ _ _ _ E) as Hs. pose proof (r_whnf_sound _ _ _ _ _ _ E) as Hw.
    assert (Hr : reds sg (strip T) (strip t)) by (eapply r_whnf_red; eauto).
    assert (Hl : forall b, strip t <> ULam b).
    { intros b Eb. rewrite Eb in Hr. destruct HT as [HT|(s & Hss & HT)].
      - rewrite HT in Hr. apply reds_sort in Hr; [discriminate|right; reflexivity].
      - pose proof (wt_reds _ Hst Hpi Hrules _ _ Hr _ _ HT) as H. destruct (wgen_ulam _ _ _ _ H) as (A0 & B0 & _ & _ & _ & C).
        exact (conv_pi_sort _ _ _ _ Hcr Hss C). }
    assert (Hc' : conv t (Pi A B)) by (eapply conv_trans; [apply conv_sym; exact Hw|exact Hc]).
    assert (Hh : heads sg t (Pi A B)).
    { clear - Hcr Hsafe Hs Hc' Hl. destruct Hs as [k us Hk|a b|b].
      - change (Pi A B) with (apps (Pi A B) []) in Hc'. destruct (conv_stuck sg Hsafe Hcr k us (Pi A B) [] Hk I Hc') as [H1 H2].
        inversion H2; subst. exact H1.
      - destruct (Hl (strip b)). reflexivity.
      - destruct (Hl (strip b)). reflexivity. }
    destruct t; cbn in Hh; try contradiction. destruct Hh. eexists _, _. split; [reflexivity|]. split; apply conv_sym; assumption.
  Qed.
  Lemma okn_whnf n G T A B : conv T (Pi A B) -> atype G (strip T) ->
    okn (r_whnf sg n T) (fun t => exists A' B' s, t = Pi A' B' /\ conv A A' /\ conv B B' /\
      wt G (strip A') Typ /\ wt (strip A' :: G) (strip B') s /\ sort s).
  Proof.
    intros Hc HT h. pose proof (okn_and _ _ _ (whnf_prod n G T A B Hc HT) (whnf_pi n G T HT) h) as H.
    destruct (r_whnf sg n T h) as [[t h']| | |]; auto. destruct H as [(A' & B' & -> & H1 & H2) (_ & s & H3 & H4 & H5 & _)].
    exists A', B', s. auto 8.
  Qed.
  Lemma okn_conv n t u : conv t u -> okn (r_convertible sg n t u) (fun b => b = true).
  Proof. intros H. apply okn_okc; [apply ne_convertible|]. apply okc_convertible; assumption. Qed.

  Lemma decide_complete n :
    (forall G t A, type_ctx sg (D G) -> annotations true t -> der (D G) t A -> okn (r_infer sg n G t) (fun B => conv A B)) /\
    (forall G t A A' s, type_ctx sg (D G) -> annotations false t -> der (D G) t A -> conv A A' -> wt (D G) (strip A') s -> sort s ->
      okn (r_check sg n G t A') (fun b => b = true)).
  Proof.
    induction n as [|n [IH1 IH2]]; [split; intros; apply okn_nofuel|]. split.
    - intros G t A HG. pose proof (proj1 (sound (S n))) as Snd.
      rewrite r_infer_unfold. revert G A HG.
      induction t as [| |c|x|t IHt u IHu|a IHa t IHt|t IHt|a IHa b IHb]; intros G T HG Han Ht; cbn [r_infer_s annotations] in *.
      + contradiction.
      + apply okn_ret. apply conv_sym. exact (dgen_type _ _ _ Ht).
      + destruct (dgen_const _ _ _ _ Ht) as (A & E & Hc). rewrite E. apply okn_ret. apply conv_sym. eapply conv_trans; [apply conv_strip|exact Hc].
      + destruct (dgen_var _ _ _ _ Ht) as (A & E & Hc). rewrite nth_error_map in E. destruct (nth_error G x) as [A0|]; [|discriminate].
        injection E as <-. apply okn_ret. apply conv_sym. eapply conv_trans; [apply conv_strip|]. rewrite strip_lift. exact Hc.
      + destruct Han as [An1 An2]. destruct (dgen_app _ _ _ _ _ Ht) as (A & B & H1 & H2 & Hc).
        eapply okn_bind; [apply okn_and; [apply IHt; eassumption|pose proof (Snd G t HG) as X; rewrite r_infer_unfold in X; exact X]|].
        intros T' (HT & _ & _ & HTa). unfold r_infer_arg.
        eapply okn_bind; [eapply okn_whnf; [apply conv_sym; exact HT|exact HTa]|]. intros ? (A' & B' & s & -> & HA & HB & H3 & H4 & Hs).
        eapply okn_bind; [eapply IH2; [exact HG|exact An2|exact H2|exact HA|exact H3|left; reflexivity]|]. intros ? ->.
        apply okn_ret. eapply conv_trans; [apply conv_sym; exact Hc|]. apply conv_subst1; [apply conv_sym, conv_strip|exact HB].
      + destruct Han as [An1 An2]. destruct (dgen_lam _ _ _ _ _ Ht) as (B & s & H1 & H2 & Hs & H3 & Hc).
        eapply okn_bind; [apply okn_and; [apply IHa; eassumption|pose proof (Snd G a HG) as X; rewrite r_infer_unfold in X; exact X]|].
        intros k (Hk & _ & _ & Hka). rewrite (atype_sort _ _ _ HG Hka (or_introl eq_refl) Hk).
        assert (HG' : type_ctx sg (D (a :: G))) by (cbn [map]; constructor; [exact HG|apply derives_wt; exact H1]).
        eapply okn_bind; [apply IHt; [exact HG'|exact An2|exact H2]|]. intros B' HB. cbn beta in HB.
        assert (B' <> Kind) by (intros ->; eapply not_kind; eassumption).
        assert (HP : conv T (Pi a B')) by (eapply conv_trans; [apply conv_sym; exact Hc|apply conv_pi; [apply conv_sym, conv_strip|exact HB]]).
        destruct B'; try contradiction; apply okn_ret; exact HP.
      + contradiction.
      + destruct Han as [An1 An2]. destruct (dgen_pi _ _ _ _ _ Ht) as (s & H1 & H2 & Hs & Hc).
        eapply okn_bind; [apply okn_and; [apply IHa; eassumption|pose proof (Snd G a HG) as X; rewrite r_infer_unfold in X; exact X]|].
        intros k (Hk & _ & _ & Hka). rewrite (atype_sort _ _ _ HG Hka (or_introl eq_refl) Hk).
        assert (HG' : type_ctx sg (D (a :: G))) by (cbn [map]; constructor; [exact HG|apply derives_wt; exact H1]).
        eapply okn_bind; [apply okn_and; [apply IHb; [exact HG'|exact An2|exact H2]|pose proof (Snd (a :: G) b HG') as X; rewrite r_infer_unfold in X; exact X]|].
        intros B' (HB & _ & _ & HBa). rewrite (atype_sort _ _ _ HG' HBa Hs HB).
        destruct Hs as [-> | ->]; apply okn_ret; apply conv_sym; exact Hc.
    - intros G t A A' s HG Han Ht HA HA' Hs.
      assert (Hother : annotations true t -> okn (ty' <- r_infer sg n G t ;; r_convertible sg n ty' A') (fun b => b = true)).
      { intros An. eapply okn_bind; [apply IH1; eassumption|]. intros T HT. cbn beta in HT. apply okn_conv.
        eapply conv_trans; [apply conv_sym; exact HT|exact HA]. }
      assert (HAt : atype (D G) (strip A')) by (right; eauto).
      destruct t as [| |c|x|t u|a t|t|a b]; cbn [annotations] in Han, Hother; try exact (Hother Han); clear Hother.
      + destruct Han as [An1 An2]. destruct (dgen_lam _ _ _ _ _ Ht) as (B & s' & H1 & H2 & Hs' & H3 & Hc). rewrite r_check_lam.
        assert (HcA : conv A' (Pi (strip a) B)) by (apply conv_sym; eapply conv_trans; eassumption).
        eapply okn_bind; [eapply okn_whnf; [exact HcA|exact HAt]|]. intros ? (A2 & B2 & s2 & -> & HA2 & HB2 & H4 & H5 & Hs2).
        eapply okn_bind; [apply IH1; [exact HG|exact An1|exact H1]|]. intros _ _.
        eapply okn_bind; [apply okn_conv; eapply conv_trans; [apply conv_strip|exact HA2]|]. intros ? ->.
        eapply IH2 with (A := B); [cbn [map]; constructor; assumption|exact An2| |exact HB2|exact H5|exact Hs2].
        cbn [map]. eapply derives_head_conv; [exact Hst| | |exact H2]; [constructor; [exact HG|apply derives_wt; exact H1]|].
        eapply conv_trans; [exact HA2|apply conv_strip].
      + destruct (dgen_ulam _ _ _ _ Ht) as (A1 & B & s' & H1 & H2 & Hs' & H3 & Hc). rewrite r_check_ulam.
        assert (HcA : conv A' (Pi A1 B)) by (apply conv_sym; eapply conv_trans; eassumption).
        eapply okn_bind; [eapply okn_whnf; [exact HcA|exact HAt]|]. intros ? (A2 & B2 & s2 & -> & HA2 & HB2 & H4 & H5 & Hs2).
        eapply IH2 with (A := B); [cbn [map]; constructor; assumption|exact Han| |exact HB2|exact H5|exact Hs2].
        cbn [map]. eapply derives_head_conv; [exact Hst| | |exact H2]; [constructor; assumption|].
        eapply conv_trans; [exact HA2|apply conv_strip].
  Qed.
End Decide.
