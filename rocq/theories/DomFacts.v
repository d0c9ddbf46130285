(** * Facts about typing without domains: generation, weakening, substitution, preservation *)

From Coq Require Import List Arith Lia Bool.
From Verif Require Import SpecTerm SpecConv SpecConvFacts SpecWhnf SpecRed SpecSN SpecType SpecDomain RedConfl TypeFacts.
Import ListNotations.

(** ** Variables for jokers *)
Lemma NoDup_disj {A} (l l' : list A) : NoDup (l ++ l') -> forall x, In x l -> ~ In x l'.
Proof. induction l as [|y l IH]; cbn; intros H x Hx; [destruct Hx|]. inversion H; subst. destruct Hx as [->|Hx]; [intros Hx; auto using in_or_app|auto]. Qed.
Lemma fill_vars f p : forall q m, fill f p q -> In m (pat_vars p) -> In (f m) (pat_vars q).
Proof.
  induction p as [c ps IH|x|] using pat_ind'; intros q m H Hm; inversion H as [| |? ? qs HF]; subst; cbn in Hm |- *.
  - apply in_flat_map in Hm as (p & Hp & Hm). apply in_flat_map. clear H. induction HF as [|p0 q0 ps qs Hq _ IHF]; [destruct Hp|].
    inversion IH as [|? ? I1 I2]; subst. destruct Hp as [->|Hp]; [exists q0; split; [left; reflexivity|eauto]|].
    destruct (IHF I2 Hp) as (q & ? & ?). exists q. split; [right; assumption|assumption].
  - destruct Hm as [->|[]]. auto.
  - destruct Hm.
Qed.
Lemma fill_inst f s p : forall q t, fill f p q -> NoDup (pat_vars q) -> inst s p t ->
  exists s', inst s' q t /\ forall m, In m (pat_vars p) -> s' (f m) = s m.
Proof.
  induction p as [c ps IH|x|] using pat_ind'; intros q t H Hd Hi; inversion H as [| |? ? qs HF]; subst; inversion Hi as [| |? ? ts HI]; subst.
  - assert (exists s', Forall2 (inst s') qs ts /\ forall m, In m (flat_map pat_vars ps) -> s' (f m) = s m) as (s' & H1 & H2); [|exists s'; split; [constructor; exact H1|exact H2]].
    cbn in Hd. clear H Hi. revert qs HF Hd. induction HI as [|p t ps ts Hp _ IHI]; intros qs HF Hd; inversion HF as [|? q ? qs' Hq Hqs]; subst; [exists s; split; [constructor|intros m []]|].
    inversion IH as [|? ? I1 I2]; subst. cbn in Hd. pose proof (NoDup_l _ _ Hd) as D1. pose proof (NoDup_r _ _ Hd) as D2. pose proof (NoDup_disj _ _ Hd) as D3.
    destruct (I1 _ _ Hq D1 Hp) as (s1 & A1 & A2). destruct (IHI I2 _ Hqs D2) as (s2 & B1 & B2).
    exists (fun m => if in_dec Nat.eq_dec m (pat_vars q) then s1 m else s2 m). split.
    + constructor.
      * eapply inst_ext; [|exact A1]. intros m Hm. destruct (in_dec Nat.eq_dec m (pat_vars q)); [reflexivity|contradiction].
      * eapply insts_ext; [|exact B1]. intros m Hm. destruct (in_dec Nat.eq_dec m (pat_vars q)) as [Hq'|]; [destruct (D3 _ Hq' Hm)|reflexivity].
    + intros m Hm. cbn in Hm. apply in_app_or in Hm. destruct (in_dec Nat.eq_dec (f m) (pat_vars q)) as [Hq'|Hq'].
      * destruct Hm as [Hm|Hm]; [auto|]. exfalso. apply (D3 _ Hq'). apply in_flat_map in Hm as (p' & Hp' & Hm). clear - Hqs Hp' Hm.
        induction Hqs as [|p0 q0 ps qs Hq _ IHF]; [destruct Hp'|]. cbn. apply in_or_app. destruct Hp' as [->|Hp']; [left; eapply fill_vars; eassumption|right; auto].
      * destruct Hm as [Hm|Hm]; [destruct Hq'; eapply fill_vars; eassumption|auto].
  - exists (fun _ => s x). split; [apply (inst_var (fun _ => s x))|]. intros m [->|[]]. reflexivity.
  - exists (fun _ => t). split; [apply (inst_var (fun _ => t))|intros m0 []].
Qed.
Lemma named_inst r r' : named r r' -> usable r -> forall s ts, Forall2 (inst s) (sr_args r) ts ->
  exists s', usable r' /\ Forall2 (inst s') (sr_args r') ts /\ sub s (strip (sr_rhs r)) = sub s' (strip (sr_rhs r')).
Proof.
  intros [->|(_ & Hs & Hu' & Hl & f & Hf & E)] Hu s ts Hi; [exists s; auto|].
  destruct (fill_inst f s (PatSymb 0 (sr_args r)) (PatSymb 0 (sr_args r')) (apps (Const 0) ts)) as (s' & H1 & H2); [constructor; exact Hf|exact Hl|constructor; exact Hi|].
  exists s'. split; [exact Hu'|]. split.
  - inversion H1 as [| |? ? ts' HF E1 E2]; subst. apply apps_const_inj in E2 as [_ <-]. exact HF.
  - rewrite E, strip_ren, sub_ren. apply (sub_scoped _ (sr_vars r)); [apply scoped_strip; exact Hs|]. intros m Hm. symmetry. apply H2. cbn. apply Hu. exact Hm.
Qed.

Section Facts.
  Variable sg : sig.
  Notation conv := (conv sg).
  Notation wt := (well_typed sg).

  (** ** Generation *)
  Lemma wgen_kind G T : ~ wt G Kind T.
  Proof. intros H. remember Kind as t eqn:E. induction H; try discriminate; auto. Qed.
  Lemma wgen_lam G a t T : ~ wt G (Lam a t) T.
  Proof. intros H. remember (Lam a t) as v eqn:E. induction H; try discriminate; auto. Qed.
  Lemma wgen_const G c T : wt G (Const c) T -> exists A, sg_type sg c = Some A /\ conv (strip A) T.
  Proof.
    intros H. remember (Const c) as t eqn:E. induction H; try discriminate.
    - injection E as ->. eauto using conv_refl.
    - destruct (IHwell_typed E) as (A0 & H1 & H2). eauto using conv_trans.
  Qed.
  Lemma wgen_var G n T : wt G (Var n) T -> exists A, nth_error G n = Some A /\ conv (lift (S n) A) T.
  Proof.
    intros H. remember (Var n) as t eqn:E. induction H; try discriminate.
    - injection E as ->. eauto using conv_refl.
    - destruct (IHwell_typed E) as (A0 & H1 & H2). eauto using conv_trans.
  Qed.
  Lemma wgen_app G t u T : wt G (App t u) T -> exists A B, wt G t (Pi A B) /\ wt G u A /\ conv (subst1 u B) T.
  Proof.
    intros H. remember (App t u) as v eqn:E. induction H; try discriminate.
    - injection E as -> ->. eauto 6 using conv_refl.
    - destruct (IHwell_typed E) as (A0 & B0 & H1 & H2 & H3). eauto 6 using conv_trans.
  Qed.
  Lemma wgen_ulam G t T : wt G (ULam t) T -> exists A B, wt G A Typ /\ wt (A :: G) t B /\ (exists s, (s = Typ \/ s = Kind) /\ wt (A :: G) B s) /\ conv (Pi A B) T.
  Proof.
    intros H. remember (ULam t) as v eqn:E. induction H; try discriminate.
    - injection E as ->. eauto 10 using conv_refl.
    - destruct (IHwell_typed E) as (A0 & B0 & H1 & H2 & H3 & H4). eauto 10 using conv_trans.
  Qed.
  Lemma wgen_pi G a b T : wt G (Pi a b) T -> exists s, wt G a Typ /\ wt (a :: G) b s /\ (s = Typ \/ s = Kind) /\ conv s T.
  Proof.
    intros H. remember (Pi a b) as v eqn:E. induction H; try discriminate.
    - injection E as -> ->. eauto 8 using conv_refl.
    - destruct (IHwell_typed E) as (s & H1 & H2 & H3 & H4). eauto 8 using conv_trans.
  Qed.

  (** ** Contexts with convertible types *)
  Lemma wt_ctx_conv G t A : wt G t A -> forall G', Forall2 conv G G' -> wt G' t A.
  Proof.
    induction 1; intros G' HG.
    - constructor.
    - constructor; assumption.
    - assert (exists A', nth_error G' n = Some A' /\ conv A A') as (A' & H1 & H2).
      { clear - H HG. revert n H. induction HG; intros [|n]; cbn; try discriminate; eauto.
        intros [= <-]. eauto. }
      eapply wt_conv; [constructor; eassumption|]. apply conv_sym, conv_lift. exact H2.
    - eapply wt_app; eauto.
    - eapply wt_lam; eauto; [apply IHwell_typed2|apply IHwell_typed3]; constructor; auto using conv_refl.
    - eapply wt_pi; eauto. apply IHwell_typed2. constructor; auto using conv_refl.
    - eapply wt_conv; eauto.
  Qed.
  Lemma wt_head_conv G a a' t A : conv a a' -> wt (a :: G) t A -> wt (a' :: G) t A.
  Proof. intros H Ht. eapply wt_ctx_conv; [exact Ht|]. constructor; [exact H|apply conv_ctx_refl]. Qed.

  (** ** Renaming *)
  Hypothesis Hst : stable_types sg.
  Lemma strip_stable c A : sg_type sg c = Some A -> forall s, conv (sub s (strip A)) (strip A).
  Proof.
    intros H s. eapply conv_trans; [apply conv_sub, conv_sym, conv_strip|].
    eapply conv_trans; [eapply Hst; exact H|apply conv_strip].
  Qed.
  Lemma wt_ren D t A : wt D t A -> forall r G, ren_ok r D G -> wt G (ren r t) (ren r A).
  Proof.
    induction 1; intros r G' Hr; cbn [ren].
    - constructor.
    - eapply wt_conv; [constructor; eassumption|]. rewrite ren_as_sub. apply conv_sym, strip_stable with (c := c). assumption.
    - destruct (Hr _ _ H) as (B' & H1 & H2). rewrite <- H2. constructor. assumption.
    - rewrite ren_subst1. eapply wt_app; [apply (IHwell_typed1 _ _ Hr)|apply IHwell_typed2; assumption].
    - eapply wt_lam; [apply (IHwell_typed1 _ _ Hr)|apply IHwell_typed2, ren_ok_up; assumption| |eassumption].
      rewrite <- (ren_sort (up_ren r) s) by assumption. apply IHwell_typed3, ren_ok_up; assumption.
    - rewrite (ren_sort r s) by assumption.
      eapply wt_pi; [apply (IHwell_typed1 _ _ Hr)| |eassumption].
      rewrite <- (ren_sort (up_ren r) s) by assumption. apply IHwell_typed2, ren_ok_up; assumption.
    - eapply wt_conv; [apply IHwell_typed; eassumption|]. apply conv_ren. assumption.
  Qed.
  Lemma wt_weaken G A t T : wt G t T -> wt (A :: G) (ren S t) (ren S T).
  Proof. intros H. eapply wt_ren; [exact H|apply ren_ok_S]. Qed.

  (** ** Substitution *)
  Definition wsub_ok (s : nat -> tm) (D G : list tm) : Prop :=
    (forall n, s n <> Kind) /\
    forall m B, nth_error D m = Some B -> wt G (s m) (sub s (lift (S m) B)).
  Lemma wsub_ok_up s D G A : wsub_ok s D G -> wsub_ok (up s) (A :: D) (sub s A :: G).
  Proof.
    intros [HK H]. split.
    - intros [|n]; cbn; [discriminate|]. intros E. apply (HK n). eapply ren_kind; eassumption.
    - intros [|m] B; cbn [nth_error up].
      + intros [= <-]. replace (sub (up s) (lift 1 A)) with (lift 1 (sub s A)); [constructor; reflexivity|].
        unfold lift. rewrite ren_sub, sub_ren. apply sub_ext. intros n. replace (n + 1) with (S n) by lia. cbn.
        apply ren_ext. intros; lia.
      + intros Hm. replace (sub (up s) (lift (S (S m)) B)) with (ren S (sub s (lift (S m) B))); [apply wt_weaken, H; assumption|].
        unfold lift. rewrite !ren_sub, !sub_ren, ?ren_sub. apply sub_ext. intros n. replace (n + S (S m)) with (S (n + S m)) by lia. reflexivity.
  Qed.
  Lemma wt_sub D t A : wt D t A -> forall s G, wsub_ok s D G -> wt G (sub s t) (sub s A).
  Proof.
    induction 1; intros r G' Hr; cbn [sub].
    - constructor.
    - eapply wt_conv; [constructor; eassumption|]. apply conv_sym, strip_stable with (c := c). assumption.
    - apply Hr. assumption.
    - rewrite sub_subst1. eapply wt_app; [apply (IHwell_typed1 _ _ Hr)|apply IHwell_typed2; assumption].
    - eapply wt_lam; [apply (IHwell_typed1 _ _ Hr)|apply IHwell_typed2, wsub_ok_up; assumption| |eassumption].
      rewrite <- (sub_sort (up r) s) by assumption. apply IHwell_typed3, wsub_ok_up; assumption.
    - rewrite (sub_sort r s) by assumption.
      eapply wt_pi; [apply (IHwell_typed1 _ _ Hr)| |eassumption].
      rewrite <- (sub_sort (up r) s) by assumption. apply IHwell_typed2, wsub_ok_up; assumption.
    - eapply wt_conv; [apply IHwell_typed; eassumption|]. apply conv_sub. assumption.
  Qed.
  Lemma wt_not_kind G t A : wt G t A -> t <> Kind.
  Proof. intros H ->. eapply wgen_kind; eassumption. Qed.
  Lemma wsub_ok_one G A u : wt G u A -> wsub_ok (scons u Var) (A :: G) G.
  Proof.
    intros H. split.
    - intros [|n]; cbn; [eapply wt_not_kind; eassumption|discriminate].
    - intros [|m] B; cbn [nth_error scons].
      + intros [= <-]. unfold lift. rewrite sub_ren. rewrite sub_id_ext; [exact H|]. intros n. replace (n + 1) with (S n) by lia. reflexivity.
      + intros Hm. replace (sub (scons u Var) (lift (S (S m)) B)) with (lift (S m) B); [constructor; exact Hm|].
        unfold lift. rewrite sub_ren, ren_as_sub. apply sub_ext. intros n. replace (n + S (S m)) with (S (n + S m)) by lia. reflexivity.
  Qed.
  Lemma wt_subst1 G A t B u : wt (A :: G) t B -> wt G u A -> wt G (subst1 u t) (subst1 u B).
  Proof. intros Ht Hu. eapply wt_sub; [exact Ht|]. apply wsub_ok_one. exact Hu. Qed.

  (** ** Preservation *)
  Hypothesis Hpi : pi_injective sg.

  Section Rule.
    Variables (D G : list tm) (s : nat -> tm).
    Definition whd (f f' : tm) : Prop := forall F X, wt D f F -> wt G f' X -> conv (sub s F) X.
    Definition wocc (p : pat) : Prop :=
      forall m, In m (pat_vars p) -> exists B, nth_error D m = Some B /\ wt G (s m) (sub s (lift (S m) B)).

    Lemma winst_const c : whd (Const c) (Const c).
    Proof.
      intros F X HF HX. destruct (wgen_const _ _ _ HF) as (A1 & E1 & C1). destruct (wgen_const _ _ _ HX) as (A2 & E2 & C2).
      rewrite E1 in E2. injection E2 as <-. eapply conv_trans; [apply conv_sub, conv_sym; exact C1|].
      eapply conv_trans; [eapply strip_stable; exact E1|exact C2].
    Qed.
    Lemma winst_sub p : no_joker p -> forall l t, inst Var p l -> inst s p t -> sub s l = t.
    Proof.
      induction p as [c ps IH|m|] using pat_ind'; intros Hj l t Hl Ht; inversion Hl; inversion Ht; subst.
      - rewrite sub_apps. cbn [sub]. f_equal.
        inversion Hj as [|? ? Hj']; subst. clear Hj Hl Ht.
        match goal with Ha : Forall2 (inst Var) ps _, Hb : Forall2 (inst s) ps _ |- _ => rename Ha into H1; rename Hb into H2 end.
        revert ts ts0 H1 H2. induction IH as [|p ps Hp _ IHps]; intros ls us H1 H2; inversion H1; inversion H2; subst; [reflexivity|].
        inversion Hj'; subst. cbn [map]. f_equal; auto.
      - reflexivity.
      - inversion Hj.
    Qed.
    Lemma winst_typed p : no_joker p -> forall l t A, inst Var p l -> inst s p t -> wt D l A -> wt G t (sub s A) -> wocc p.
    Proof.
      induction p as [c ps IH|m|] using pat_ind'; intros Hj l t A Hl Ht HA HT.
      - inversion Hl; inversion Ht; inversion Hj; subst. 
        match goal with Ha : Forall2 (inst Var) ps ?ls, Hb : Forall2 (inst s) ps ?us |- _ => rename Ha into H1; rename Hb into H2; rename ls into ls0; rename us into us0 end.
        intros m Hm. cbn [pat_vars] in Hm. apply in_flat_map in Hm. destruct Hm as (p & Hp & Hm).
        enough (X : forall ps', Forall no_joker ps' -> (forall q, In q ps' -> In q ps) -> forall ls us f f' A T, Forall2 (inst Var) ps' ls -> Forall2 (inst s) ps' us -> whd f f' -> wt D (apps f ls) A -> wt G (apps f' us) T ->
          (exists F F', wt D f F /\ wt G f' F') /\ forall q, In q ps' -> wocc q).
        { destruct (X ps ltac:(assumption) (fun q h => h) _ _ (Const c) (Const c) A (sub s A) H1 H2 (winst_const c) HA HT) as [_ Y]. apply (Y p Hp m Hm). }
        clear - IH Hst Hpi. intros ps'. induction ps' as [|q ps' IHp]; intros Hj Hs ls us f f' A T H1 H2 Hf HA HT; inversion H1; inversion H2; subst; cbn [apps] in *.
        + split; [eauto|]. intros q [].
        + inversion Hj; subst.
          assert (Eq : sub s y = y0) by (apply winst_sub with (p := q); assumption).
          assert (Hf' : whd (App f y) (App f' y0)).
          { intros F X HF HX. destruct (wgen_app _ _ _ _ HF) as (A1 & B1 & E1 & E2 & E3). destruct (wgen_app _ _ _ _ HX) as (A2 & B2 & E1' & E2' & E3').
            pose proof (Hf _ _ E1 E1') as Hc. cbn [sub] in Hc. destruct (Hpi _ _ _ _ Hc) as [CA CB].
            eapply conv_trans; [apply conv_sub, conv_sym; exact E3|]. rewrite sub_subst1, Eq. eapply conv_trans; [|exact E3'].
            apply conv_subst1; [apply conv_refl|exact CB]. }
          destruct (IHp ltac:(assumption) (fun q0 h => Hs q0 (or_intror h)) _ _ _ _ _ _ ltac:(eassumption) ltac:(eassumption) Hf' HA HT) as [(F & F' & HF & HF') IHo].
          destruct (wgen_app _ _ _ _ HF) as (A1 & B1 & E1 & E2 & E3). destruct (wgen_app _ _ _ _ HF') as (A2 & B2 & E1' & E2' & E3').
          split; [eauto|]. intros q0 [<-|Hq]; [|apply IHo; exact Hq].
          pose proof (Hf _ _ E1 E1') as Hc. cbn [sub] in Hc. destruct (Hpi _ _ _ _ Hc) as [CA CB].
          rewrite Forall_forall in IH. eapply (IH q (Hs q (or_introl eq_refl))); try eassumption.
          eapply wt_conv; [exact E2'|apply conv_sym; exact CA].
      - inversion Hl; inversion Ht; subst. destruct (wgen_var _ _ _ HA) as (B & HB & HBA).
        intros m' [<-|[]]. exists B. split; [exact HB|]. eapply wt_conv; [exact HT|]. apply conv_sub, conv_sym. exact HBA.
      - intros m [].
    Qed.
    Lemma winst_heads ps : Forall no_joker ps -> forall ls us f f', Forall2 (inst Var) ps ls -> Forall2 (inst s) ps us -> whd f f' ->
      whd (apps f ls) (apps f' us).
    Proof.
      induction 1 as [|p ps Hj _ IH]; intros ls us f f' H1 H2 Hf; inversion H1; inversion H2; subst; cbn [apps]; [exact Hf|].
      apply IH; [assumption..|]. intros F X HF HX.
      destruct (wgen_app _ _ _ _ HF) as (A1 & B1 & E1 & E2 & E3). destruct (wgen_app _ _ _ _ HX) as (A2 & B2 & E1' & E2' & E3').
      pose proof (Hf _ _ E1 E1') as Hc. cbn [sub] in Hc. destruct (Hpi _ _ _ _ Hc) as [CA CB].
      eapply conv_trans; [apply conv_sub, conv_sym; exact E3|]. rewrite sub_subst1, (winst_sub p) with (t := y0) by assumption.
      eapply conv_trans; [|exact E3']. apply conv_subst1; [apply conv_refl|exact CB].
    Qed.
  End Rule.

  (** Variables beyond those of a rule do not occur in its right-hand side. *)
  Lemma wt_scoped G t A : wt G t A -> scoped (length G) t.
  Proof. induction 1; cbn [scoped length] in *; auto. apply nth_error_Some. congruence. Qed.

  Lemma rule_wt c r s ts : usable r -> good_rule sg c r -> Forall2 (inst s) (sr_args r) ts ->
    forall G T, wt G (apps (Const c) ts) T -> wt G (sub s (strip (sr_rhs r))) T.
  Proof.
    intros Hu0 (r' & Hn & Hj & D & l & A & HD & Hl & HlA & HrA) Hi00 G T HT.
    destruct (named_inst _ _ Hn Hu0 _ _ Hi00) as (s1 & Hu & Hi0 & ->). clear Hn Hu0 Hi00 s r. rename r' into r, s1 into s. inversion Hl; subst.
    set (s' := fun n => if n <? sr_vars r then s n else Var n).
    assert (Hs : forall m, m < sr_vars r -> s m = s' m) by (intros m Hm; unfold s'; destruct (Nat.ltb_spec m (sr_vars r)); [reflexivity|lia]).
    rewrite (sub_scoped _ (sr_vars r) s s'); [|rewrite <- HD; eapply wt_scoped; exact HrA|exact Hs].
    assert (Hi : Forall2 (inst s') (sr_args r) ts).
    { apply insts_ext with (s := s); [|exact Hi0]. intros m Hm. apply Hs, Hu. exact Hm. }
    pose proof (winst_heads D G s' _ Hj _ _ _ _ ltac:(eassumption) Hi (winst_const D G s' c)) as Hh.
    assert (Ho : wocc D G s' (PatSymb c (sr_args r))).
    { eapply winst_typed; [constructor; exact Hj|exact Hl|constructor; exact Hi|exact HlA|]. eapply wt_conv; [exact HT|]. apply conv_sym, Hh; assumption. }
    assert (Hocc : forall m, m < sr_vars r -> exists B, nth_error D m = Some B /\ wt G (s' m) (sub s' (lift (S m) B))).
    { intros m Hm. apply (Ho m). cbn [pat_vars]. apply Hu. exact Hm. }
    eapply wt_conv; [eapply wt_sub; [exact HrA|]|apply Hh; assumption]. split.
    - intros m. destruct (Nat.lt_ge_cases m (sr_vars r)) as [Hm|Hm].
      + destruct (Hocc _ Hm) as (B & _ & HB). eapply wt_not_kind. exact HB.
      + unfold s'. destruct (Nat.ltb_spec m (sr_vars r)); [lia|discriminate].
    - intros m B HB. assert (Hm : m < sr_vars r) by (rewrite <- HD; apply nth_error_Some; congruence).
      destruct (Hocc _ Hm) as (B' & HB' & Ht). rewrite HB in HB'. injection HB' as <-. exact Ht.
  Qed.

  Lemma wt_red : good_rules sg -> forall t u, red sg t u -> forall G T, wt G t T -> wt G u T.
  Proof.
    intros Hg t u H. induction H; intros G T HT.
    - destruct (wgen_app _ _ _ _ HT) as (A & B & H1 & H2 & H3). destruct (wgen_ulam _ _ _ H1) as (A' & B' & K1 & K2 & _ & K4).
      destruct (Hpi _ _ _ _ K4) as [CA CB]. eapply wt_conv; [|exact H3]. eapply wt_conv; [eapply wt_subst1; [exact K2|]|apply conv_subst1; [apply conv_refl|exact CB]].
      eapply wt_conv; [exact H2|apply conv_sym; exact CA].
    - eapply rule_wt; eauto.
    - destruct (wgen_app _ _ _ _ HT) as (A & B & H1 & H2 & H3). eapply wt_conv; [eapply wt_app; eauto|exact H3].
    - destruct (wgen_app _ _ _ _ HT) as (A & B & H1 & H2 & H3). eapply wt_conv; [eapply wt_app; eauto|].
      eapply conv_trans; [|exact H3]. apply conv_subst1; [apply conv_sym, red_conv; exact H|apply conv_refl].
    - destruct (wgen_ulam _ _ _ HT) as (A & B & H1 & H2 & (s & Hs & H3) & H4). eapply wt_conv; [eapply wt_lam; eauto|exact H4].
    - destruct (wgen_lam _ _ _ _ HT).
    - destruct (wgen_lam _ _ _ _ HT).
    - destruct (wgen_pi _ _ _ _ HT) as (s & H1 & H2 & H3 & H4). eapply wt_conv; [eapply wt_pi; eauto|exact H4].
      eapply wt_head_conv; [apply red_conv; exact H|exact H2].
    - destruct (wgen_pi _ _ _ _ HT) as (s & H1 & H2 & H3 & H4). eapply wt_conv; [eapply wt_pi; eauto|exact H4].
  Qed.
  Lemma wt_reds : good_rules sg -> forall t u, reds sg t u -> forall G T, wt G t T -> wt G u T.
  Proof. intros Hg t u H. induction H; eauto using wt_red. Qed.

  (** ** Types in contexts of types *)
  Lemma type_ctx_nth G : type_ctx sg G -> forall n A, nth_error G n = Some A -> wt G (lift (S n) A) Typ.
  Proof.
    induction 1 as [|G A HG IH HA]; intros [|n] B; cbn [nth_error]; try discriminate.
    - intros [= <-]. replace (lift 1 A) with (ren S A); [apply (wt_weaken _ _ _ _ HA)|]. unfold lift. apply ren_ext. intros; lia.
    - intros Hn. replace (lift (S (S n)) B) with (ren S (lift (S n) B)); [apply (wt_weaken _ _ _ _ (IH _ _ Hn))|].
      unfold lift. rewrite ren_ren. apply ren_ext. intros; lia.
  Qed.
  Lemma wt_closed A s G : wt [] A s -> s = Typ \/ s = Kind -> wt G A s.
  Proof.
    intros H Hs. assert (Hr : ren_ok (fun n => n) [] G) by (intros [|m] B; discriminate).
    pose proof (wt_ren _ _ _ H _ _ Hr) as X. rewrite (ren_sort _ s Hs) in X. rewrite ren_as_sub in X. rewrite sub_id_ext in X; [exact X|reflexivity].
  Qed.
End Facts.
