(** * Preservation of types by evaluation *)

From Verif Require Import Base ModelTerm ModelGctx ModelCommand ModelSubst ModelReduce ModelInfer ModelSyntax ModelShare ModelProcess
  SpecTerm SpecConv SpecConvFacts SpecTyping SpecBidir SpecWhnf SpecRed SpecType SpecQuery SpecProcess RedConfl EtaConfl RedStuck Erase RefMachine SoundInfer
  TypeFacts TypePres RefTyped SoundSorted MainKernel MainBidir MainGctx MainProcess MainRun MainVerify.

Lemma church_rosser_pi sg : church_rosser sg -> pi_injective sg.
Proof.
  intros Hcr a b a' b' H. destruct (Hcr _ _ H) as (v & H1 & H2). cbn [strip] in H1, H2.
  apply redxs_pi_inv in H1 as (a1 & b1 & -> & A1 & B1). apply redxs_pi_inv in H2 as (a2 & b2 & E & A2 & B2). injection E as <- <-.
  apply redxs_conv in A1, B1, A2, B2.
  split; (eapply conv_trans; [apply conv_strip|]; eapply conv_trans; [eassumption|]; apply conv_sym;
    eapply conv_trans; [apply conv_strip|]; assumption).
Qed.

Lemma orthogonal_pi sg : orthogonal sg -> sg_eta sg = false -> pi_injective sg.
Proof. intros H1 H2. apply church_rosser_pi, orthogonal_church_rosser; assumption. Qed.

(** ** Evaluation *)
Lemma main_whnf_pr uniq gc n t t' : stable_types (er_gctx gc) -> pi_injective (er_gctx gc) -> rules_typed (er_gctx gc) ->
  ModelInfer.run (whnf uniq gc n t) = Ok t' -> pr (er_gctx gc) (ers t) (ers t').
Proof. intros H1 H2 H3 H. apply run_whnf_ref in H. destruct H as [h H]. eapply r_whnf_typed; eassumption. Qed.
Lemma whnf_type uniq gc n t t' : stable_types (er_gctx gc) -> pi_injective (er_gctx gc) -> rules_typed (er_gctx gc) ->
  ModelInfer.run (whnf uniq gc n t) = Ok t' ->
  forall G T, has_type (er_gctx gc) G (ers t) T -> has_type (er_gctx gc) G (ers t') T.
Proof. intros H1 H2 H3 H G T. eapply pr_type. eapply main_whnf_pr; eassumption. Qed.
Lemma main_whnf_type uniq gc n t t' : closed_types (er_gctx gc) -> pi_injective (er_gctx gc) -> rules_typed (er_gctx gc) ->
  ModelInfer.run (whnf uniq gc n t) = Ok t' ->
  forall G T, has_type (er_gctx gc) G (ers t) T -> has_type (er_gctx gc) G (ers t') T.
Proof.
  intros H1 H2 H3 H. eapply whnf_type; [apply closed_stable; exact H1|exact H2|exact H3|exact H].
Qed.

(** ** Uniqueness *)
Lemma main_infer_unique uniq gc n lc t ty B : pi_injective (er_gctx gc) -> Forall kind_free lc -> kind_free t ->
  ModelInfer.run (ModelInfer.infer uniq gc n lc t) = Ok ty -> has_type (er_gctx gc) (map ers lc) (ers t) B -> conv (er_gctx gc) (ers ty) B.
Proof.
  intros Hpi Hlc Ht H HB. eapply infers_unique; [exact Hpi| |exact HB]. eapply main_infers_s; eassumption.
Qed.
Lemma kind_free_whnf uniq gc n t t' : kind_free t -> ModelInfer.run (whnf uniq gc n t) = Ok t' -> kind_free t'.
Proof.
  intros Hk H. apply kind_free_kf. pose proof (run_ok0 _ _ _ (whnf_ok uniq gc n t (proj1 (kind_free_kf t) Hk)) H) as X. apply X.
Qed.
Lemma infer_whnf uniq1 uniq2 uniq3 gc n1 n2 n3 lc t t' ty ty' :
  stable_types (er_gctx gc) -> pi_injective (er_gctx gc) -> rules_typed (er_gctx gc) -> Forall kind_free lc -> kind_free t ->
  ModelInfer.run (ModelInfer.infer uniq1 gc n1 lc t) = Ok ty -> ModelInfer.run (whnf uniq2 gc n2 t) = Ok t' -> ModelInfer.run (ModelInfer.infer uniq3 gc n3 lc t') = Ok ty' ->
  conv (er_gctx gc) (ers ty) (ers ty').
Proof.
  intros H1 H2 H3 Hlc Ht Hi Hw Hi'. apply conv_sym.
  apply (main_infer_unique uniq3 gc n3 lc t'); try assumption; [eapply kind_free_whnf; eassumption|].
  eapply whnf_type; try eassumption. eapply main_infer_s; eassumption.
Qed.
Lemma main_infer_whnf uniq1 uniq2 uniq3 gc n1 n2 n3 lc t t' ty ty' :
  closed_types (er_gctx gc) -> pi_injective (er_gctx gc) -> rules_typed (er_gctx gc) -> Forall kind_free lc -> kind_free t ->
  ModelInfer.run (ModelInfer.infer uniq1 gc n1 lc t) = Ok ty -> ModelInfer.run (whnf uniq2 gc n2 t) = Ok t' ->
  ModelInfer.run (ModelInfer.infer uniq3 gc n3 lc t') = Ok ty' ->
  conv (er_gctx gc) (ers ty) (ers ty').
Proof. intros H. apply infer_whnf, closed_stable, H. Qed.

(** ** Inferred types are types *)
Lemma sorted_run uniq gc n lc t ty : stable_types (er_gctx gc) -> pi_injective (er_gctx gc) -> rules_typed (er_gctx gc) ->
  sorted_types (er_gctx gc) -> Forall kind_free lc -> kind_free t -> sorted_ctx (er_gctx gc) (map ers lc) ->
  ModelInfer.run (ModelInfer.infer uniq gc n lc t) = Ok ty -> sorted (er_gctx gc) (map ers lc) (ers ty).
Proof.
  intros H1 H2 H3 H4 Hlc Ht Hs H.
  assert (Hlc' : Forall kf lc) by (eapply Forall_impl; [|exact Hlc]; intros; now apply kind_free_kf).
  exact (run_ok0 _ _ _ (sorted_sound uniq gc H1 H2 H3 H4 n lc t Hlc' (proj1 (kind_free_kf t) Ht) Hs) H).
Qed.
Lemma main_sorted uniq gc n lc t ty : closed_types (er_gctx gc) -> pi_injective (er_gctx gc) -> rules_typed (er_gctx gc) ->
  sorted_types (er_gctx gc) -> Forall kind_free lc -> kind_free t -> sorted_ctx (er_gctx gc) (map ers lc) ->
  ModelInfer.run (ModelInfer.infer uniq gc n lc t) = Ok ty -> sorted (er_gctx gc) (map ers lc) (ers ty).
Proof. intros H. apply sorted_run, closed_stable, H. Qed.

(** ** Signatures of verified programs *)
Definition sig_mono (sg sg' : sig) : Prop :=
  (forall c A, sg_type sg c = Some A -> sg_type sg' c = Some A) /\
  (forall c rs r, sg_rules sg c = Some rs -> In r rs -> exists rs', sg_rules sg' c = Some rs' /\ In r rs') /\
  sg_eta sg' = sg_eta sg.
Lemma sig_mono_refl sg : sig_mono sg sg.
Proof. split; [auto|]. split; [eauto|reflexivity]. Qed.
Lemma sig_mono_trans sg1 sg2 sg3 : sig_mono sg1 sg2 -> sig_mono sg2 sg3 -> sig_mono sg1 sg3.
Proof.
  intros (T1 & R1 & E1) (T2 & R2 & E2). split; [auto|]. split; [|congruence].
  intros c rs r H1 H2. destruct (R1 _ _ _ H1 H2) as (rs' & H3 & H4). eauto.
Qed.
Lemma sig_mono_conv sg sg' t u : sig_mono sg sg' -> conv sg t u -> conv sg' t u.
Proof. intros (T & R & E). apply conv_mono; [exact R|congruence]. Qed.
Lemma sig_mono_type sg sg' G t A : sig_mono sg sg' -> has_type sg G t A -> has_type sg' G t A.
Proof.
  intros M H. induction H; try (econstructor; eauto; fail).
  - constructor. apply M. assumption.
  - eapply ty_conv; [eassumption|]. eapply sig_mono_conv; eassumption.
Qed.

(** Types and rules of [sg], with respect to the final signature [fin] *)
Definition sig_ok (fin sg : sig) : Prop :=
  (forall c A, sg_type sg c = Some A -> forall s, conv fin (sub s A) A) /\
  (forall c rs r, sg_rules sg c = Some rs -> In r rs -> rule_typed fin c r).
Definition sig_dom (sg : sig) : Prop := forall c, sg_rules sg c <> None -> sg_type sg c <> None.

(** A type that may depend only on the first [k] variables *)
Definition stable (sg : sig) (k : nat) (T : tm) : Prop :=
  forall s, (forall m, m < k -> s m = Var m) -> conv sg (sub s T) T.
Lemma stable_up s k : (forall m, m < k -> s m = Var m) -> forall m, m < S k -> up s m = Var m.
Proof. intros H [|m] Hm; cbn; [reflexivity|]. rewrite H by lia. reflexivity. Qed.
Lemma scoped_id t : forall k s, scoped k t -> (forall m, m < k -> s m = Var m) -> sub s t = t.
Proof. intros k s Ht Hs. rewrite (sub_scoped t k s Var Ht Hs). apply sub_id. Qed.
Lemma scoped_stable sg k t : scoped k t -> stable sg k t.
Proof. intros H s Hs. rewrite (scoped_id _ _ _ H Hs). apply conv_refl. Qed.
Lemma bidir_scoped sg :
  (forall G t A, infers sg G t A -> scoped (length G) t) /\ (forall G t A, checks sg G t A -> scoped (length G) t).
Proof.
  apply bidir_ind; intros; cbn [scoped length] in *; auto. apply nth_error_Some. congruence.
Qed.

Lemma infers_stable sg fin : sig_mono sg fin -> pi_injective fin -> sig_ok fin sg ->
  forall G t A, infers sg G t A -> (forall m B, nth_error G m = Some B -> stable fin (length G) (lift (S m) B)) ->
  stable fin (length G) A.
Proof.
  intros Hm Hpi Hok. induction 1 as [G|G c A H|G n A H|G t u T A B Ht IHt HT Hu|G A t B HA IHA Ht IHt HB|G A B s HA IHA HB IHB Hs]; intros HG.
  - apply scoped_stable. exact I.
  - intros s _. eapply (proj1 Hok). exact H.
  - apply HG. exact H.
  - intros s Hs. specialize (IHt HG s Hs). apply (sig_mono_conv _ _ _ _ Hm) in HT.
    assert (Hc : conv fin (sub s (Pi A B)) (Pi A B)).
    { eapply conv_trans; [apply conv_sub, conv_sym; exact HT|]. eapply conv_trans; [exact IHt|exact HT]. }
    cbn [sub] in Hc. destruct (Hpi _ _ _ _ Hc) as [_ HB]. rewrite sub_subst1.
    rewrite (scoped_id u (length G) s); [|exact (proj2 (bidir_scoped sg) _ _ _ Hu)|exact Hs]. apply conv_subst1; [apply conv_refl|exact HB].
  - intros s Hs. cbn [sub]. apply conv_pi.
    + rewrite (scoped_id A (length G) s); [apply conv_refl|exact (proj1 (bidir_scoped sg) _ _ _ HA)|exact Hs].
    + apply IHt; [|apply stable_up; exact Hs]. cbn [length]. apply proj1 with (B := True). split; [|exact I].
      intros [|m] B'; cbn [nth_error].
      * intros [= <-]. apply scoped_stable. apply (proj1 (bidir_scoped sg)) in HA. revert HA. unfold lift. generalize (length G). clear.
        intros k H. assert (X : forall t k r k', scoped k t -> (forall m, m < k -> r m < k') -> scoped k' (ren r t)).
        { clear. induction t; intros k r k' H Hr; cbn [scoped ren] in *; auto.
          - destruct H. eauto.
          - destruct H as [H1 H2]. split; [eauto|]. eapply IHt2; [exact H2|]. intros [|m] Hm; cbn; [lia|]. specialize (Hr m). lia.
          - eapply IHt; [exact H|]. intros [|m] Hm; cbn; [lia|]. specialize (Hr m). lia.
          - destruct H as [H1 H2]. split; [eauto|]. eapply IHt2; [exact H2|]. intros [|m] Hm; cbn; [lia|]. specialize (Hr m). lia. }
        eapply X; [exact H|]. intros m Hm. lia.
      * intros H. specialize (HG _ _ H). intros s' Hs'.
        replace (lift (S (S m)) B') with (ren S (lift (S m) B')) by (unfold lift; rewrite ren_ren; apply ren_ext; intros; lia).
        rewrite sub_ren.
        assert (E : conv fin (sub (fun n => s' (S n)) (lift (S m) B')) (ren S (lift (S m) B'))).
        { (* [s' . S] is [ren S . s''] up to conversion, as only the variables below [length G] matter *)
          pose (s2 := fun n => if n <? length G then Var n else Var (S n)).
          pose proof (HG (fun n => if n <? length G then Var n else Kind)) as K1.
          assert (K2 : conv fin (sub (fun n => s' (S n)) (sub (fun n => if n <? length G then Var n else Kind) (lift (S m) B'))) (sub (fun n => s' (S n)) (lift (S m) B'))).
          { apply conv_sub, K1. intros n Hn. destruct (Nat.ltb_spec n (length G)); [reflexivity|lia]. }
          assert (K3 : conv fin (ren S (sub (fun n => if n <? length G then Var n else Kind) (lift (S m) B'))) (ren S (lift (S m) B'))).
          { apply conv_ren, K1. intros n Hn. destruct (Nat.ltb_spec n (length G)); [reflexivity|lia]. }
          eapply conv_trans; [apply conv_sym; exact K2|]. eapply conv_trans; [|exact K3].
          rewrite sub_sub, ren_sub.
          assert (Q : forall n, sub (fun n => s' (S n)) (if n <? length G then Var n else Kind) = ren S (if n <? length G then Var n else Kind)).
          { intros n. destruct (Nat.ltb_spec n (length G)); cbn; [apply Hs'; lia|reflexivity]. }
          rewrite (sub_ext _ _ _ Q). apply conv_refl. }
        exact E.
  - apply scoped_stable. destruct Hs as [-> | ->]; exact I.
Qed.

Lemma joker_free_no p : joker_free p = true -> no_joker p.
Proof.
  induction p as [c ps IH|m|] using pat_ind'; cbn; try discriminate; [|constructor]. intros H. constructor.
  rewrite forallb_forall in H. rewrite Forall_forall in IH |- *. auto.
Qed.

Lemma extends_mono sg c A rs sg' : sg_rules sg c = None -> extends sg c A rs sg' -> sig_mono sg sg'.
Proof.
  intros Hr (Hn & HT & HR & HE). split; [|split].
  - intros d B HB. rewrite HT. destruct (Nat.eqb_spec d c) as [->|]; [congruence|exact HB].
  - intros d rs0 r H1 H2. rewrite HR. destruct (Nat.eqb_spec d c) as [->|]; [congruence|eauto].
  - exact HE.
Qed.
Lemma rules_for_in c r rs : In r (rules_for c rs) -> exists v, In v rs /\ v_head v = c /\ r = MkSRule (length (v_ctx v)) (v_args v) (v_rhs v).
Proof.
  induction rs as [|v rs IH]; cbn; [intros []|]. destruct (Nat.eqb_spec (v_head v) c).
  - intros [<-|H]; [eauto|]. destruct (IH H) as (v' & ? & ? & ?). eauto.
  - intros H. destruct (IH H) as (v' & ? & ? & ?). eauto.
Qed.

Lemma no_rules sg c : sig_dom sg -> sg_type sg c = None -> sg_rules sg c = None.
Proof. intros H Hc. destruct (sg_rules sg c) eqn:E; [|reflexivity]. exfalso. apply (H c); congruence. Qed.
Lemma extends_dom sg c A rs sg' : sig_dom sg -> extends sg c A rs sg' -> sig_dom sg'.
Proof.
  intros H (Hn & HT & HR & HE) d. rewrite HR, HT. destruct (Nat.eqb_spec d c); [discriminate|apply H].
Qed.
Lemma extends_ok fin sg c A rs sg' : sig_ok fin sg -> extends sg c A rs sg' -> (forall s, conv fin (sub s A) A) ->
  (forall l r, rs = Some l -> In r l -> rule_typed fin c r) -> sig_ok fin sg'.
Proof.
  intros (H1 & H2) (Hn & HT & HR & HE) HA Hr. split.
  - intros d B. rewrite HT. destruct (Nat.eqb_spec d c); [intros [= <-]; exact HA|apply H1].
  - intros d l r. rewrite HR. destruct (Nat.eqb_spec d c) as [->|]; [apply Hr|apply H2].
Qed.

Lemma def_rule_typed fin c A t : sg_type fin c = Some A -> has_type fin [] t A -> rule_typed fin c (MkSRule 0 [] t).
Proof.
  intros Hc Ht. split; [constructor|]. exists [], (Const c), A. split; [reflexivity|]. split; [apply (inst_symb _ c [] []); constructor|].
  split; [constructor; exact Hc|exact Ht].
Qed.

Lemma verified_mono sg cmd sg' : verified sg cmd sg' -> sig_dom sg -> sig_mono sg sg' /\ sig_dom sg'.
Proof.
  intros H Hd. destruct H;
    try (match goal with H : extends _ _ _ _ _ |- _ =>
           split; [eapply extends_mono; [apply no_rules; [exact Hd|apply H]|exact H]|eapply extends_dom; eassumption] end).
  destruct H0 as (Hh & HT & HR & HE). split; [split; [|split]|].
  - intros c A Hc. rewrite HT. exact Hc.
  - intros c rs0 r Hc Hin. rewrite HR, Hc. eexists. split; [reflexivity|apply in_or_app; auto].
  - exact HE.
  - intros c. rewrite HR, HT. destruct (sg_rules sg c) eqn:E; [intros _; apply Hd; congruence|congruence].
Qed.

Lemma closed_conv fin A : scoped 0 A -> forall s, conv fin (sub s A) A.
Proof. intros H s. apply (scoped_stable fin 0 A H). intros m Hm. lia. Qed.

Lemma verified_ok sg cmd sg' fin : verified sg cmd sg' -> annotated cmd -> sig_dom sg -> sig_ok fin sg -> sig_mono sg' fin ->
  pi_injective fin -> sig_ok fin sg'.
Proof.
  intros H Ha Hd Hok Hm Hpi. pose proof (proj1 (verified_mono _ _ _ H Hd)) as Hm0. pose proof (sig_mono_trans _ _ _ Hm0 Hm) as Hm1.
  assert (Hnew : forall c A rs, extends sg c A rs sg' -> sg_type fin c = Some A).
  { intros c A rs (_ & HT & _). apply Hm. rewrite HT, Nat.eqb_refl. reflexivity. }
  destruct H as [c rw A s sg' Hs HA Hx|c A s sg' Hs HA Hx|c A K t sg' HA Ht Hx|c A t sg' Ht Hi Hx|c A K t sg' HA Ht Hx|rs sg' Hrs Hx].
  - eapply extends_ok; [exact Hok|exact Hx|apply closed_conv; eapply (type_scoped sg []); exact HA|].
    intros l r El Hin. destruct rw; [injection El as <-; destruct Hin|discriminate].
  - eapply extends_ok; [exact Hok|exact Hx|apply closed_conv; eapply (type_scoped sg []); exact HA|].
    intros l r [= <-] [].
  - eapply extends_ok; [exact Hok|exact Hx|apply closed_conv; eapply (type_scoped sg []); exact HA|].
    intros l r [= <-] [<-|[]]. eapply def_rule_typed; [eapply Hnew; exact Hx|eapply sig_mono_type; eassumption].
  - eapply extends_ok; [exact Hok|exact Hx| |].
    + intros s. apply (infers_stable sg fin Hm1 Hpi Hok [] t A Hi); [intros [|m] B; discriminate|intros m Hlt; cbn in Hlt; lia].
    + intros l r [= <-] [<-|[]]. eapply def_rule_typed; [eapply Hnew; exact Hx|eapply sig_mono_type; eassumption].
  - eapply extends_ok; [exact Hok|exact Hx|apply closed_conv; eapply (type_scoped sg []); exact HA|]. discriminate.
  - destruct Hx as (Hh & HT & HR & HE). destruct Hok as (O1 & O2). split.
    + intros c A. rewrite HT. apply O1.
    + intros c l r. rewrite HR. destruct (sg_rules sg c) as [l0|] eqn:El; [|discriminate]. intros [= <-] Hin.
      apply in_app_or in Hin. destruct Hin as [Hin|Hin]; [eapply O2; eassumption|].
      apply rules_for_in in Hin as (v & Hv & <- & ->). cbn in Ha. rewrite Forall_forall in Hrs, Ha.
      destruct (Ha v Hv) as [[tys Htys] Hj]. destruct (Hrs v Hv tys Htys Hj) as (lhs & ty & H1 & H2 & H3).
      split; cbn [sr_args sr_vars sr_rhs].
      * rewrite forallb_forall in Hj. apply Forall_forall. intros p Hp. apply joker_free_no, Hj, Hp.
      * exists (rev tys), lhs, ty. split; [rewrite Htys, map_length, rev_length; reflexivity|]. split; [exact H1|].
        split; eapply sig_mono_type; eassumption.
Qed.

Lemma verified_all_mono sg cmds fin : verified_all sg cmds fin -> sig_dom sg -> sig_mono sg fin.
Proof.
  induction 1 as [sg|sg cmd sg' cmds fin Hv Hvs IH]; intros Hd; [apply sig_mono_refl|].
  destruct (verified_mono _ _ _ Hv Hd) as [Hm Hd']. eapply sig_mono_trans; [exact Hm|auto].
Qed.
Lemma verified_all_ok sg cmds fin : verified_all sg cmds fin -> Forall annotated cmds -> pi_injective fin -> sig_dom sg ->
  sig_ok fin sg -> sig_ok fin fin.
Proof.
  intros H Ha Hpi. induction H as [sg|sg cmd sg' cmds fin Hv Hvs IH]; intros Hd Hok; [exact Hok|].
  inversion Ha as [|? ? Ha1 Ha2]; subst. destruct (verified_mono _ _ _ Hv Hd) as [Hm Hd'].
  apply IH; try assumption. eapply verified_ok; try eassumption. eapply verified_all_mono; eassumption.
Qed.
Lemma verified_program eta cmds fin : verified_all (empty_sig eta) cmds fin -> Forall annotated cmds -> pi_injective fin ->
  stable_types fin /\ rules_typed fin.
Proof.
  intros H Ha Hpi. destruct (verified_all_ok _ _ _ H Ha Hpi) as [H1 H2].
  - intros c Hc. exfalso. apply Hc. reflexivity.
  - split; intros; discriminate.
  - split; [exact H1|]. intros c rs r Hc Hin _. eapply H2; eassumption.
Qed.

(** ** Evaluation after a successful run *)
Section Program.
  Variables (O : query -> nat -> bool) (k : nat) (PE : Type) (eta jobs : bool).
  Let o := Opts eta None jobs.
  Variables (evs : list event) (st' : pst).
  Hypothesis Hrun : infer_checks_seq PE (real_kernel O k) o _ (consume_item PE o) (map Ok evs) (pst_new o) = (st', [], Ok tt).
  Hypothesis Hann : forall cmds, share_results evs (pst_new o) = map Ok cmds -> Forall annotated (map er_cmd cmds).
  Hypothesis Hpi : pi_injective (er_gctx (ps_gc st')).
  Lemma program_typed : stable_types (er_gctx (ps_gc st')) /\ rules_typed (er_gctx (ps_gc st')).
  Proof.
    destruct (seq_verified O k PE eta jobs evs _ _ Hrun) with (st0 := pst_new o) as (cmds & Hs & Hv); [intros c _; reflexivity|split; reflexivity|].
    eapply (verified_program eta); [exact Hv|apply Hann; exact Hs|exact Hpi].
  Qed.
  Lemma main_program_type uniq n t t' : ModelInfer.run (whnf uniq (ps_gc st') n t) = Ok t' ->
    forall G T, has_type (er_gctx (ps_gc st')) G (ers t) T -> has_type (er_gctx (ps_gc st')) G (ers t') T.
  Proof. destruct program_typed. apply whnf_type; assumption. Qed.
  Lemma main_program_infer uniq1 uniq2 uniq3 n1 n2 n3 lc t t' ty ty' : Forall kind_free lc -> kind_free t ->
    ModelInfer.run (ModelInfer.infer uniq1 (ps_gc st') n1 lc t) = Ok ty -> ModelInfer.run (whnf uniq2 (ps_gc st') n2 t) = Ok t' ->
    ModelInfer.run (ModelInfer.infer uniq3 (ps_gc st') n3 lc t') = Ok ty' ->
    conv (er_gctx (ps_gc st')) (ers ty) (ers ty').
  Proof. destruct program_typed. apply infer_whnf; assumption. Qed.
  Lemma main_program_sorted uniq n lc t ty : sorted_types (er_gctx (ps_gc st')) -> Forall kind_free lc -> kind_free t ->
    sorted_ctx (er_gctx (ps_gc st')) (map ers lc) ->
    ModelInfer.run (ModelInfer.infer uniq (ps_gc st') n lc t) = Ok ty -> sorted (er_gctx (ps_gc st')) (map ers lc) (ers ty).
  Proof. destruct program_typed. intros H4. apply sorted_run; assumption. Qed.
End Program.
