(** * Comparison with eta over definitions makes progress: the normal forms of what is left to compare are smaller *)

From Coq Require Import List Arith Lia Bool.
From Verif Require Import Base ModelSubst ModelReduce SpecTerm SpecConv SpecConvFacts SpecWhnf SpecRed SpecSN RedConfl EtaConfl RedStuck RedSN EtaTyped
  RefMachine RefSound RefStuck SoundDom TotConv.
Import ListNotations.

Section Weight.
  Variable sg : sig.
  Notation reds := (reds sg).
  Notation nf := (nf sg).
  Hypothesis Hsafe : eta_safe sg.
  Hypothesis He : sg_eta sg = true.

  Fixpoint weight (t : tm) : nat :=
    match t with
    | App t u => weight t + weight u
    | ULam b => S (S (weight b))
    | Pi a b => S (weight a + weight b)
    | _ => 1
    end.
  Lemma weight_pos t : 1 <= weight t.
  Proof. induction t; cbn; lia. Qed.
  Lemma weight_ren t : forall r, weight (ren r t) = weight t.
  Proof. induction t; intros r; cbn; auto. Qed.
  Lemma weight_apps us : forall h, weight (apps h us) = weight h + list_sum (map weight us).
  Proof. induction us as [|u us IH]; intros h; unfold list_sum in *; cbn; [lia|]. rewrite IH. cbn. lia. Qed.
  Lemma weight_in u us : In u us -> weight u <= list_sum (map weight us).
  Proof. induction us as [|v us IH]; [intros []|]. unfold list_sum in *. cbn. intros [->|H]; [lia|]. apply IH in H. lia. Qed.

  Lemma no_vars c r : rule_of sg c r -> sr_vars r = 0.
  Proof.
    intros Hr. pose proof (proj2 (Hsafe He) _ _ Hr) as Ha. destruct Hr as (rs & _ & _ & Hu).
    destruct (sr_vars r) eqn:Ev; [reflexivity|]. destruct (Hu 0) as [H _]. rewrite Ev, Ha in H. destruct H. lia.
  Qed.
  Lemma closed_rhs c r : rule_of sg c r -> scoped 0 (sr_rhs r).
  Proof. intros Hr. rewrite <- (no_vars _ _ Hr). apply (proj1 (Hsafe He) _ _ Hr). Qed.
  Lemma red_strip t u : red sg t u -> strip t = t -> strip u = u.
  Proof.
    induction 1 as [b u|c rs r s ts Hrs Hin Hu Hi|t t' u H IH|t u u' H IH|t t' H IH|a a' t H IH|a t t' H IH|a a' b H IH|a b b' H IH]; cbn [strip]; intros E;
      try discriminate; try (injection E as E1 E2; rewrite ?IH, ?E1, ?E2 by assumption; congruence).
    - injection E as E1 E2. rewrite strip_subst1, E1, E2. reflexivity.
    - assert (Hr : rule_of sg c r) by (exists rs; auto). pose proof (closed_rhs _ _ Hr) as Hs.
      rewrite strip_sub, strip_strip. apply (sub_scoped _ 0); [apply scoped_strip; exact Hs|]. intros m Hm. lia.
    - injection E as E1. rewrite IH by assumption. reflexivity.
  Qed.
  Lemma nf_reach t : sn sg t -> strip t = t -> exists n, reds t n /\ nf n.
  Proof.
    induction 1 as [t _ IH]. intros E. destruct (nf_step sg Hsafe He t E) as [H|[u H]]; [exists t; split; [constructor|exact H]|].
    destruct (IH u H (red_strip _ _ H E)) as (v & H1 & H2). exists v. split; [econstructor; eassumption|exact H2].
  Qed.

  Lemma nf_normal t u : red sg t u -> ~ nf t.
  Proof.
    induction 1 as [b u|c rs r s ts Hrs Hin Hu Hi|t t' u H IH|t u u' H IH|t t' H IH|a a' t H IH|a t t' H IH|a a' b H IH|a b b' H IH]; cbn [EtaTyped.nf]; try tauto.
    assert (Hr : rule_of sg c r) by (exists rs; auto). rewrite (proj2 (Hsafe He) _ _ Hr) in Hi. inversion Hi; subst. cbn. intros Hn. exact (Hn r Hr).
  Qed.
  Lemma nf_reds t u : nf t -> reds t u -> u = t.
  Proof. intros Hn H. destruct H as [|t u v H _]; [reflexivity|]. destruct (nf_normal _ _ H Hn). Qed.
  Lemma nf_apps_args us : forall h, nf (apps h us) -> nf h /\ Forall nf us.
  Proof.
    induction us as [|u us IH] using rev_ind; intros h H; [auto|]. rewrite apps_snoc in H. destruct H as (H1 & H2 & _).
    destruct (IH _ H1). split; [assumption|]. apply Forall_app. auto.
  Qed.

  (** the term has a normal form of weight [k] *)
  Definition weighs (t : tm) (k : nat) : Prop := exists n, reds t n /\ nf n /\ weight n = k.
  Lemma weighs_reds t u k : weighs t k -> reds t u -> weighs u k.
  Proof.
    intros (n & H1 & H2 & H3) Hu. destruct (confluent sg (proj1 (Hsafe He)) _ _ Hu _ H1) as (v & V1 & V2).
    apply (nf_reds _ _ H2) in V2. subst v. exists n. auto.
  Qed.
  Lemma weighs_exists t : sn sg (strip t) -> exists k, weighs (strip t) k.
  Proof. intros H. destruct (nf_reach _ H (strip_strip t)) as (n & H1 & H2). exists (weight n), n. auto. Qed.

  (** ** Applying a term that is not an abstraction to a new variable *)
  Lemma shift_red h us v : rigid sg h us -> red sg (App (lift 1 (apps h us)) (Var 0)) v ->
    exists t, red sg (apps h us) t /\ v = App (lift 1 t) (Var 0).
  Proof.
    intros Hr H. remember (App (lift 1 (apps h us)) (Var 0)) as t0 eqn:E. destruct H as [b u|c rs r s ts Hrs Hin Hu Hi|t t' u H|t u u' H| | | | |]; try discriminate.
    - injection E as E _. unfold lift in E. rewrite ren_apps in E. apply (apps_inj [] (map _ us)) in E; [|exact I|].
      + destruct E as [E _]. destruct h; cbn in E; try discriminate. destruct Hr.
      + destruct h; cbn in *; try exact I. destruct Hr.
    - assert (Hru : rule_of sg c r) by (exists rs; auto). rewrite (proj2 (Hsafe He) _ _ Hru) in Hi. inversion Hi; subst. discriminate.
    - injection E as -> ->. destruct (red_unren sg (proj2 (Hsafe He)) closed_rhs _ _ _ (injective_add 1) H) as (t1 & -> & H1). eauto.
    - injection E as _ ->. exfalso. inversion H. destruct (apps_const_cases c ts) as [[-> E']|(? & ? & -> & E')]; rewrite E' in *; discriminate.
  Qed.
  Lemma shift_sn t : sn sg t -> forall h us, t = apps h us -> rigid sg h us -> sn sg (App (lift 1 t) (Var 0)).
  Proof.
    induction 1 as [t _ IH]. intros h us -> Hr. constructor. intros v Hv. destruct (shift_red _ _ _ Hr Hv) as (t & Ht & ->).
    destruct (red_apps sg _ _ _ Hr Ht) as (h' & us' & -> & Hus & Hh). eapply IH; [exact Ht|reflexivity|]. eapply hred_rigid; eassumption.
  Qed.
  Lemma nf_ren t : forall r, injective r -> nf t -> nf (ren r t).
  Proof.
    induction t as [| |c|x|t IHt v IHv|a IHa t IHt|t IHt|a IHa b IHb]; intros r Hi; cbn [EtaTyped.nf ren]; try tauto.
    - intros (H1 & H2 & H3). repeat split; auto. destruct t; cbn; auto.
    - intros H. apply IHt; [apply injective_up; exact Hi|exact H].
    - intros [H1 H2]. split; [auto|]. apply IHb; [apply injective_up; exact Hi|exact H2].
  Qed.
  Lemma red_ren r t t' : red sg t t' -> red sg (ren r t) (ren r t').
  Proof.
    intros H. rewrite !ren_as_sub. generalize (fun n => Var (r n)). clear r. induction H; intros q; cbn [sub].
    - rewrite sub_subst1. apply red_beta.
    - rewrite sub_apps. cbn [sub]. rewrite sub_sub. eapply red_rule; try eassumption.
      clear - H2. induction H2; cbn; constructor; [apply inst_sub; assumption|assumption].
    - apply red_appl. auto.
    - apply red_appr. auto.
    - apply red_ulam. auto.
    - apply red_lama. auto.
    - apply red_lamb. auto.
    - apply red_pil. auto.
    - apply red_pir. auto.
  Qed.
  Lemma reds_ren r t u : reds t u -> reds (ren r t) (ren r u).
  Proof. induction 1; [constructor|]. econstructor; [apply red_ren; eassumption|assumption]. Qed.
  Lemma reds_appl t u v : reds t u -> reds (App t v) (App u v).
  Proof. induction 1; [constructor|]. econstructor; [apply red_appl; eassumption|assumption]. Qed.
  Lemma shift_weighs h us k : rigid sg h us -> weighs (apps h us) k -> weighs (App (lift 1 (apps h us)) (Var 0)) (k + 1).
  Proof.
    intros Hr (n & H1 & H2 & <-). exists (App (lift 1 n) (Var 0)). split; [|split].
    - apply reds_appl, reds_ren. exact H1.
    - split; [apply nf_ren; [apply injective_add|exact H2]|]. split; [exact I|].
      destruct (reds_apps_inv sg _ _ _ Hr H1) as (h' & us' & -> & Hus & Hh).
      assert (Hr' : rigid sg h' us') by (eapply hred_rigid; eassumption).
      unfold lift. rewrite ren_apps. destruct us' as [|u us' _] using rev_ind; [destruct h'; cbn in *; auto|].
      rewrite map_app. cbn [map]. rewrite apps_snoc. exact I.
    - cbn [weight]. unfold lift. rewrite weight_ren. reflexivity.
  Qed.

  (** ** What is left to compare *)
  Definition lighter (k : nat) (p : tm * tm) : Prop :=
    sn sg (strip (fst p)) /\ sn sg (strip (snd p)) /\ exists a b, weighs (strip (fst p)) a /\ weighs (strip (snd p)) b /\ a + b < k.

  Lemma body_parts t b k : lam_body t = Some b -> sn sg (strip t) -> weighs (strip t) k ->
    sn sg (strip b) /\ exists a, weighs (strip b) a /\ k = S (S a).
  Proof.
    intros E Hs (n & H1 & H2 & <-). split; [eapply sn_below; [exact Hs|apply lam_body_below; exact E]|].
    assert (Es : strip t = ULam (strip b)) by (destruct t; cbn in *; congruence). rewrite Es in H1.
    destruct (reds_ulam_inv _ _ _ H1) as (n' & -> & H). exists (weight n'). split; [exists n'; auto|reflexivity].
  Qed.
  Lemma apps_parts h us k : rigid sg (strip h) (map strip us) -> sn sg (strip (apps h us)) -> weighs (strip (apps h us)) k ->
    (us <> [] -> sn sg (strip h) /\ exists a, weighs (strip h) a /\ a < k) /\
    Forall (fun u => sn sg (strip u) /\ exists a, weighs (strip u) a /\ a < k) us.
  Proof.
    intros Hr Hs (n & H1 & H2 & <-). rewrite strip_apps in *. destruct (reds_apps_inv sg _ _ _ Hr H1) as (h' & us' & -> & Hus & Hh).
    destruct (nf_apps_args _ _ H2) as [Nh Nus]. rewrite weight_apps. split.
    - intros Hne. destruct us as [|u us]; [congruence|]. split.
      + apply acc_sn. pose proof (sn_acc _ _ Hs) as Ha. cbn [map] in Ha. destruct Ha as [Ha]. apply Ha.
        assert (Hb : below sg (strip h) (App (strip h) (strip u))) by (apply below_sub; constructor). cbn [map apps].
        destruct (below_apps_head sg (map strip us) (App (strip h) (strip u))) as [<-|H']; [exact Hb|eapply below_trans; eassumption].
      + exists (weight h'). split.
        * exists h'. split; [|auto]. destruct (strip h); cbn in Hh; try (subst h'; constructor); try contradiction.
          destruct Hh as (a' & b' & -> & Ra & Rb). apply reds_pi; assumption.
        * destruct us' as [|u' us']; [inversion Hus|]. unfold list_sum. cbn. pose proof (weight_pos u'). lia.
    - pose proof (weight_pos h') as Hp. apply Forall_forall. intros u Hu. split.
      + eapply sn_below; [exact Hs|]. apply below_apps. apply in_map. exact Hu.
      + assert (exists u', In u' us' /\ reds (strip u) u') as (u' & Hin & Ru).
        { clear - Hus Hu. revert us' Hus. induction us as [|v us IH]; [destruct Hu|]. intros us' Hus. inversion Hus; subst.
          destruct Hu as [->|Hu]; [eexists; split; [left; reflexivity|assumption]|].
          destruct (IH Hu _ H3) as (u' & H & H'). exists u'. split; [right; exact H|exact H']. }
        exists (weight u'). split; [exists u'; split; [exact Ru|]; split; [|reflexivity]; rewrite Forall_forall in Nus; auto|].
        apply weight_in in Hin. lia.
  Qed.
  Lemma pi_parts a b k : sn sg (Pi (strip a) (strip b)) -> weighs (Pi (strip a) (strip b)) k ->
    (sn sg (strip a) /\ exists m, weighs (strip a) m /\ m < k) /\ (sn sg (strip b) /\ exists m, weighs (strip b) m /\ m < k).
  Proof.
    intros Hs (n & H1 & H2 & <-). apply (reds_apps_inv sg (Pi (strip a) (strip b)) []) in H1; [|exact I].
    destruct H1 as (h' & us' & -> & Hus & a' & b' & -> & Ra & Rb). inversion Hus; subst. cbn in H2 |- *. destruct H2.
    split; (split; [eapply sn_below; [exact Hs|apply below_sub; constructor]|]).
    - exists (weight a'). split; [exists a'; auto|lia].
    - exists (weight b'). split; [exists b'; auto|lia].
  Qed.

  Lemma shift_parts h us k : rigid sg (strip h) (map strip us) -> sn sg (strip (apps h us)) -> weighs (strip (apps h us)) k ->
    sn sg (strip (r_shift_app (apps h us))) /\ weighs (strip (r_shift_app (apps h us))) (k + 1).
  Proof.
    intros Hr Hs Hw. unfold r_shift_app. cbn [strip]. rewrite strip_lift. rewrite strip_apps in *. split.
    - eapply shift_sn; [exact Hs|reflexivity|exact Hr].
    - apply shift_weighs; assumption.
  Qed.

  Lemma step_lighter t u new k l : stuck sg t -> stuck sg u -> sn sg (strip t) -> sn sg (strip u) ->
    weighs (strip t) k -> weighs (strip u) l -> r_step true t u = Some new -> Forall (lighter (k + l)) new.
  Proof.
    intros St Su Ht Hu Wt Wu. unfold r_step.
    destruct (stuck_cases sg _ St) as [(b1 & E1 & _)|(E1 & h & us & -> & Hr)];
    destruct (stuck_cases sg _ Su) as [(b2 & E2 & _)|(E2 & g & vs & -> & Hk)]; rewrite E1, E2.
    - intros [= <-]. constructor; [|constructor]. destruct (body_parts _ _ _ E1 Ht Wt) as (H1 & a & H2 & ->). destruct (body_parts _ _ _ E2 Hu Wu) as (H3 & b & H4 & ->).
      split; [exact H1|]. split; [exact H3|]. exists a, b. split; [exact H2|]. split; [exact H4|lia].
    - intros [= <-]. constructor; [|constructor]. destruct (body_parts _ _ _ E1 Ht Wt) as (H1 & a & H2 & ->). destruct (shift_parts _ _ _ Hk Hu Wu) as [H3 H4].
      split; [exact H1|]. split; [exact H3|]. exists a, (l + 1). split; [exact H2|]. split; [exact H4|lia].
    - intros [= <-]. constructor; [|constructor]. destruct (body_parts _ _ _ E2 Hu Wu) as (H1 & a & H2 & ->). destruct (shift_parts _ _ _ Hr Ht Wt) as [H3 H4].
      split; [exact H1|]. split; [exact H3|]. exists a, (k + 1). split; [exact H2|]. split; [exact H4|lia].
    - destruct (apps_parts _ _ _ Hr Ht Wt) as [Fh Fus]. destruct (apps_parts _ _ _ Hk Hu Wu) as [Gh Gus].
      pose proof (rigid_strip_not_app sg _ _ Hr) as Hn1. pose proof (rigid_strip_not_app sg _ _ Hk) as Hn2.
      destruct us as [|x us _] using rev_ind; destruct vs as [|y vs _] using rev_ind.
      + cbn [apps] in *. destruct h, g; cbn in Hr, Hk; try contradiction; try discriminate; try (intros [= <-]; constructor);
          try (destruct (_ =? _); [intros [= <-]; constructor|discriminate]).
        * cbn [strip] in *. destruct (pi_parts _ _ _ Ht Wt) as [_ (A1 & a & A2 & A3)]. destruct (pi_parts _ _ _ Hu Wu) as [_ (B1 & b & B2 & B3)].
          split; [exact A1|]. split; [exact B1|]. exists a, b. split; [exact A2|]. split; [exact B2|lia].
        * cbn [strip] in *. destruct (pi_parts _ _ _ Ht Wt) as [(A1 & a & A2 & A3) _]. destruct (pi_parts _ _ _ Hu Wu) as [(B1 & b & B2 & B3) _].
          constructor; [|constructor]. split; [exact A1|]. split; [exact B1|]. exists a, b. split; [exact A2|]. split; [exact B2|lia].
      + cbn [apps]. rewrite apps_snoc. destruct h; cbn in Hr; try contradiction; discriminate.
      + cbn [apps]. rewrite apps_snoc. destruct g; cbn in Hk; try contradiction; discriminate.
      + pose proof (spine_rigid h (us ++ [x]) Hn1) as S1. pose proof (spine_rigid g (vs ++ [y]) Hn2) as S2.
        rewrite apps_snoc in S1, S2 |- *. rewrite apps_snoc. rewrite S1, S2.
        destruct (_ =? _); [|discriminate]. intros [= <-]. apply (Forall_rev (l := (h, g) :: combine (us ++ [x]) (vs ++ [y]))). constructor.
        * destruct Fh as (A1 & a & A2 & A3); [destruct us; discriminate|]. destruct Gh as (B1 & b & B2 & B3); [destruct vs; discriminate|].
          split; [exact A1|]. split; [exact B1|]. exists a, b. split; [exact A2|]. split; [exact B2|lia].
        * apply Forall_forall. intros [v w] Hvw. rewrite Forall_forall in Fus, Gus.
          destruct (Fus v (in_combine_l _ _ _ _ Hvw)) as (A1 & a & A2 & A3). destruct (Gus w (in_combine_r _ _ _ _ Hvw)) as (B1 & b & B2 & B3).
          split; [exact A1|]. split; [exact B1|]. exists a, b. split; [exact A2|]. split; [exact B2|lia].
  Qed.
End Weight.
