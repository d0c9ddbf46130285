(** * Inferred and checked types of the code are types without domains *)

From Verif Require Import Base ModelTerm ModelGctx ModelCommand ModelSubst ModelReduce ModelInfer
  SpecTerm SpecConv SpecConvFacts SpecTyping SpecRed SpecSN SpecType SpecDomain RedConfl RefMachine Erase SimReduce RefSound Inv SoundInfer
  RefRed TypeFacts DomFacts.

Open Scope sm_scope.

Notation ss t := (strip (ers t)).

Lemma strip_kind t : strip t = Kind -> t = Kind.
Proof. destruct t; cbn; congruence. Qed.
Lemma kf_strip t : kf t -> ss t <> Kind.
Proof. intros H E. apply (kf_not_kind _ H). apply strip_kind. exact E. Qed.
Lemma strip_lift t : forall k, strip (lift k t) = lift k (strip t).
Proof. intros k. unfold lift. apply strip_ren. Qed.

Section Dom.
  Variable uniq : nat -> bool.
  Variable gc : gctx.
  Notation sg := (er_gctx gc).
  Notation conv := (conv sg).
  Notation wt := (well_typed sg).
  Hypothesis Hst : stable_types sg.
  Hypothesis Hpi : pi_injective sg.
  Hypothesis Hlin : left_linear sg.
  Hypothesis Hrules : good_rules sg.
  Hypothesis Htypes : good_types sg.

  Definition ctx (lc : lctx) : list tm := map (fun t => ss t) lc.
  Definition a_type (G : list tm) (T : tm) : Prop := T = Kind \/ exists s, (s = Typ \/ s = Kind) /\ wt G T s.
  Definition inferred_wt lc t ty : Prop := wt (ctx lc) (ss t) (ss ty) /\ kfk ty /\ a_type (ctx lc) (ss ty).

  Lemma whnf_red n t : ok0 (fun t' => reds sg (ss t) (ss t')) (whnf uniq gc n t).
  Proof.
    eapply ok0_post; [|eapply simm_ok0; [apply whnf_sim|apply hpres_whnf]].
    cbn beta. intros a (h & h' & H). eapply r_whnf_red; eassumption.
  Qed.
  Lemma whnf_wt n lc t : kfk t -> a_type (ctx lc) (ss t) ->
    ok0 (fun t' => conv (ss t) (ss t') /\ kfk t' /\ a_type (ctx lc) (ss t')) (whnf uniq gc n t).
  Proof.
    intros [->|Hk] Ht.
    - eapply ok0_post; [|apply whnf_kind]. cbn beta. intros ty' ->. split; [apply conv_refl|]. split; left; reflexivity.
    - eapply ok0_post; [|apply ok0_and; [apply whnf_ok; exact Hk|apply whnf_red]]. cbn beta. intros t' [[_ H2] H3].
      split; [apply reds_conv; exact H3|]. split; [right; exact H2|].
      destruct Ht as [E|(s & Hs & Ht)]; [destruct (kf_strip _ Hk E)|]. right. exists s. split; [exact Hs|]. eapply wt_reds; eassumption.
  Qed.
  Lemma conv_wt n t u : ok0 (fun b => b = true -> conv (ss t) (ss u)) (convertible uniq gc n t u).
  Proof.
    eapply ok0_post; [|apply convertible_ok]. cbn beta. intros b H E. eapply conv_trans; [apply conv_sym, conv_strip|].
    eapply conv_trans; [exact (H E)|apply conv_strip].
  Qed.
  Lemma get_prod_ss t id a b : get_prod t = Some (id, a, b) -> ss t = Pi (ss a) (ss b).
  Proof. intros H. rewrite (get_prod_er _ _ _ _ H). reflexivity. Qed.

  Lemma infer_wt n :
    (forall lc t, Forall kf lc -> kf t -> type_ctx sg (ctx lc) -> ok0 (inferred_wt lc t) (infer uniq gc n lc t)) /\
    (forall lc t ty, Forall kf lc -> kf t -> kf ty -> type_ctx sg (ctx lc) -> (exists K, wt (ctx lc) (ss ty) K) ->
      ok0 (fun b => b = true -> wt (ctx lc) (ss t) (ss ty)) (check uniq gc n lc t ty)).
  Proof.
    induction n as [|n [IH1 IH2]]; [split; intros; apply ok0_nofuel|]. split.
    - intros lc t Hlc Ht Hctx. cbn [infer].
      assert (Hbind : forall a b, kf a -> kf b ->
        ok0 (fun B => wt (ctx lc) (ss a) Typ /\ inferred_wt (a :: lc) b B) (bind_of_type (infer uniq gc n) lc a b)).
      { intros a b Ha Hb. unfold bind_of_type. eapply ok0_bind; [apply IH1; assumption|]. intros k [Hk _].
        destruct k; try apply ok0_fail. eapply ok0_post; [|apply IH1; [constructor; assumption|assumption|]].
        - cbn beta. intros B HB. split; [exact Hk|exact HB].
        - constructor; assumption. }
      assert (Hargs : forall args, Forall kf args -> forall h ty, wt (ctx lc) h (ss ty) -> kfk ty -> a_type (ctx lc) (ss ty) ->
        ok0 (fun B => wt (ctx lc) (apps h (map (fun t => ss t) args)) (ss B) /\ kfk B /\ a_type (ctx lc) (ss B))
            (infer_args uniq (whnf uniq gc n) (check uniq gc n) lc ty args)).
      { induction 1 as [|a args Ha Hargs IHa]; intros h ty Hh Hty Hat; cbn [infer_args map apps].
        - apply ok0_ret. auto.
        - eapply ok0_bind; [apply whnf_wt; eassumption|].
          intros ty' (Hc & Hk & Hs). eapply ok0_bind; [apply ok0_ok_or with (P := fun p => get_prod ty' = Some p); auto|].
          intros [[id A] B] Hp. assert (kf ty') by (destruct Hk as [->|]; [discriminate|assumption]).
          destruct (get_prod_kf _ _ _ _ Hp H) as [HA HB]. apply get_prod_ss in Hp. rewrite Hp in Hc, Hs.
          destruct Hs as [Hs|(s & _ & Hs)]; [discriminate|]. destruct (wgen_pi _ _ _ _ _ Hs) as (s' & HAt & HBt & Hs' & _).
          eapply ok0_bind; [apply IH2; try assumption; eexists; exact HAt|]. intros [|] Hck; [|apply ok0_fail].
          specialize (Hck eq_refl).
          eapply ok0_bind; [apply subst_ok; assumption|]. intros b' [Hb' Hkb].
          assert (Eb : ss b' = subst1 (ss a) (ss B)) by (rewrite Hb'; apply strip_subst1).
          apply IHa; [rewrite Eb|right; exact Hkb|rewrite Eb].
          + eapply wt_app; [|exact Hck]. eapply wt_conv; [exact Hh|exact Hc].
          + right. exists s'. split; [exact Hs'|].
            pose proof (wt_subst1 _ Hst _ _ _ _ _ HBt Hck) as Hsub. unfold subst1 in Hsub at 2. rewrite sub_sort in Hsub by exact Hs'. exact Hsub. }
      assert (Hcomb : forall c, wfc False sconst kf c ->
        ok0 (fun B => wt (ctx lc) (strip (er_comb ers c)) (ss B) /\ kfk B /\ a_type (ctx lc) (ss B))
            (infer_comb uniq (whnf uniq gc n) (infer uniq gc n) (check uniq gc n) lc c)).
      { intros [h args|id a b|id [a|] b] Hc; cbn [infer_comb er_comb wfc strip] in *.
        - destruct Hc as (Hh & Ha & _). apply list_all_Forall in Ha.
          eapply ok0_bind; [apply IH1; assumption|]. intros ty (H1 & H2 & H3). rewrite strip_apps, map_map. apply Hargs; assumption.
        - destruct Hc as [Ha Hb]. eapply ok0_bind; [apply Hbind; assumption|]. intros tt (H1 & H2 & H3 & H4).
          destruct tt; cbn [is_sort]; try apply ok0_fail; apply ok0_ret.
          + split; [|split; left; reflexivity]. eapply wt_pi; [exact H1|exact H2|right; reflexivity].
          + split; [|split; [right; exact I|right; exists Kind; split; [right; reflexivity|constructor]]]. eapply wt_pi; [exact H1|exact H2|left; reflexivity].
        - destruct Hc as [Ha Hb]. eapply ok0_bind; [apply Hbind; assumption|]. intros B (H1 & H2 & H3 & H4).
          assert (HB : B <> SKind -> wt (ctx lc) (ULam (ss b)) (ss (SSComb (Prod id a B))) /\ kfk (SSComb (Prod id a B)) /\ a_type (ctx lc) (ss (SSComb (Prod id a B)))).
          { intros HB. destruct H3 as [|H3]; [contradiction|]. destruct H4 as [E|(s & Hs & H4)]; [destruct (kf_strip _ H3 E)|].
            cbn [ers er_comb strip]. split; [|split; [right; split; assumption|]].
            - eapply wt_lam; [exact H1|exact H2|exact H4|exact Hs].
            - right. exists s. split; [exact Hs|]. eapply wt_pi; eassumption. }
          destruct B; try (apply ok0_fail); apply ok0_ret; apply HB; discriminate.
        - apply ok0_fail. }
      destruct t as [| |c|x|c|c].
      + apply ok0_fail.
      + apply ok0_ret. split; [apply wt_type|split; left; reflexivity].
      + eapply ok0_bind; [apply ok0_ok_or with (P := fun ty => get_type gc c = Some ty); auto|]. intros ty Hc.
        assert (Hsg : sg_type sg c = Some (erl ty)) by (cbn; rewrite Hc; reflexivity).
        apply ok0_ret. split; [|split; [right; apply kf_lterm|]]; rewrite ers_sterm_of_lterm; [apply wt_const; exact Hsg|].
        destruct (Htypes _ _ Hsg) as (_ & s & Hs & HA). right. exists s. split; [exact Hs|]. apply wt_closed; assumption.
      + unfold lctx_get_type. destruct (nth_error lc x) as [A|] eqn:E.
        * assert (HA : kf A) by (apply nth_error_In in E; rewrite Forall_forall in Hlc; auto).
          eapply ok0_bind with (P := fun o => match o with Some A' => ss A' = lift (S x) (ss A) /\ kf A' | None => False end).
          { eapply ok0_bind; [apply shift_ok; exact HA|]. intros A' [H1 H2]. apply ok0_ret.
            rewrite H1, Nat.add_1_r, strip_lift. auto. }
          intros [A'|] []. assert (Hn : nth_error (ctx lc) x = Some (ss A)) by (unfold ctx; rewrite nth_error_map, E; reflexivity).
          apply ok0_ret. split; [|split; [right; assumption|]]; rewrite H; [apply wt_var; exact Hn|].
          right. exists Typ. split; [left; reflexivity|]. apply type_ctx_nth; assumption.
        * eapply ok0_bind; [apply ok0_ret with (P := fun o => o = None); reflexivity|]. intros o ->. apply ok0_fail.
      + eapply ok0_post; [|apply Hcomb; apply wfc_of_lcomb; exact Ht]. cbn beta. unfold inferred_wt. cbn [ers].
        rewrite er_scomb_of_lcomb. auto.
      + apply Hcomb. exact Ht.
    - intros lc t ty Hlc Ht Hty Hctx [K HK]. cbn [check]. destruct (get_abst t) as [[[id oa] b]|] eqn:Ea.
      + destruct (get_abst_kf _ _ _ _ Ea Ht) as [Hka Hkb]. rewrite (get_abst_er _ _ _ _ Ea).
        eapply ok0_bind; [apply ok0_and; [apply whnf_ok; exact Hty|apply whnf_red]|]. intros ty' [[_ Hk] Hr].
        eapply ok0_bind; [apply ok0_ok_or with (P := fun p => get_prod ty' = Some p); auto|].
        intros [[id' A] B] Hp. destruct (get_prod_kf _ _ _ _ Hp Hk) as [HA HB]. apply get_prod_ss in Hp. rewrite Hp in Hr.
        pose proof (wt_reds _ Hst Hpi Hrules _ _ Hr _ _ HK) as HP. destruct (wgen_pi _ _ _ _ _ HP) as (s' & HAt & HBt & Hs' & _).
        eapply ok0_bind with (P := fun _ => True).
        * destruct oa as [a|]; [|apply ok0_ret; auto].
          eapply ok0_bind; [apply IH1; assumption|]. intros K' _. eapply ok0_post; [|apply convertible_ok]. auto.
        * intros [|] _; [|apply ok0_ret; discriminate].
          eapply ok0_post; [|apply IH2; [constructor; assumption|assumption|assumption|constructor; assumption|eexists; exact HBt]].
          cbn beta. intros ok Hb Htrue. specialize (Hb Htrue).
          eapply wt_conv; [|apply conv_sym, reds_conv; exact Hr].
          replace (strip _) with (ULam (ss b)) by (destruct oa; reflexivity). eapply wt_lam; [exact HAt|exact Hb|exact HBt|exact Hs'].
      + eapply ok0_bind; [apply IH1; assumption|]. intros T (HT & _). eapply ok0_post; [|apply conv_wt].
        cbn beta. intros ok Hc E. eapply wt_conv; [exact HT|exact (Hc E)].
  Qed.
End Dom.
