(** * Soundness of type inference and checking for typing in two modes *)

From Verif Require Import Base ModelTerm ModelGctx ModelCommand ModelSubst ModelReduce ModelInfer
  SpecTerm SpecConv SpecConvFacts SpecTyping SpecBidir RefMachine Erase SimReduce RefSound Inv SoundInfer.

Open Scope sm_scope.

Section Facts.
  Variable uniq : nat -> bool.
  Variable gc : gctx.
  Notation sg := (er_gctx gc).
  Notation conv := (conv sg).
  Notation infers := (infers sg).
  Notation checks := (checks sg).
  Definition binferred lc t (ty : sterm) : Prop := infers (map ers lc) (ers t) (ers ty) /\ kfk ty.

  Lemma bidir_sound n :
    (forall lc t, Forall kf lc -> kf t -> ok0 (binferred lc t) (infer uniq gc n lc t)) /\
    (forall lc t ty, Forall kf lc -> kf t -> kf ty ->
      ok0 (fun b => b = true -> checks (map ers lc) (ers t) (ers ty)) (check uniq gc n lc t ty)).
  Proof.
    induction n as [|n [IH1 IH2]]; [split; intros; apply ok0_nofuel|]. split.
    - intros lc t Hlc Ht. cbn [infer].
      assert (Hbind : forall a b, kf a -> kf b ->
        ok0 (fun B => infers (map ers lc) (ers a) Typ /\ binferred (a :: lc) b B) (bind_of_type (infer uniq gc n) lc a b)).
      { intros a b Ha Hb. unfold bind_of_type. eapply ok0_bind; [apply IH1; assumption|]. intros k [Hk _].
        destruct k; try apply ok0_fail. eapply ok0_post; [|apply IH1; [constructor; assumption|assumption]].
        cbn beta. intros B HB. split; [exact Hk|exact HB]. }
      assert (Hargs : forall args, Forall kf args -> forall h ty, infers (map ers lc) h (ers ty) -> kfk ty ->
        ok0 (fun B => infers (map ers lc) (apps h (map ers args)) (ers B) /\ kfk B)
            (infer_args uniq (whnf uniq gc n) (check uniq gc n) lc ty args)).
      { induction 1 as [|a args Ha Hargs IHa]; intros h ty Hh Hty; cbn [infer_args map apps].
        - apply ok0_ret. auto.
        - eapply ok0_bind with (P := fun ty' => conv (ers ty) (ers ty') /\ kfk ty').
          + destruct Hty as [->|Hty].
            * eapply ok0_post; [|apply whnf_kind]. cbn beta. intros ty' ->. split; [apply conv_refl|left; reflexivity].
            * eapply ok0_post; [|apply whnf_ok; assumption]. cbn beta. intros ty' [? ?]. split; [assumption|right; assumption].
          + intros ty' [Hc Hk]. eapply ok0_bind; [apply ok0_ok_or with (P := fun p => get_prod ty' = Some p); auto|].
            intros [[id A] B] Hp. assert (kf ty') by (destruct Hk as [->|]; [discriminate|assumption]).
            destruct (get_prod_kf _ _ _ _ Hp H) as [HA HB]. apply get_prod_er in Hp.
            eapply ok0_bind; [apply IH2; assumption|]. intros [|] Hck; [|apply ok0_fail].
            specialize (Hck eq_refl).
            eapply ok0_bind; [apply subst_ok; assumption|]. intros b' [Hb' Hkb].
            apply IHa; [|right; assumption]. rewrite Hb'. eapply inf_app; [exact Hh| |exact Hck].
            rewrite <- Hp. exact Hc. }
      assert (Hcomb : forall c, wfc False sconst kf c ->
        ok0 (fun B => infers (map ers lc) (er_comb ers c) (ers B) /\ kfk B)
            (infer_comb uniq (whnf uniq gc n) (infer uniq gc n) (check uniq gc n) lc c)).
      { intros [h args|id a b|id [a|] b] Hc; cbn [infer_comb er_comb wfc] in *.
        - destruct Hc as (Hh & Ha & _). apply list_all_Forall in Ha.
          eapply ok0_bind; [apply IH1; assumption|]. intros ty [H1 H2]. apply Hargs; assumption.
        - destruct Hc as [Ha Hb]. eapply ok0_bind; [apply Hbind; assumption|]. intros tt (H1 & H2 & H3).
          destruct tt; cbn [is_sort]; try apply ok0_fail; apply ok0_ret.
          + split; [|left; reflexivity]. eapply inf_pi; auto.
          + split; [|right; exact I]. eapply inf_pi; auto.
        - destruct Hc as [Ha Hb]. eapply ok0_bind; [apply Hbind; assumption|]. intros B (H1 & H2 & H3).
          assert (HB : B <> SKind -> infers (map ers lc) (Lam (ers a) (ers b)) (ers (SSComb (Prod id a B))) /\ kfk (SSComb (Prod id a B))).
          { intros HB. destruct H3 as [|H3]; [contradiction|]. split; [|right; split; assumption].
            cbn. eapply inf_lam; [exact H1|exact H2|now apply kf_not_kind]. }
          destruct B; try (apply ok0_fail); apply ok0_ret; apply HB; discriminate.
        - apply ok0_fail. }
      destruct t as [| |c|x|c|c].
      + apply ok0_fail.
      + apply ok0_ret. split; [apply inf_type|left; reflexivity].
      + eapply ok0_bind; [apply ok0_ok_or with (P := fun ty => get_type gc c = Some ty); auto|]. intros ty Hc.
        apply ok0_ret. split; [|right; apply kf_lterm]. rewrite ers_sterm_of_lterm. apply inf_const. cbn. rewrite Hc. reflexivity.
      + unfold lctx_get_type. destruct (nth_error lc x) as [A|] eqn:E.
        * assert (HA : kf A) by (apply nth_error_In in E; rewrite Forall_forall in Hlc; auto).
          eapply ok0_bind with (P := fun o => match o with Some A' => ers A' = lift (S x) (ers A) /\ kf A' | None => False end).
          { eapply ok0_bind; [apply shift_ok; exact HA|]. intros A' [H1 H2]. apply ok0_ret.
            rewrite Nat.add_1_r in H1. auto. }
          intros [A'|] []. apply ok0_ret. split; [|right; assumption]. rewrite H. apply inf_var.
          rewrite nth_error_map, E. reflexivity.
        * eapply ok0_bind; [apply ok0_ret with (P := fun o => o = None); reflexivity|]. intros o ->. apply ok0_fail.
      + eapply ok0_post; [|apply Hcomb; apply wfc_of_lcomb; exact Ht]. cbn beta. unfold binferred. cbn [ers].
        rewrite er_scomb_of_lcomb. auto.
      + apply Hcomb. exact Ht.
    - intros lc t ty Hlc Ht Hty. cbn [check]. destruct (get_abst t) as [[[id oa] b]|] eqn:Ea.
      + destruct (get_abst_kf _ _ _ _ Ea Ht) as [Hka Hkb]. rewrite (get_abst_er _ _ _ _ Ea).
        eapply ok0_bind; [apply whnf_ok; assumption|]. intros ty' [Hc Hk].
        eapply ok0_bind; [apply ok0_ok_or with (P := fun p => get_prod ty' = Some p); auto|].
        intros [[id' A] B] Hp. destruct (get_prod_kf _ _ _ _ Hp Hk) as [HA HB]. apply get_prod_er in Hp. rewrite Hp in Hc.
        eapply ok0_bind with (P := fun ok => ok = true -> match oa with
            | Some a => (exists K, infers (map ers lc) (ers a) K) /\ conv (ers a) (ers A) | None => True end).
        * destruct oa as [a|]; [|apply ok0_ret; auto].
          eapply ok0_bind; [apply IH1; assumption|]. intros K [HK _].
          eapply ok0_post; [|apply convertible_ok]. cbn beta. intros ok Hok Htrue. split; [eexists; exact HK|auto].
        * intros [|] Hok; [|apply ok0_ret; discriminate]. specialize (Hok eq_refl).
          eapply ok0_post; [|apply IH2; [constructor; assumption|assumption|assumption]].
          cbn beta. intros ok Hb Htrue. specialize (Hb Htrue). cbn [map] in Hb.
          destruct oa as [a|].
          -- destruct Hok as [[K HK] Haa]. eapply chk_lam; [exact Hc|exact HK|exact Haa|exact Hb].
          -- eapply chk_ulam; [exact Hc|exact Hb].
      + eapply ok0_bind; [apply IH1; assumption|]. intros A [HA _].
        eapply ok0_post; [|apply convertible_ok]. cbn beta. intros b Hb Htrue.
        eapply chk_infer; [exact HA|auto].
  Qed.
End Facts.
