(** * Inferred types are types *)

From Verif Require Import Base ModelTerm ModelGctx ModelCommand ModelSubst ModelReduce ModelInfer
  SpecTerm SpecConv SpecConvFacts SpecTyping SpecRed SpecType RefMachine Erase SimReduce RefSound Inv SoundInfer
  TypeFacts TypePres RefTyped.

Open Scope sm_scope.

Section Sorted.
  Variable uniq : nat -> bool.
  Variable gc : gctx.
  Notation sg := (er_gctx gc).
  Notation conv := (conv sg).
  Notation has_type := (has_type sg).
  Notation sorted := (sorted sg).
  Notation sorted_ctx := (sorted_ctx sg).
  Hypothesis Hst : stable_types sg.
  Hypothesis Hpi : pi_injective sg.
  Hypothesis Hrules : rules_typed sg.
  Hypothesis Htypes : sorted_types sg.

  Lemma sorted_weaken G A B : sorted G A -> sorted (B :: G) (ren S A).
  Proof.
    intros [->|[H|H]]; [left; reflexivity|right; left|right; right]; apply type_weaken with (A := B) in H; assumption.
  Qed.
  Lemma sorted_empty G A : sorted [] A -> sorted G A.
  Proof.
    assert (H : forall s, s = Typ \/ s = Kind -> has_type [] A s -> has_type G A s).
    { intros s Hs H. apply type_ren with (r := fun n => n) (G := G) in H; [|exact Hst|intros [|m] B; discriminate].
      rewrite !ren_id_ext in H by reflexivity. exact H. }
    intros [->|[Ht|Ht]]; [left; reflexivity|right; left; auto|right; right; auto].
  Qed.
  Lemma sorted_nth G : sorted_ctx G -> forall n A, nth_error G n = Some A -> sorted G (lift (S n) A).
  Proof.
    induction 1 as [|G B HG IH HB HK]; intros [|n] A; cbn; try discriminate.
    - intros [= <-]. replace (lift 1 B) with (ren S B); [apply sorted_weaken; exact HB|].
      unfold lift. apply ren_ext. intros; lia.
    - intros H. replace (lift (S (S n)) A) with (ren S (lift (S n) A)); [apply sorted_weaken, IH; exact H|].
      unfold lift. rewrite ren_ren. apply ren_ext. intros; lia.
  Qed.

  Lemma whnf_typed_ok n t : ok0 (fun t' => pr sg (ers t) (ers t')) (whnf uniq gc n t).
  Proof.
    eapply ok0_post; [|eapply simm_ok0; [apply whnf_sim|apply hpres_whnf]].
    cbn beta. intros a (h & h' & H). eapply r_whnf_typed; eassumption.
  Qed.
  Lemma sorted_pr G A B : A <> Kind -> pr sg A B -> sorted G A -> sorted G B.
  Proof.
    intros HA H [->|[Ht|Ht]]; [congruence|right; left|right; right]; eapply pr_type; eassumption.
  Qed.

  Lemma sorted_sound n : forall lc t, Forall kf lc -> kf t -> sorted_ctx (map ers lc) ->
    ok0 (fun ty => sorted (map ers lc) (ers ty)) (infer uniq gc n lc t).
  Proof.
    induction n as [|n IH]; [intros; apply ok0_nofuel|]. intros lc t Hlc Ht Hctx. cbn [infer].
    assert (IH' : forall lc t, Forall kf lc -> kf t -> sorted_ctx (map ers lc) ->
      ok0 (fun ty => sorted (map ers lc) (ers ty) /\ inferred gc lc t ty) (infer uniq gc n lc t)).
    { intros. apply ok0_and; [apply IH; assumption|apply infer_sound; assumption]. }
    assert (Hbind : forall a b, kf a -> kf b ->
      ok0 (fun B => has_type (map ers lc) (ers a) Typ /\ sorted (map ers (a :: lc)) (ers B) /\ inferred gc (a :: lc) b B) (bind_of_type (infer uniq gc n) lc a b)).
    { intros a b Ha Hb. unfold bind_of_type. eapply ok0_bind; [apply IH'; assumption|]. intros k (_ & Hk & _).
      destruct k; try apply ok0_fail. eapply ok0_post; [|apply IH'; [constructor; assumption|assumption|]].
      - cbn beta. intros B HB. split; [exact Hk|exact HB].
      - cbn [map]. constructor; [exact Hctx|right; left; exact Hk|]. eapply typed_not_kind. exact Hk. }
    assert (Hargs : forall args, Forall kf args -> forall h ty, has_type (map ers lc) h (ers ty) -> kfk ty -> sorted (map ers lc) (ers ty) ->
      ok0 (fun B => sorted (map ers lc) (ers B))
          (infer_args uniq (whnf uniq gc n) (check uniq gc n) lc ty args)).
    { induction 1 as [|a args Ha Hargs IHa]; intros h ty Hh Hty Hs; cbn [infer_args].
      - apply ok0_ret. auto.
      - eapply ok0_bind with (P := fun ty' => conv (ers ty) (ers ty') /\ kfk ty' /\ sorted (map ers lc) (ers ty')).
        + destruct Hty as [->|Hty].
          * eapply ok0_post; [|apply whnf_kind]. cbn beta. intros ty' ->.
            split; [apply conv_refl|]. split; left; reflexivity.
          * eapply ok0_post; [|apply ok0_and; [apply whnf_ok; exact Hty|apply whnf_typed_ok]]. cbn beta. intros ty' [[H1 H2] H3].
            split; [exact H1|]. split; [right; exact H2|]. eapply sorted_pr; [|exact H3|exact Hs]. apply kf_not_kind. exact Hty.
        + intros ty' (Hc & Hk & Hs'). eapply ok0_bind; [apply ok0_ok_or with (P := fun p => get_prod ty' = Some p); auto|].
          intros [[id A] B] Hp. assert (kf ty') by (destruct Hk as [->|]; [discriminate|assumption]).
          destruct (get_prod_kf _ _ _ _ Hp H) as [HA HB]. apply get_prod_er in Hp.
          eapply ok0_bind; [apply infer_sound; assumption|]. intros [|] Hck; [|apply ok0_fail].
          specialize (Hck eq_refl).
          eapply ok0_bind; [apply subst_ok; assumption|]. intros b' [Hb' Hkb].
          apply IHa with (h := App h (ers a)).
          * rewrite Hb'. eapply ty_app; [eapply ty_conv; [exact Hh|rewrite <- Hp; exact Hc]|exact Hck].
          * right. exact Hkb.
          * rewrite Hb'. rewrite Hp in Hs'.
            assert (X : forall T, has_type (map ers lc) (Pi (ers A) (ers B)) T -> sorted (map ers lc) (subst1 (ers a) (ers B))).
            { intros T HT. destruct (gen_pi _ _ _ _ _ HT) as (s & _ & HBs & Hss & _).
              pose proof (type_subst1 _ Hst _ _ _ _ _ HBs Hck) as Hsub.
              destruct Hss as [-> | ->]; [right; left|right; right]; exact Hsub. }
            destruct Hs' as [E|[E|E]]; [discriminate|eauto|eauto]. }
    assert (Hcomb : forall c, wfc False sconst kf c ->
      ok0 (fun B => sorted (map ers lc) (ers B))
          (infer_comb uniq (whnf uniq gc n) (infer uniq gc n) (check uniq gc n) lc c)).
    { intros [h args|id a b|id [a|] b] Hc; cbn [infer_comb wfc] in *.
      - destruct Hc as (Hh & Ha & _). apply list_all_Forall in Ha.
        eapply ok0_bind; [apply IH'; assumption|]. intros ty (H0 & H1 & H2). eapply Hargs; eassumption.
      - destruct Hc as [Ha Hb]. eapply ok0_bind; [apply Hbind; assumption|]. intros ty _.
        destruct ty; cbn [is_sort]; try apply ok0_fail; apply ok0_ret.
        + left. reflexivity.
        + right. right. constructor.
      - destruct Hc as [Ha Hb]. eapply ok0_bind; [apply Hbind; assumption|]. intros B (H1 & H2 & H3 & H4).
        assert (HB : B <> SKind -> sorted (map ers lc) (ers (SSComb (Prod id a B)))).
        { intros HB. destruct H4 as [|H4]; [contradiction|]. cbn [ers er_comb]. pose proof (kf_not_kind _ H4) as HK.
          destruct H2 as [E|[E|E]]; [contradiction|right; left|right; right]; eapply ty_pi; eauto. }
        destruct B; try (apply ok0_fail); apply ok0_ret; apply HB; discriminate.
      - apply ok0_fail. }
    destruct t as [| |c|x|c|c].
    + apply ok0_fail.
    + apply ok0_ret. left. reflexivity.
    + eapply ok0_bind; [apply ok0_ok_or with (P := fun ty => get_type gc c = Some ty); auto|]. intros ty Hc.
      apply ok0_ret. rewrite ers_sterm_of_lterm. apply sorted_empty. apply Htypes with (c := c). cbn. rewrite Hc. reflexivity.
    + unfold lctx_get_type. destruct (nth_error lc x) as [A|] eqn:E.
      * assert (HA : kf A) by (apply nth_error_In in E; rewrite Forall_forall in Hlc; auto).
        eapply ok0_bind with (P := fun o => match o with Some A' => ers A' = lift (S x) (ers A) | None => False end).
        { eapply ok0_bind; [apply shift_ok; exact HA|]. intros A' [H1 H2]. apply ok0_ret.
          rewrite Nat.add_1_r in H1. auto. }
        intros [A'|] H; [|destruct H]. apply ok0_ret. rewrite H. apply sorted_nth; [exact Hctx|].
        rewrite nth_error_map, E. reflexivity.
      * eapply ok0_bind; [apply ok0_ret with (P := fun o => o = None); reflexivity|]. intros o ->. apply ok0_fail.
    + apply Hcomb. apply wfc_of_lcomb. exact Ht.
    + apply Hcomb. exact Ht.
  Qed.
End Sorted.
