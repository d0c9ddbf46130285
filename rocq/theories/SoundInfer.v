(** * Soundness of type inference and checking *)

From Verif Require Import Base ModelTerm ModelGctx ModelCommand ModelSubst ModelReduce ModelInfer
  SpecTerm SpecConv SpecConvFacts SpecTyping RefMachine Erase SimReduce RefSound Inv.

Open Scope sm_scope.

(** ** Computations of kernel queries: they start and end with an empty heap *)
Definition ok0 {X} (P : X -> Prop) (m : M X) : Prop :=
  forall s, m_heap s = [] -> match m s with Ok (a, s') => P a /\ m_heap s' = [] | _ => True end.

Lemma ok0_ret {X} (P : X -> Prop) a : P a -> ok0 P (ret a).
Proof. intros H s Hs. split; assumption. Qed.
Lemma ok0_fail {X} (P : X -> Prop) e : ok0 P (fail e).
Proof. intros s Hs. exact I. Qed.
Lemma ok0_nofuel {X} (P : X -> Prop) : ok0 P nofuel.
Proof. intros s Hs. exact I. Qed.
Lemma ok0_bind {X Y} (P : X -> Prop) (Q : Y -> Prop) m k :
  ok0 P m -> (forall a, P a -> ok0 Q (k a)) -> ok0 Q (bind m k).
Proof.
  intros Hm Hk s Hs. specialize (Hm s Hs). unfold bind. destruct (m s) as [[a s']| | |]; auto.
  destruct Hm. apply Hk; assumption.
Qed.
Lemma ok0_ok_or {X} (P : X -> Prop) o e : (forall a, o = Some a -> P a) -> ok0 P (ok_or o e).
Proof. intros H. destruct o; [apply ok0_ret; auto|apply ok0_fail]. Qed.
Lemma ok0_post {X} (P Q : X -> Prop) m : (forall a, P a -> Q a) -> ok0 P m -> ok0 Q m.
Proof.
  intros H Hm s Hs. specialize (Hm s Hs). destruct (m s) as [[a s']| | |]; auto. destruct Hm; auto.
Qed.
Lemma ok0_and {X} (P Q : X -> Prop) m : ok0 P m -> ok0 Q m -> ok0 (fun a => P a /\ Q a) m.
Proof.
  intros Hp Hq s Hs. specialize (Hp s Hs). specialize (Hq s Hs). destruct (m s) as [[a s']| | |]; auto.
  destruct Hp, Hq; auto.
Qed.

(** ** Computations that leave the heap unchanged *)
Definition hpres {X} (m : M X) : Prop := forall s a s', m s = Ok (a, s') -> m_heap s' = m_heap s.
Lemma hpres_ret {X} (a : X) : hpres (ret a).
Proof. intros s a' s' [= <- <-]. reflexivity. Qed.
Lemma hpres_panic {X} : hpres (@panic _ _ X).
Proof. intros s a s'. discriminate. Qed.
Lemma hpres_bind {X Y} (m : M X) (k : X -> M Y) : hpres m -> (forall a, hpres (k a)) -> hpres (bind m k).
Proof.
  intros Hm Hk s b s' H. unfold bind in H. destruct (m s) as [[a s1]| | |] eqn:E; try discriminate.
  rewrite (Hk _ _ _ _ H). eapply Hm; eassumption.
Qed.
Lemma hpres_mapM {X Y} (f : X -> M Y) l : Forall (fun a => hpres (f a)) l -> hpres (mapM f l).
Proof.
  induction 1 as [|a l Ha Hl IH]; cbn [mapM]; [apply hpres_ret|].
  apply hpres_bind; [assumption|]. intros b. apply hpres_bind; [assumption|]. intros bs. apply hpres_ret.
Qed.
Lemma hpres_usub n k : hpres (usub n k).
Proof. unfold usub. destruct (k <=? n); [apply hpres_ret|apply hpres_panic]. Qed.
Lemma hpres_comb {T} (go : T -> nat -> M (sterm * bool)) c :
  comb_all (fun t => forall k, hpres (go t k)) c -> forall k, hpres (comb_apply_subst go c k).
Proof.
  destruct c as [h args|id a b|id [a|] b]; cbn [comb_all comb_apply_subst]; intros [H1 H2] k.
  - apply hpres_bind; [auto|]. intros [h' ch]. apply hpres_bind; [|intros; apply hpres_ret].
    apply hpres_mapM. rewrite Forall_forall in *. auto.
  - apply hpres_bind; [auto|]. intros [a' ch]. apply hpres_bind; [auto|]. intros [b' ch']. apply hpres_ret.
  - apply hpres_bind; [auto|]. intros [a' ch]. apply hpres_bind; [auto|]. intros [b' ch']. apply hpres_ret.
  - apply hpres_bind; [auto|]. intros [a' ch]. apply hpres_ret.
Qed.
Lemma hpres_apply_subst uniq sb t : (forall n k, hpres (sb n k)) -> forall k, hpres (apply_subst uniq sb t k).
Proof.
  intros Hs.
  assert (Hl : forall t k, hpres (apply_subst_l sb t k)).
  { clear t. intros t. induction t as [|c|n|c IH] using lterm_ind'; intros k; cbn [apply_subst_l]; try apply hpres_ret.
    - destruct (k <=? n); [|apply hpres_ret]. apply hpres_bind; [apply Hs|]. intros; apply hpres_ret.
    - apply hpres_bind; [now apply hpres_comb|]. intros [? ?]; apply hpres_ret. }
  induction t as [| |c|n|c|c IH] using sterm_ind'; intros k; cbn [apply_subst]; try apply hpres_ret.
  - destruct (k <=? n); [|apply hpres_ret]. apply hpres_bind; [apply Hs|]. intros; apply hpres_ret.
  - apply hpres_bind; [apply hpres_comb, comb_all_intro, Hl|]. intros [? ?]; apply hpres_ret.
  - apply hpres_bind; [intros s a s' [= <- <-]; reflexivity|]. intros u.
    apply hpres_bind; [now apply hpres_comb|]. intros [? ch]. destruct u; [|destruct ch]; apply hpres_ret.
Qed.
Lemma hpres_shift uniq t k : hpres (shift uniq t k).
Proof.
  unfold shift. destruct (k =? 0); [apply hpres_ret|]. unfold shift_mut.
  apply hpres_bind; [apply hpres_apply_subst; intros; apply hpres_ret|]. intros [? ?]; apply hpres_ret.
Qed.
Lemma hpres_subst uniq t u : hpres (subst uniq t u).
Proof.
  unfold subst. apply hpres_bind; [|intros [? ?]; apply hpres_ret]. apply hpres_apply_subst. intros n k.
  unfold psubst_single. destruct (n =? k); [apply hpres_shift|]. apply hpres_bind; [apply hpres_usub|]. intros; apply hpres_ret.
Qed.
Lemma hpres_fresh {X} (m : M X) : hpres (with_fresh_heap m).
Proof.
  intros s a s'. unfold with_fresh_heap. destruct (m _) as [[b s1]| | |]; try discriminate. intros [= <- <-]. reflexivity.
Qed.
Lemma hpres_whnf uniq gc n t : hpres (whnf uniq gc n t).
Proof. apply hpres_fresh. Qed.
Lemma hpres_step uniq eta t u : hpres (step uniq eta t u).
Proof.
  assert (Hu : hpres (is_unique uniq)) by (intros s a s' [= <- <-]; reflexivity).
  assert (Ha : forall t us, hpres (apply uniq t (ret us))).
  { intros t0 us. unfold apply. destruct t0 as [| |c|m|c|[h args|id a b|id a b]];
      repeat first [apply hpres_ret | (apply hpres_bind; [|intros]) | exact Hu | match goal with |- hpres (if ?b then _ else _) => destruct b end]. }
  assert (Hs : forall t, hpres (shift_app uniq t)).
  { intros t0. unfold shift_app. apply hpres_bind; [|intros; apply Ha]. unfold shift_mut.
    apply hpres_bind; [apply hpres_apply_subst; intros; apply hpres_ret|]. intros [? ?]; apply hpres_ret. }
  destruct t, u; cbn [step]; unfold step1, step2;
    repeat first [apply hpres_ret | (apply hpres_bind; [apply Hs|intros])
                 | match goal with |- hpres (if ?b then _ else _) => destruct b end
                 | match goal with |- hpres (match ?b with _ => _ end) => destruct b end].
Qed.
Lemma hpres_conv_loop uniq gc n : forall cns, hpres (convertible_loop uniq gc n cns).
Proof.
  induction n as [|n IH]; intros cns; [intros s a s'; discriminate|].
  destruct cns as [|[t u] cns]; [apply hpres_ret|]. rewrite convertible_loop_cons.
  destruct (sterm_eqb t u); [apply IH|].
  apply hpres_bind; [apply hpres_fresh|]. intros t'. apply hpres_bind; [apply hpres_fresh|]. intros u'.
  apply hpres_bind; [apply hpres_step|]. intros [o|]; [apply IH|apply hpres_ret].
Qed.

(** ** Facts about the kernel's operations *)
(** [kf t]: [Kind] does not occur in [t]. *)
Definition kf : sterm -> Prop := wfs (fun _ => True) False False.

Lemma hinv_nil s : m_heap s = [] -> hinv s.
Proof. intros H [|l]; rewrite H; discriminate. Qed.
Lemma hwf_nil A K N s : m_heap s = [] -> hwf A K N s.
Proof. intros H [|l]; rewrite H; discriminate. Qed.

Lemma kf_lterm t : kf (sterm_of_lterm t).
Proof.
  apply wfs_of_lterm. induction t as [|c|n|c IH] using lterm_ind'; cbn; auto.
  destruct c as [h args|id a b|id [a|] b]; cbn in *; try tauto.
  split; [tauto|]. split; [apply list_all_Forall; tauto|tauto].
Qed.
Lemma kf_not_kind t : kf t -> ers t <> Kind.
Proof.
  assert (Ha : forall us h, h <> Kind -> apps h us <> Kind).
  { induction us as [|u us IH]; intros h Hh; cbn; [assumption|]. apply IH. discriminate. }
  assert (Hl : forall t, erl t <> Kind).
  { clear t. intros t. induction t as [|c|n|c IH] using lterm_ind'; cbn; try discriminate.
    destruct c as [h args|id a b|id [a|] b]; cbn in *; try discriminate. apply Ha. tauto. }
  induction t as [| |c|n|c|c IH] using sterm_ind'; intros Hk; cbn; try discriminate.
  - destruct Hk.
  - apply (Hl (LComb c)).
  - destruct c as [h args|id a b|id [a|] b]; cbn in *; try discriminate. apply Ha. apply IH. apply Hk.
Qed.

Section Facts.
  Variable uniq : nat -> bool.
  Variable gc : gctx.
  Notation sg := (er_gctx gc).
  Notation conv := (conv sg).

  Lemma eqi_ok0 {X} P (m m' : M X) : eqi (fun _ => True) False False P m m' -> hpres m -> ok0 P m.
  Proof.
    intros H Hp s Hs. destruct (H s (hwf_nil _ _ _ _ Hs)) as [_ H2].
    destruct (m s) as [[a s']| | |] eqn:E; auto. split; [apply H2|]. rewrite (Hp _ _ _ E). exact Hs.
  Qed.
  Lemma simm_ok0 {X Y} (f : X -> Y) P (m : M X) m' : simm f P m m' -> hpres m ->
    ok0 (fun a => exists h h', m' h = Ok (f a, h')) m.
  Proof.
    intros H Hp s Hs. specialize (H s (hinv_nil _ Hs)). destruct (m s) as [[a s']| | |] eqn:E; auto.
    split; [|rewrite (Hp _ _ _ E); exact Hs]. eexists _, _. apply H.
  Qed.

  Lemma whnf_ok n t : kf t -> ok0 (fun t' => conv (ers t) (ers t') /\ kf t') (whnf uniq gc n t).
  Proof.
    intros Hk. apply ok0_and.
    - eapply ok0_post; [|eapply simm_ok0; [apply whnf_sim|apply hpres_whnf]].
      cbn beta. intros a (h & h' & H). eapply r_whnf_sound; eassumption.
    - eapply eqi_ok0; [|apply hpres_whnf]. apply (whnf_inv _ _ _ uniq gc gc); auto.
      intros c rs r _ _ _. pose proof (kf_lterm (r_rhs r)) as H.
      clear - H. destruct (r_rhs r); cbn in *; auto.
  Qed.
  Lemma convertible_ok n t u : ok0 (fun b => b = true -> conv (ers t) (ers u)) (convertible uniq gc n t u).
  Proof.
    eapply ok0_post; [|eapply simm_ok0; [apply convertible_sim|apply hpres_conv_loop]].
    cbn beta. intros b (h & h' & H) ->. eapply r_conv_sound; eassumption.
  Qed.
  Lemma shift_ok t k : kf t -> ok0 (fun t' => ers t' = lift k (ers t) /\ kf t') (shift uniq t k).
  Proof.
    intros Hk. apply ok0_and.
    - eapply ok0_post; [|eapply simm_ok0; [apply shift_sim|apply hpres_shift]].
      cbn beta. intros a (h & h' & [= H _]). auto.
    - eapply eqi_ok0; [apply shift_inv; assumption|apply hpres_shift].
  Qed.
  Lemma subst_ok t u : kf t -> kf u -> ok0 (fun t' => ers t' = subst1 (ers u) (ers t) /\ kf t') (subst uniq t u).
  Proof.
    intros Ht Hu. apply ok0_and.
    - eapply ok0_post; [|eapply simm_ok0; [apply subst_sim|apply hpres_subst]].
      cbn beta. intros a (h & h' & [= H _]). auto.
    - eapply eqi_ok0; [apply subst_inv; assumption|apply hpres_subst].
  Qed.

  (** ** Typing *)
  Notation has_type := (has_type sg).

  Lemma has_type_ctx_conv G t A : has_type G t A -> forall G', Forall2 conv G G' -> has_type G' t A.
  Proof.
    induction 1 as [G|G c A HA|G n A HA|G t u A B Ht IHt Hu IHu|G A K t B HA IHA Ht IHt HB
                   |G A t B Ht IHt HB|G A B s HA IHA HB IHB Hs|G t A B Ht IHt HAB]; intros G' HG.
    - apply ty_type.
    - apply ty_const. assumption.
    - assert (exists A', nth_error G' n = Some A' /\ conv A A') as (A' & HA' & Hc).
      { clear - HG HA. revert n HA. induction HG as [|x y l l' Hxy HG IH]; intros [|n]; cbn; try discriminate; intros HA.
        - injection HA as ->. eexists; split; [reflexivity|assumption].
        - auto. }
      eapply ty_conv; [apply ty_var; eassumption|]. apply conv_lift. apply conv_sym. assumption.
    - eapply ty_app; eauto.
    - eapply ty_lam; eauto. apply IHt. constructor; [apply conv_refl|assumption].
    - apply ty_ulam; auto. apply IHt. constructor; [apply conv_refl|assumption].
    - apply ty_pi; auto. apply IHB. constructor; [apply conv_refl|assumption].
    - eapply ty_conv; eauto.
  Qed.

  Definition kfk (t : sterm) : Prop := t = SKind \/ kf t.
  Definition inferred lc t (ty : sterm) : Prop := has_type (map ers lc) (ers t) (ers ty) /\ kfk ty.

  Lemma whnf_kind n : ok0 (fun t => t = SKind) (whnf uniq gc n SKind).
  Proof.
    intros s Hs. destruct n as [|n]; [exact I|]. cbn. auto.
  Qed.

  Lemma get_prod_er t id a b : get_prod t = Some (id, a, b) -> ers t = Pi (ers a) (ers b).
  Proof.
    unfold get_prod. destruct (get_comb t) as [[h args|i x y|i x y]|] eqn:E; try discriminate.
    intros [= -> -> ->]. rewrite (get_comb_er _ _ E). reflexivity.
  Qed.
  Lemma get_prod_kf t id a b : get_prod t = Some (id, a, b) -> kf t -> kf a /\ kf b.
  Proof.
    unfold get_prod. destruct (get_comb t) as [[h args|i x y|i x y]|] eqn:E; try discriminate.
    intros [= -> -> ->] Hk. exact (wfs_get_comb _ _ _ _ _ Hk E).
  Qed.
  Lemma get_abst_er t id oa b : get_abst t = Some (id, oa, b) ->
    ers t = match oa with Some a => Lam (ers a) (ers b) | None => ULam (ers b) end.
  Proof.
    destruct t as [| |c|n|[h args|i x y|i [x|] y]|[h args|i x y|i [x|] y]]; try discriminate;
      intros [= <- <- <-]; cbn; rewrite ?ers_sterm_of_lterm; reflexivity.
  Qed.
  Lemma get_abst_kf t id oa b : get_abst t = Some (id, oa, b) -> kf t ->
    match oa with Some a => kf a | None => True end /\ kf b.
  Proof.
    destruct t as [| |c|n|[h args|i x y|i [x|] y]|[h args|i x y|i [x|] y]]; try discriminate;
      intros [= <- <- <-]; intros Hk; cbn [option_map]; try (split; [first [exact I|apply kf_lterm]|apply kf_lterm]); exact Hk.
  Qed.

  Lemma infer_sound n :
    (forall lc t, Forall kf lc -> kf t -> ok0 (inferred lc t) (infer uniq gc n lc t)) /\
    (forall lc t ty, Forall kf lc -> kf t -> kf ty ->
      ok0 (fun b => b = true -> has_type (map ers lc) (ers t) (ers ty)) (check uniq gc n lc t ty)).
  Proof.
    induction n as [|n [IH1 IH2]]; [split; intros; apply ok0_nofuel|]. split.
    - intros lc t Hlc Ht. cbn [infer].
      assert (Hbind : forall a b, kf a -> kf b ->
        ok0 (fun B => has_type (map ers lc) (ers a) Typ /\ inferred (a :: lc) b B) (bind_of_type (infer uniq gc n) lc a b)).
      { intros a b Ha Hb. unfold bind_of_type. eapply ok0_bind; [apply IH1; assumption|]. intros k [Hk _].
        destruct k; try apply ok0_fail. eapply ok0_post; [|apply IH1; [constructor; assumption|assumption]].
        cbn beta. intros B HB. split; [exact Hk|exact HB]. }
      assert (Hargs : forall args, Forall kf args -> forall h ty, has_type (map ers lc) h (ers ty) -> kfk ty ->
        ok0 (fun B => has_type (map ers lc) (apps h (map ers args)) (ers B) /\ kfk B)
            (infer_args uniq (whnf uniq gc n) (check uniq gc n) lc ty args)).
      { induction 1 as [|a args Ha Hargs IHa]; intros h ty Hh Hty; cbn [infer_args map apps].
        - apply ok0_ret. auto.
        - eapply ok0_bind with (P := fun ty' => conv (ers ty) (ers ty') /\ kfk ty').
          + destruct Hty as [->|Hty].
            * eapply ok0_post; [|apply whnf_kind]. cbn beta. intros ty' ->. split; [apply conv_refl|left; reflexivity].
            * eapply ok0_post; [|apply whnf_ok; assumption]. cbn beta. intros ty' [? ?]. split; [assumption|right; assumption].
          + intros ty' [Hc Hk]. eapply ok0_bind; [apply ok0_ok_or with (P := fun p => get_prod ty' = Some p); auto|].
            intros [[id A] B] Hp. assert (kf ty') by (destruct Hk as [->|]; [discriminate|assumption]).
            destruct (get_prod_kf _ _ _ _ Hp H) as [HA HB]. apply get_prod_er in Hp.
            eapply ok0_bind; [apply IH2; assumption|]. intros [|] Hck; [|apply ok0_fail].
            specialize (Hck eq_refl).
            eapply ok0_bind; [apply subst_ok; assumption|]. intros b' [Hb' Hkb].
            apply IHa; [|right; assumption]. rewrite Hb'. eapply ty_app; [|exact Hck].
            eapply ty_conv; [exact Hh|]. rewrite <- Hp. exact Hc. }
      assert (Hcomb : forall c, wfc False sconst kf c ->
        ok0 (fun B => has_type (map ers lc) (er_comb ers c) (ers B) /\ kfk B)
            (infer_comb uniq (whnf uniq gc n) (infer uniq gc n) (check uniq gc n) lc c)).
      { intros [h args|id a b|id [a|] b] Hc; cbn [infer_comb er_comb wfc] in *.
        - destruct Hc as (Hh & Ha & _). apply list_all_Forall in Ha.
          eapply ok0_bind; [apply IH1; assumption|]. intros ty [H1 H2]. apply Hargs; assumption.
        - destruct Hc as [Ha Hb]. eapply ok0_bind; [apply Hbind; assumption|]. intros tt (H1 & H2 & H3).
          destruct tt; cbn [is_sort]; try apply ok0_fail; apply ok0_ret.
          + split; [|left; reflexivity]. eapply ty_pi; auto.
          + split; [|right; exact I]. eapply ty_pi; auto.
        - destruct Hc as [Ha Hb]. eapply ok0_bind; [apply Hbind; assumption|]. intros B (H1 & H2 & H3).
          assert (HB : B <> SKind -> has_type (map ers lc) (Lam (ers a) (ers b)) (ers (SSComb (Prod id a B))) /\ kfk (SSComb (Prod id a B))).
          { intros HB. destruct H3 as [|H3]; [contradiction|]. split; [|right; split; assumption].
            cbn. eapply ty_lam; [exact H1|exact H2|now apply kf_not_kind]. }
          destruct B; try (apply ok0_fail); apply ok0_ret; apply HB; discriminate.
        - apply ok0_fail. }
      destruct t as [| |c|x|c|c].
      + apply ok0_fail.
      + apply ok0_ret. split; [apply ty_type|left; reflexivity].
      + eapply ok0_bind; [apply ok0_ok_or with (P := fun ty => get_type gc c = Some ty); auto|]. intros ty Hc.
        apply ok0_ret. split; [|right; apply kf_lterm]. rewrite ers_sterm_of_lterm. apply ty_const. cbn. rewrite Hc. reflexivity.
      + unfold lctx_get_type. destruct (nth_error lc x) as [A|] eqn:E.
        * assert (HA : kf A) by (apply nth_error_In in E; rewrite Forall_forall in Hlc; auto).
          eapply ok0_bind with (P := fun o => match o with Some A' => ers A' = lift (S x) (ers A) /\ kf A' | None => False end).
          { eapply ok0_bind; [apply shift_ok; exact HA|]. intros A' [H1 H2]. apply ok0_ret.
            rewrite Nat.add_1_r in H1. auto. }
          intros [A'|] []. apply ok0_ret. split; [|right; assumption]. rewrite H. apply ty_var.
          rewrite nth_error_map, E. reflexivity.
        * eapply ok0_bind; [apply ok0_ret with (P := fun o => o = None); reflexivity|]. intros o ->. apply ok0_fail.
      + eapply ok0_post; [|apply Hcomb; apply wfc_of_lcomb; exact Ht]. cbn beta. unfold inferred. cbn [ers].
        rewrite er_scomb_of_lcomb. auto.
      + apply Hcomb. exact Ht.
    - intros lc t ty Hlc Ht Hty. cbn [check]. destruct (get_abst t) as [[[id oa] b]|] eqn:Ea.
      + destruct (get_abst_kf _ _ _ _ Ea Ht) as [Hka Hkb]. rewrite (get_abst_er _ _ _ _ Ea).
        eapply ok0_bind; [apply whnf_ok; assumption|]. intros ty' [Hc Hk].
        eapply ok0_bind; [apply ok0_ok_or with (P := fun p => get_prod ty' = Some p); auto|].
        intros [[id' A] B] Hp. destruct (get_prod_kf _ _ _ _ Hp Hk) as [HA HB]. apply get_prod_er in Hp. rewrite Hp in Hc.
        eapply ok0_bind with (P := fun ok => ok = true -> match oa with
            | Some a => (exists K, has_type (map ers lc) (ers a) K) /\ conv (ers a) (ers A) | None => True end).
        * destruct oa as [a|]; [|apply ok0_ret; auto].
          eapply ok0_bind; [apply IH1; assumption|]. intros K [HK _].
          eapply ok0_post; [|apply convertible_ok]. cbn beta. intros ok Hok Htrue. split; [eexists; exact HK|auto].
        * intros [|] Hok; [|apply ok0_ret; discriminate]. specialize (Hok eq_refl).
          eapply ok0_post; [|apply IH2; [constructor; assumption|assumption|assumption]].
          cbn beta. intros ok Hb Htrue. specialize (Hb Htrue). cbn [map] in Hb.
          eapply ty_conv; [|apply conv_sym; exact Hc].
          destruct oa as [a|].
          -- destruct Hok as [[K HK] Haa]. eapply ty_conv; [eapply ty_lam with (B := ers B); [exact HK| |now apply kf_not_kind]|].
             ++ eapply has_type_ctx_conv; [exact Hb|]. constructor; [now apply conv_sym|].
                clear. induction (map ers lc); constructor; [apply conv_refl|assumption].
             ++ apply conv_pi; [exact Haa|apply conv_refl].
          -- eapply ty_ulam; [exact Hb|now apply kf_not_kind].
      + eapply ok0_bind; [apply IH1; assumption|]. intros A [HA _].
        eapply ok0_post; [|apply convertible_ok]. cbn beta. intros b Hb Htrue.
        eapply ty_conv; [exact HA|auto].
  Qed.
End Facts.
