(** * Kernel queries: absence of panics, independence of other symbols, determinism *)

From Verif Require Import Base ModelTerm ModelGctx ModelCommand ModelSubst ModelReduce ModelInfer
  SpecTerm SpecConv SpecQuery RefMachine LibMono RefMono RefSafe Erase SimReduce Inv SoundInfer RefInfer.

Open Scope sm_scope.

(** ** Absence of panics *)
Definition np {X} (m : M X) : Prop :=
  forall s, m_heap s = [] -> match m s with Ok (_, s') => m_heap s' = [] | Panic => False | _ => True end.
Lemma np_ret {X} (a : X) : np (ret a).
Proof. intros s Hs. exact Hs. Qed.
Lemma np_fail {X} e : np (@fail _ _ X e).
Proof. intros s Hs. exact I. Qed.
Lemma np_nofuel {X} : np (@nofuel _ _ X).
Proof. intros s Hs. exact I. Qed.
Lemma np_bind {X Y} (m : M X) (k : X -> M Y) : np m -> (forall a, np (k a)) -> np (bind m k).
Proof.
  intros Hm Hk s Hs. specialize (Hm s Hs). unfold bind. destruct (m s) as [[a s']| | |]; auto. apply Hk. exact Hm.
Qed.
Lemma np_ok_or {X} (o : option X) e : np (ok_or o e).
Proof. destruct o; [apply np_ret|apply np_fail]. Qed.
Lemma np_simm {X Y} (f : X -> Y) P m m' : simm f P m m' -> hpres m -> (forall h, m' h <> Panic) -> np m.
Proof.
  intros H Hp Hn s Hs. specialize (H s (hinv_nil _ Hs)). destruct (m s) as [[a s']| | |] eqn:E; auto.
  - rewrite (Hp _ _ _ E). exact Hs.
  - apply (Hn (erh s)). exact H.
Qed.

Section Kernel.
  Variable uniq : nat -> bool.
  Variable gc : gctx.

  Lemma whnf_np n t : np (whnf uniq gc n t).
  Proof.
    eapply np_simm; [apply whnf_sim|apply hpres_whnf|]. intros h H.
    pose proof (r_whnf_safe (er_gctx gc) n (ers t) h) as Hs. red in Hs. rewrite H in Hs. exact Hs.
  Qed.
  Lemma convertible_np n t u : np (convertible uniq gc n t u).
  Proof.
    eapply np_simm; [apply convertible_sim|apply hpres_conv_loop|]. intros h H.
    pose proof (r_conv_safe (er_gctx gc) n [(ers t, ers u)] h) as Hs. red in Hs. unfold r_convertible in H. rewrite H in Hs. exact Hs.
  Qed.
  Lemma shift_np t k : np (shift uniq t k).
  Proof. eapply np_simm; [apply shift_sim|apply hpres_shift|discriminate]. Qed.
  Lemma subst_np t u : np (subst uniq t u).
  Proof. eapply np_simm; [apply subst_sim|apply hpres_subst|discriminate]. Qed.

  Ltac np_step :=
    first [ apply np_ret | apply np_fail | apply np_nofuel | apply np_ok_or | apply whnf_np | apply convertible_np
          | apply shift_np | apply subst_np
          | (apply np_bind; [|intros]) ].

  Lemma infer_np n : (forall lc t, np (infer uniq gc n lc t)) /\ (forall lc t ty, np (check uniq gc n lc t ty)).
  Proof.
    induction n as [|n [IH1 IH2]]; [split; intros; apply np_nofuel|]. split.
    - intros lc t. cbn [infer].
      assert (Hargs : forall args ty, np (infer_args uniq (whnf uniq gc n) (check uniq gc n) lc ty args)).
      { induction args as [|a args IHa]; intros ty; cbn [infer_args]; [apply np_ret|].
        apply np_bind; [apply whnf_np|]. intros ty'. apply np_bind; [apply np_ok_or|]. intros [[id A] B].
        apply np_bind; [apply IH2|]. intros [|]; [|apply np_fail]. apply np_bind; [apply subst_np|]. exact IHa. }
      assert (Hbind : forall a b, np (bind_of_type (infer uniq gc n) lc a b)).
      { intros a b. unfold bind_of_type. apply np_bind; [apply IH1|]. intros k. destruct k; try apply np_fail. apply IH1. }
      assert (Hcomb : forall c, np (infer_comb uniq (whnf uniq gc n) (infer uniq gc n) (check uniq gc n) lc c)).
      { intros [h args|id a b|id [a|] b]; cbn [infer_comb].
        - apply np_bind; [apply IH1|]. intros; apply Hargs.
        - apply np_bind; [apply Hbind|]. intros B. destruct (is_sort B); [apply np_ret|apply np_fail].
        - apply np_bind; [apply Hbind|]. intros B. destruct B; first [apply np_ret|apply np_fail].
        - apply np_fail. }
      destruct t; try apply Hcomb; try apply np_fail; try apply np_ret.
      + apply np_bind; [apply np_ok_or|]. intros; apply np_ret.
      + apply np_bind; [|intros; apply np_ok_or]. unfold lctx_get_type. destruct (nth_error lc n0); [|apply np_ret].
        apply np_bind; [apply shift_np|]. intros; apply np_ret.
    - intros lc t ty. cbn [check]. destruct (get_abst t) as [[[id oa] b]|].
      + apply np_bind; [apply whnf_np|]. intros ty'. apply np_bind; [apply np_ok_or|]. intros [[id' A] B].
        apply np_bind.
        * destruct oa; [|apply np_ret]. apply np_bind; [apply IH1|]. intros; apply convertible_np.
        * intros [|]; [apply IH2|apply np_ret].
      + apply np_bind; [apply IH1|]. intros; apply convertible_np.
  Qed.
  Lemma kintro_np n it : np (kintro uniq gc n it).
  Proof.
    destruct it as [[ty|] [tm|]|ty tm|inj ty]; cbn [kintro]; unfold declare, define, theorem;
      repeat first [apply (proj1 (infer_np n)) | apply (proj2 (infer_np n)) | np_step
                   | match goal with |- np (if ?b then _ else _) => destruct b end].
  Qed.
  Lemma rewrite_np n r : np (rewrite uniq gc n r).
  Proof.
    unfold rewrite. repeat first [apply (proj1 (infer_np n)) | np_step].
  Qed.
  Lemma check_check_np n c : np (check_check uniq gc n c).
  Proof.
    unfold check_check. apply np_bind; [apply infer_np|]. intros [|]; [apply np_ret|apply np_fail].
  Qed.
End Kernel.

(** ** Independence of symbols that do not occur *)
Section Indep.
  Variable A : sym -> Prop.
  Variable uniq : nat -> bool.
  Variable gc gc' : gctx.
  Notation ws := (wfs A True False).
  Notation wl := (wfl A False).
  Hypothesis Heta : g_eta gc = g_eta gc'.
  Hypothesis Htypes : forall c, A c -> get_type gc c = get_type gc' c.
  Hypothesis Hrules : forall c, A c -> get_rules gc c = get_rules gc' c.
  Hypothesis Hty : forall c ty, A c -> get_type gc c = Some ty -> wl ty.
  Hypothesis Hrhs : forall c rs r, A c -> get_rules gc c = Some rs -> In r rs -> wl (r_rhs r).

  Definition eq0 {X} (P : X -> Prop) (m m' : M X) : Prop :=
    forall s, m_heap s = [] -> m s = m' s /\ match m s with Ok (a, s') => P a /\ m_heap s' = [] | _ => True end.
  Lemma eq0_ret {X} (P : X -> Prop) a : P a -> eq0 P (ret a) (ret a).
  Proof. intros H s Hs. cbn. auto. Qed.
  Lemma eq0_fail {X} (P : X -> Prop) e : eq0 P (fail e) (fail e).
  Proof. intros s Hs. cbn. auto. Qed.
  Lemma eq0_nofuel {X} (P : X -> Prop) : eq0 P nofuel nofuel.
  Proof. intros s Hs. cbn. auto. Qed.
  Lemma eq0_bind {X Y} (P : X -> Prop) (Q : Y -> Prop) m m' k k' :
    eq0 P m m' -> (forall a, P a -> eq0 Q (k a) (k' a)) -> eq0 Q (bind m k) (bind m' k').
  Proof.
    intros Hm Hk s Hs. destruct (Hm s Hs) as [He Hp]. unfold bind. rewrite <- He.
    destruct (m s) as [[a s']| | |]; auto. destruct Hp as [Ha Hs']. apply Hk; assumption.
  Qed.
  Lemma eq0_ok_or {X} (P : X -> Prop) o e : (forall a, o = Some a -> P a) -> eq0 P (ok_or o e) (ok_or o e).
  Proof. intros H. destruct o; [apply eq0_ret; auto|apply eq0_fail]. Qed.
  Lemma eq0_eqi {X} (P : X -> Prop) m m' : eqi A True False P m m' -> hpres m -> eq0 P m m'.
  Proof.
    intros H Hp s Hs. destruct (H s (hwf_nil _ _ _ _ Hs)) as [He H2]. split; [assumption|].
    destruct (m s) as [[a s']| | |] eqn:E; auto. split; [apply H2|]. rewrite (Hp _ _ _ E). exact Hs.
  Qed.

  Lemma whnf_eq0 n t : ws t -> eq0 ws (whnf uniq gc n t) (whnf uniq gc' n t).
  Proof. intros Ht. apply eq0_eqi; [|apply hpres_whnf]. apply whnf_inv; assumption. Qed.
  Lemma convertible_eq0 n t u : ws t -> ws u -> eq0 anyt (convertible uniq gc n t u) (convertible uniq gc' n t u).
  Proof. intros Ht Hu. apply eq0_eqi; [|apply hpres_conv_loop]. apply convertible_inv; assumption. Qed.

  Lemma get_prod_ws t id a b : get_prod t = Some (id, a, b) -> ws t -> ws a /\ ws b.
  Proof.
    unfold get_prod. destruct (get_comb t) as [[h args|i x y|i x y]|] eqn:E; try discriminate.
    intros [= -> -> ->] Hk. exact (wfs_get_comb _ _ _ _ _ Hk E).
  Qed.
  Lemma get_abst_ws t id oa b : get_abst t = Some (id, oa, b) -> ws t ->
    match oa with Some a => ws a | None => True end /\ ws b.
  Proof.
    destruct t as [| |c|n|[h args|i x y|i [x|] y]|[h args|i x y|i [x|] y]]; try discriminate;
      intros [= <- <- <-]; intros [Hk1 Hk2]; cbn [option_map];
      (split; [first [exact I|exact Hk1|apply wfs_of_lterm; exact Hk1]|first [exact Hk2|apply wfs_of_lterm; exact Hk2]]).
  Qed.

  Lemma infer_eq0 n :
    (forall lc t, Forall ws lc -> ws t -> eq0 ws (infer uniq gc n lc t) (infer uniq gc' n lc t)) /\
    (forall lc t ty, Forall ws lc -> ws t -> ws ty -> eq0 anyt (check uniq gc n lc t ty) (check uniq gc' n lc t ty)).
  Proof.
    induction n as [|n [IH1 IH2]]; [split; intros; apply eq0_nofuel|]. split.
    - intros lc t Hlc Ht. cbn [infer].
      assert (Hargs : forall args, Forall ws args -> forall ty, ws ty ->
        eq0 ws (infer_args uniq (whnf uniq gc n) (check uniq gc n) lc ty args)
               (infer_args uniq (whnf uniq gc' n) (check uniq gc' n) lc ty args)).
      { induction 1 as [|a args Ha Hargs IHa]; intros ty Hty'; cbn [infer_args]; [apply eq0_ret; assumption|].
        eapply eq0_bind; [apply whnf_eq0; assumption|]. intros ty' Hty2.
        eapply eq0_bind; [apply eq0_ok_or with (P := fun p => get_prod ty' = Some p); auto|]. intros [[id B] C] Hp.
        destruct (get_prod_ws _ _ _ _ Hp Hty2) as [HB HC].
        eapply eq0_bind; [apply IH2; assumption|]. intros [|] _; [|apply eq0_fail].
        eapply eq0_bind; [apply eq0_eqi; [apply subst_inv; assumption|apply hpres_subst]|]. exact IHa. }
      assert (Hbind : forall a b, ws a -> ws b ->
        eq0 ws (bind_of_type (infer uniq gc n) lc a b) (bind_of_type (infer uniq gc' n) lc a b)).
      { intros a b Ha Hb. unfold bind_of_type. eapply eq0_bind; [apply IH1; assumption|]. intros k _.
        destruct k; try apply eq0_fail. apply IH1; [constructor; assumption|assumption]. }
      assert (Hcomb : forall c, wfc False sconst ws c ->
        eq0 ws (infer_comb uniq (whnf uniq gc n) (infer uniq gc n) (check uniq gc n) lc c)
               (infer_comb uniq (whnf uniq gc' n) (infer uniq gc' n) (check uniq gc' n) lc c)).
      { intros [h args|id a b|id [a|] b] Hc; cbn [infer_comb wfc] in *.
        - destruct Hc as (Hh & Ha & _). apply list_all_Forall in Ha.
          eapply eq0_bind; [apply IH1; assumption|]. intros; apply Hargs; assumption.
        - destruct Hc as [Ha Hb]. eapply eq0_bind; [apply Hbind; assumption|]. intros B HB.
          destruct (is_sort B); [apply eq0_ret; assumption|apply eq0_fail].
        - destruct Hc as [Ha Hb]. eapply eq0_bind; [apply Hbind; assumption|]. intros B HB.
          destruct B; first [apply eq0_fail|apply eq0_ret; split; assumption].
        - apply eq0_fail. }
      destruct t as [| |c|x|c|c].
      + apply eq0_fail.
      + apply eq0_ret. exact I.
      + rewrite <- Htypes by exact Ht. eapply eq0_bind; [apply eq0_ok_or with (P := fun ty => get_type gc c = Some ty); auto|].
        intros ty Hc. apply eq0_ret. apply wfs_of_lterm. eapply Hty; [exact Ht|exact Hc].
      + eapply eq0_bind with (P := fun o => match o with Some t => ws t | None => True end).
        * unfold lctx_get_type. destruct (nth_error lc x) as [B|] eqn:E; [|apply eq0_ret; exact I].
          assert (HB : ws B) by (apply nth_error_In in E; rewrite Forall_forall in Hlc; auto).
          eapply eq0_bind; [apply eq0_eqi; [apply shift_inv; exact HB|apply hpres_shift]|].
          intros B' HB'. apply eq0_ret. exact HB'.
        * intros [B|] HB; cbn [ok_or]; [apply eq0_ret; exact HB|apply eq0_fail].
      + apply Hcomb. apply wfc_of_lcomb. exact Ht.
      + apply Hcomb. exact Ht.
    - intros lc t ty Hlc Ht Hty'. cbn [check]. destruct (get_abst t) as [[[id oa] b]|] eqn:Ea.
      + destruct (get_abst_ws _ _ _ _ Ea Ht) as [Hka Hkb].
        eapply eq0_bind; [apply whnf_eq0; assumption|]. intros ty' Hty2.
        eapply eq0_bind; [apply eq0_ok_or with (P := fun p => get_prod ty' = Some p); auto|]. intros [[id' B] C] Hp.
        destruct (get_prod_ws _ _ _ _ Hp Hty2) as [HB HC].
        eapply eq0_bind with (P := anyt).
        * destruct oa as [a|]; [|apply eq0_ret; exact I].
          eapply eq0_bind; [apply IH1; assumption|]. intros _ _. apply convertible_eq0; assumption.
        * intros [|] _; [|apply eq0_ret; exact I]. apply IH2; [constructor; assumption|assumption|assumption].
      + eapply eq0_bind; [apply IH1; assumption|]. intros ty' Hty2. apply convertible_eq0; assumption.
  Qed.

  Lemma declare_eq0 n ty : wl ty -> eq0 anyt (declare uniq gc n ty) (declare uniq gc' n ty).
  Proof.
    intros H. unfold declare. eapply eq0_bind; [apply infer_eq0; [constructor|now apply wfs_of_lterm]|].
    intros k _. destruct (is_sort k); [apply eq0_ret; exact I|apply eq0_fail].
  Qed.
  Lemma kintro_eq0 n it : intro_all wl it -> eq0 anyt (kintro uniq gc n it) (kintro uniq gc' n it).
  Proof.
    destruct it as [[ty|] [tm|]|ty tm|inj ty]; cbn [kintro intro_all]; intros H.
    - unfold define. eapply eq0_bind; [apply infer_eq0; [constructor|apply wfs_of_lterm; tauto]|].
      intros _ _. apply eq0_ret. exact I.
    - apply declare_eq0. tauto.
    - unfold define. eapply eq0_bind; [apply infer_eq0; [constructor|apply wfs_of_lterm; tauto]|].
      intros ty _. destruct (lterm_of_sterm ty); [|apply eq0_fail].
      eapply eq0_bind with (P := anyt); [apply eq0_ret; exact I|]. intros ? _. apply eq0_ret. exact I.
    - apply eq0_fail.
    - unfold theorem. eapply eq0_bind; [apply infer_eq0; [constructor|apply wfs_of_lterm; tauto]|].
      intros _ _. apply eq0_ret. exact I.
    - apply declare_eq0. exact H.
  Qed.
  Lemma lctx_of_ws lc : Forall wl lc -> Forall ws (lctx_of lc).
  Proof.
    intros H. unfold lctx_of. apply Forall_rev. induction H; cbn; constructor; auto using wfs_of_lterm.
  Qed.
  Lemma rewrite_eq0 n r : Forall wl (r_ctx r) -> wl (r_lhs r) -> eq0 anyt (rewrite uniq gc n r) (rewrite uniq gc' n r).
  Proof.
    intros H1 H2. unfold rewrite. eapply eq0_bind; [apply infer_eq0; [now apply lctx_of_ws|now apply wfs_of_lterm]|].
    intros ty _. destruct (lterm_of_sterm ty); [|apply eq0_fail].
    eapply eq0_bind with (P := anyt); [apply eq0_ret; exact I|]. intros ? _. apply eq0_ret. exact I.
  Qed.
  Lemma check_check_eq0 n c : Forall wl (t_lc c) -> wl (t_ty c) -> wl (t_tm c) ->
    eq0 anyt (check_check uniq gc n c) (check_check uniq gc' n c).
  Proof.
    intros H1 H2 H3. unfold check_check.
    eapply eq0_bind; [apply infer_eq0; [now apply lctx_of_ws|now apply wfs_of_lterm|now apply wfs_of_lterm]|].
    intros [|] _; [apply eq0_ret; exact I|apply eq0_fail].
  Qed.
End Indep.
