(** * Inference and checking of types return if all well-typed terms are strongly normalising *)

From Verif Require Import Base LibMono ModelTerm ModelGctx ModelCommand ModelSubst ModelReduce ModelInfer
  SpecTerm SpecConv SpecConvFacts SpecTyping SpecRed SpecSN SpecType SpecDomain RedConfl RefMachine Erase SimReduce RefSound Inv SoundInfer
  RefRed TypeFacts DomFacts SoundDom TotReduce TotConv TotEta.

Open Scope sm_scope.

Section Tot.
  Variable uniq : nat -> bool.
  Variable gc : gctx.
  Notation sg := (er_gctx gc).
  Notation wt := (well_typed sg).
  Hypothesis Hst : stable_types sg.
  Hypothesis Hpi : pi_injective sg.
  Hypothesis Hlin : left_linear sg.
  Hypothesis Hsafe : eta_safe sg.
  Hypothesis Hrules : good_rules sg.
  Hypothesis Htypes : good_types sg.
  Hypothesis Hsn : normalising sg.

  Definition tot0 {A} (F : nat -> M A) : Prop := forall s, m_heap s = [] -> tot s F.

  Lemma tot0_bind {A B} (P : A -> Prop) (F : nat -> M A) (K : nat -> A -> M B) :
    tot0 F -> (forall n, ok0 P (F n)) -> (forall a, P a -> tot0 (fun n => K n a)) -> tot0 (fun n => bind (F n) (K n)).
  Proof.
    intros HF HP HK s Hs. apply (tot_bind s F K); [apply HF; exact Hs|]. intros n a s' E.
    specialize (HP n s Hs). rewrite E in HP. destruct HP. apply HK; assumption.
  Qed.
  Lemma tot0_ret {A} (a : A) : tot0 (fun _ => ret a).
  Proof. intros s _. apply tot_ret. Qed.
  Lemma tot0_fail {A} e : tot0 (fun _ => @fail _ _ A e).
  Proof. intros s _. apply tot_const. discriminate. Qed.
  Lemma tot0_ok_or {A} (o : option A) e : tot0 (fun _ => ok_or o e).
  Proof. intros s _. apply tot_const. destruct o; discriminate. Qed.
  Lemma tot0_S {A} (F F' : nat -> M A) : (forall n, F (S n) = F' n) -> tot0 F' -> tot0 F.
  Proof. intros H HF s Hs. apply (tot_S s F F'); [intros n; rewrite H; reflexivity|apply HF; exact Hs]. Qed.
  Lemma tot0_shift t k : tot0 (fun _ => shift uniq t k).
  Proof. intros s _. apply (totI_tot (fun _ => True)). apply shift_tot; auto. Qed.
  Lemma tot0_subst t u : tot0 (fun _ => subst uniq t u).
  Proof.
    intros s _. apply (totI_tot (fun _ => True)). unfold subst.
    apply (totI_bind _ _ (fun _ => apply_subst uniq ((fun _ => psubst_single uniq u) 0) t 0)).
    - apply (apply_subst_tot uniq (fun _ => True) (fun _ _ => I) (fun _ => psubst_single uniq u)); [|exact I].
      intros n k s0 _. unfold psubst_single. destruct (n =? k); [apply shift_tot; auto|].
      apply (totI_bind _ _ (fun _ => usub n 1)); [apply totI_usub; exact I|]. intros m s1 _. apply (totI_ret _ s1 _ I).
    - intros [t' ch] s1 _. apply (totI_ret _ s1 _ I).
  Qed.
  Lemma tot0_whnf t : strongly_normalising sg (ers t) -> tot0 (fun n => whnf uniq gc n t).
  Proof. intros H s Hs. apply whnf_tot; assumption. Qed.
  Lemma tot0_conv t u : strongly_normalising sg (ers t) -> strongly_normalising sg (ers u) -> tot0 (fun n => convertible uniq gc n t u).
  Proof. intros Ht Hu s Hs. apply convertible_tot_safe; try assumption. apply hinv_nil. exact Hs. Qed.

  Lemma type_sn lc T : type_ctx sg (ctx lc) -> a_type gc (ctx lc) (ss T) -> strongly_normalising sg (ers T).
  Proof.
    intros Hc [E|(s & _ & H)]; [|eapply Hsn; eassumption].
    unfold strongly_normalising. rewrite E. constructor. intros u Hu. exfalso. clear - Hu. remember Kind as k eqn:Ek.
    destruct Hu; try discriminate. destruct ts as [|t ts] using rev_ind; [discriminate|]. rewrite apps_snoc in Ek. discriminate.
  Qed.

  Definition infer_returns (t : sterm) : Prop := forall lc, Forall kf lc -> kf t -> type_ctx sg (ctx lc) ->
    tot0 (fun n => infer uniq gc n lc t).
  Definition check_returns (t : sterm) : Prop := forall lc ty, Forall kf lc -> kf t -> kf ty -> type_ctx sg (ctx lc) ->
    (exists K, wt (ctx lc) (ss ty) K) -> tot0 (fun n => check uniq gc n lc t ty).
  Definition returns (t : sterm) : Prop := infer_returns t /\ check_returns t.

  Lemma infer_wt1 n lc t : Forall kf lc -> kf t -> type_ctx sg (ctx lc) -> ok0 (inferred_wt gc lc t) (infer uniq gc n lc t).
  Proof. intros. apply infer_wt; assumption. Qed.

  (** Terms that are no abstractions are checked by inference. *)
  Lemma check_infer t : get_abst t = None -> infer_returns t -> check_returns t.
  Proof.
    intros Ha Hi lc ty Hlc Ht Hty Hctx [K HK].
    apply (tot0_S _ (fun n => bind (infer uniq gc n lc t) (fun T => convertible uniq gc n T ty))).
    { intros n. cbn [check]. rewrite Ha. reflexivity. }
    apply (tot0_bind (inferred_wt gc lc t) (fun n => infer uniq gc n lc t) (fun n T => convertible uniq gc n T ty)).
    - apply Hi; assumption.
    - intros n. apply infer_wt1; assumption.
    - intros T (_ & _ & HT). apply tot0_conv; [eapply type_sn; eassumption|]. eapply Hsn; eassumption.
  Qed.
  Lemma check_abst t id oa b : get_abst t = Some (id, oa, b) -> match oa with Some a => infer_returns a | None => True end -> check_returns b -> check_returns t.
  Proof.
    intros Ha Hoa Hb lc ty Hlc Ht Hty Hctx [K HK]. destruct (get_abst_kf _ _ _ _ Ha Ht) as [Hka Hkb].
    apply (tot0_S _ (fun n => bind (whnf uniq gc n ty) (fun ty => bind (ok_or (get_prod ty) ProductExpected) (fun '(_, ty_a, ty_b) =>
      bind (match oa with None => ret true | Some a => infer uniq gc n lc a ;;; convertible uniq gc n a ty_a end)
        (fun ok : bool => if ok then check uniq gc n (ty_a :: lc) b ty_b else ret false))))).
    { intros n. cbn [check]. rewrite Ha. reflexivity. }
    apply (tot0_bind (fun ty' => kf ty' /\ reds sg (ss ty) (ss ty')) (fun n => whnf uniq gc n ty)).
    { apply tot0_whnf. eapply Hsn; eassumption. }
    { intros n. eapply ok0_post; [|apply ok0_and; [apply whnf_ok; exact Hty|apply whnf_red; exact Hlin]]. cbn beta. tauto. }
    intros ty' [Hk Hr].
    apply (tot0_bind (fun p => get_prod ty' = Some p) (fun n => ok_or (get_prod ty') ProductExpected)); [apply tot0_ok_or|intros n; apply ok0_ok_or; auto|].
    intros [[id' A] B] Hp. destruct (get_prod_kf _ _ _ _ Hp Hk) as [HA HB]. apply get_prod_ss in Hp. rewrite Hp in Hr.
    pose proof (wt_reds _ Hst Hpi Hrules _ _ Hr _ _ HK) as HP. destruct (wgen_pi _ _ _ _ _ HP) as (s' & HAt & HBt & Hs' & _).
    apply (tot0_bind (fun _ => True) (fun n => match oa with None => ret true | Some a => infer uniq gc n lc a ;;; convertible uniq gc n a A end)).
    { destruct oa as [a|]; [|apply tot0_ret].
      apply (tot0_bind (inferred_wt gc lc a) (fun n => infer uniq gc n lc a) (fun n _ => convertible uniq gc n a A)).
      - apply Hoa; assumption.
      - intros n. apply infer_wt1; assumption.
      - intros T (HT & _). apply tot0_conv; eapply Hsn; eassumption. }
    { intros n. destruct oa as [a|]; [|apply ok0_ret; exact I].
      eapply ok0_bind; [apply infer_wt1; assumption|]. intros T _. eapply ok0_post; [|apply convertible_ok]. auto. }
    intros [|] _; [|apply tot0_ret]. apply Hb; [constructor; assumption|assumption..|constructor; assumption|eexists; exact HBt].
  Qed.

  Lemma bind_returns a b lc : infer_returns a -> infer_returns b -> Forall kf lc -> kf a -> kf b -> type_ctx sg (ctx lc) ->
    tot0 (fun n => bind_of_type (infer uniq gc n) lc a b).
  Proof.
    intros Ha Hb Hlc Hka Hkb Hctx. unfold bind_of_type.
    apply (tot0_bind (inferred_wt gc lc a) (fun n => infer uniq gc n lc a) (fun n k => match k with SType => infer uniq gc n (a :: lc) b | _ => fail BindNoType end)).
    - apply Ha; assumption.
    - intros n. apply infer_wt1; assumption.
    - intros k (Hk & _). destruct k; try apply tot0_fail. apply Hb; [constructor; assumption|assumption|constructor; assumption].
  Qed.
  Lemma args_return lc args : Forall kf lc -> type_ctx sg (ctx lc) -> Forall (fun t => kf t /\ check_returns t) args ->
    forall ty, kfk ty -> a_type gc (ctx lc) (ss ty) ->
    tot0 (fun n => infer_args uniq (whnf uniq gc n) (check uniq gc n) lc ty args).
  Proof.
    intros Hlc Hctx. induction 1 as [|a args [Ha Hca] Hargs IHa]; intros ty Hty Hat; cbn [infer_args]; [apply tot0_ret|].
    apply (tot0_bind (fun ty' => kfk ty' /\ a_type gc (ctx lc) (ss ty')) (fun n => whnf uniq gc n ty)
      (fun n ty => bind (ok_or (get_prod ty) ProductExpected) (fun '(_, a0, b) => bind (check uniq gc n lc a a0) (fun ok : bool =>
         if ok then b <- subst uniq b a ;; infer_args uniq (whnf uniq gc n) (check uniq gc n) lc b args else fail Unconvertible)))).
    { apply tot0_whnf. eapply type_sn; eassumption. }
    { intros n. eapply ok0_post; [|apply whnf_wt; eassumption]. cbn beta. tauto. }
    intros ty' (Hk & Hs).
    apply (tot0_bind (fun p => get_prod ty' = Some p) (fun n => ok_or (get_prod ty') ProductExpected)); [apply tot0_ok_or|intros n; apply ok0_ok_or; auto|].
    intros [[id A] B] Hp. assert (kf ty') by (destruct Hk as [->|]; [discriminate|assumption]).
    destruct (get_prod_kf _ _ _ _ Hp H) as [HA HB]. apply get_prod_ss in Hp. rewrite Hp in Hs.
    destruct Hs as [Hs|(s & _ & Hs)]; [discriminate|]. destruct (wgen_pi _ _ _ _ _ Hs) as (s' & HAt & HBt & Hs' & _).
    apply (tot0_bind (fun b => b = true -> wt (ctx lc) (ss a) (ss A)) (fun n => check uniq gc n lc a A)).
    { apply Hca; try assumption. eexists. exact HAt. }
    { intros n. apply infer_wt; try assumption. eexists. exact HAt. }
    intros [|] Hck; [|apply tot0_fail]. specialize (Hck eq_refl).
    apply (tot0_bind (fun t' => ers t' = subst1 (ers a) (ers B) /\ kf t') (fun _ => subst uniq B a)); [apply tot0_subst|intros _; apply subst_ok; assumption|].
    intros b' [Hb' Hkb]. assert (Eb : ss b' = subst1 (ss a) (ss B)) by (rewrite Hb'; apply strip_subst1).
    apply IHa; [right; exact Hkb|rewrite Eb]. right. exists s'. split; [exact Hs'|].
    pose proof (wt_subst1 _ Hst _ _ _ _ _ HBt Hck) as Hsub. unfold subst1 in Hsub at 2. rewrite sub_sort in Hsub by exact Hs'. exact Hsub.
  Qed.

  Lemma comb_returns c lc : comb_all returns c -> wfc False sconst kf c -> Forall kf lc -> type_ctx sg (ctx lc) ->
    tot0 (fun n => infer_comb uniq (whnf uniq gc n) (infer uniq gc n) (check uniq gc n) lc c).
  Proof.
    intros Hall Hc Hlc Hctx. destruct c as [h args|id a b|id [a|] b]; cbn [infer_comb comb_all wfc] in *.
    - destruct Hall as [[Hh _] Ha]. destruct Hc as (Hkh & Hka & _). apply list_all_Forall in Hka.
      apply (tot0_bind (inferred_wt gc lc h) (fun n => infer uniq gc n lc h) (fun n ty => infer_args uniq (whnf uniq gc n) (check uniq gc n) lc ty args)).
      + apply Hh; assumption.
      + intros n. apply infer_wt1; assumption.
      + intros ty (_ & H2 & H3). apply args_return; try assumption.
        rewrite Forall_forall in *. intros x Hx. split; [auto|apply Ha; exact Hx].
    - destruct Hall as [[Ha _] [Hb _]]. destruct Hc as [Hka Hkb].
      apply (tot0_bind (fun _ => True) (fun n => bind_of_type (infer uniq gc n) lc a b) (fun n tt => if is_sort tt then ret tt else fail SortExpected)).
      + apply bind_returns; assumption.
      + intros n. unfold bind_of_type. eapply ok0_bind; [apply infer_wt1; assumption|]. intros k (Hk & _).
        destruct k; try apply ok0_fail. eapply ok0_post; [|apply infer_wt1; [constructor; assumption|assumption|constructor; assumption]]. auto.
      + intros tt _. destruct (is_sort tt); [apply tot0_ret|apply tot0_fail].
    - destruct Hall as [[Ha _] [Hb _]]. destruct Hc as [Hka Hkb].
      apply (tot0_bind (fun _ => True) (fun n => bind_of_type (infer uniq gc n) lc a b) (fun n tm_ty => match tm_ty with SKind => fail UnexpectedKind | _ => ret (SSComb (Prod id a tm_ty)) end)).
      + apply bind_returns; assumption.
      + intros n. unfold bind_of_type. eapply ok0_bind; [apply infer_wt1; assumption|]. intros k (Hk & _).
        destruct k; try apply ok0_fail. eapply ok0_post; [|apply infer_wt1; [constructor; assumption|assumption|constructor; assumption]]. auto.
      + intros tt _. destruct tt; try apply tot0_ret. apply tot0_fail.
    - apply tot0_fail.
  Qed.

  Lemma returns_of t : get_abst t = None -> infer_returns t -> returns t.
  Proof. intros Ha H. split; [exact H|apply check_infer; assumption]. Qed.
  Lemma comb_returns_of t c : get_comb t = Some c -> (forall n lc, infer uniq gc (S n) lc t = infer_comb uniq (whnf uniq gc n) (infer uniq gc n) (check uniq gc n) lc c) ->
    comb_all returns c -> returns t.
  Proof.
    intros Et Hi Hall.
    assert (H : infer_returns t).
    { intros lc Hlc Hk Hctx. eapply tot0_S; [intros n; apply Hi|]. apply comb_returns; [exact Hall|exact (wfs_get_comb _ _ _ _ _ Hk Et)|assumption..]. }
    split; [exact H|]. destruct (get_abst t) as [[[id oa] b]|] eqn:Ea; [|apply check_infer; assumption].
    assert (Ec : c = Abst id oa b).
    { destruct t as [| |x|x|[h args|i x y|i [x|] y]|[h args|i x y|i [x|] y]]; try discriminate; injection Et as <-; injection Ea as <- <- <-; reflexivity. }
    subst c. destruct Hall as [Ha Hb]. eapply check_abst; [exact Ea|destruct oa; [apply Ha|exact I]|apply Hb].
  Qed.
  Lemma const_returns c : returns (SConst c).
  Proof.
    apply returns_of; [reflexivity|]. intros lc _ _ _. apply (tot0_S _ (fun _ => bind (ok_or (get_type gc c) TypeNotFound) (fun ty => ret (sterm_of_lterm ty)))); [reflexivity|].
    apply (tot0_bind (fun _ => True) (fun _ => ok_or (get_type gc c) TypeNotFound)); [apply tot0_ok_or|intros; apply ok0_ok_or; auto|]. intros ty _. apply tot0_ret.
  Qed.
  Lemma var_returns x : returns (SVar x).
  Proof.
    apply returns_of; [reflexivity|]. intros lc Hlc _ _. apply (tot0_S _ (fun _ => bind (lctx_get_type uniq lc x) (fun ty => ok_or ty TypeNotFound))); [reflexivity|].
    unfold lctx_get_type. destruct (nth_error lc x) as [A|] eqn:E.
    - assert (HA : kf A) by (apply nth_error_In in E; rewrite Forall_forall in Hlc; auto).
      apply (tot0_bind (fun _ => True) (fun _ => bind (shift uniq A (x + 1)) (fun t => ret (Some t)))).
      + apply (tot0_bind (fun _ => True) (fun _ => shift uniq A (x + 1))); [apply tot0_shift|intros; eapply ok0_post; [|apply shift_ok; exact HA]; auto|].
        intros a _. apply tot0_ret.
      + intros n. eapply ok0_bind; [apply shift_ok; exact HA|]. intros a _. apply ok0_ret. exact I.
      + intros a _. apply tot0_ok_or.
    - apply (tot0_bind (fun _ => True) (fun _ => ret None)); [apply tot0_ret|intros; apply ok0_ret; exact I|]. intros a _. apply tot0_ok_or.
  Qed.
  Lemma type_returns : returns SType.
  Proof.
    apply returns_of; [reflexivity|]. intros lc _ _ _. apply (tot0_S _ (fun _ => ret SKind)); [reflexivity|apply tot0_ret].
  Qed.

  Lemma lterm_returns t : returns (sterm_of_lterm t).
  Proof.
    induction t as [|c|x|c IH] using lterm_ind'; cbn [sterm_of_lterm].
    - apply type_returns.
    - apply const_returns.
    - apply var_returns.
    - apply (comb_returns_of _ (scomb_of_lcomb c)); [reflexivity|reflexivity|].
      destruct c as [h args|id a b|id [a|] b]; cbn in *; try tauto.
      destruct IH as [Hh Ha]. split; [exact Hh|]. clear - Ha. induction Ha; cbn; constructor; auto.
  Qed.
  Lemma sterm_returns t : returns t.
  Proof.
    induction t as [| |c|x|c|c IH] using sterm_ind'.
    - apply returns_of; [reflexivity|]. intros lc _ _ _. apply (tot0_S _ (fun _ => fail KindNotTypable)); [reflexivity|apply tot0_fail].
    - apply type_returns.
    - apply const_returns.
    - apply var_returns.
    - apply (lterm_returns (LComb c)).
    - apply (comb_returns_of _ c); [reflexivity|reflexivity|exact IH].
  Qed.
End Tot.

Lemma good_stable sg : good_types sg -> stable_types sg.
Proof.
  intros H c A Hc s. destruct (H c A Hc) as (_ & k & _ & Hk). apply wt_scoped in Hk. cbn in Hk.
  eapply conv_trans; [apply conv_sub, conv_strip|]. eapply conv_trans; [|apply conv_sym, conv_strip].
  rewrite (sub_scoped _ 0 s Var); [|exact Hk|intros m Hm; lia]. rewrite sub_id_ext by reflexivity. apply conv_refl.
Qed.
