(** * The machine returns weak head normal forms *)

From Verif Require Import Base ModelSubst ModelReduce SpecTerm SpecConv SpecConvFacts SpecWhnf RefMachine LibMono RefMono RefSafe RefSound SimReduce.

Open Scope sm_scope.

(** ** Evaluated cells do not change *)
Definition frozen (c : rcell) : Prop :=
  match c with RCState _ w b => w = true \/ b = true | RCThunk _ => False end.
Definition is_state (c : rcell) : bool := match c with RCState _ _ _ => true | _ => false end.

Definition wext (h h' : heap) : Prop :=
  forall l c, nth_error h l = Some c -> exists c', nth_error h' l = Some c' /\ is_state c' = is_state c /\ (frozen c -> c' = c).
Lemma wext_refl h : wext h h.
Proof. intros l c H. eauto. Qed.
Lemma wext_trans h1 h2 h3 : wext h1 h2 -> wext h2 h3 -> wext h1 h3.
Proof.
  intros H1 H2 l c H. destruct (H1 _ _ H) as (c' & E & Hk & Hf). destruct (H2 _ _ E) as (c'' & E' & Hk' & Hf').
  exists c''. split; [assumption|]. split; [congruence|]. intros Hc. specialize (Hf Hc). subst c'. auto.
Qed.

(** head form of an evaluated state *)
Definition hform (st : rstate) : Prop :=
  match rs_term st with
  | Kind | Typ | Pi _ _ | Const _ => True
  | Var _ => rs_ctx st = []
  | Lam _ _ | ULam _ => rs_stack st = []
  | App _ _ => False
  end.
Definition hfi (h : heap) : Prop :=
  forall l st b, nth_error h l = Some (RCState st true b) -> hform st.

(** if the computation returns, evaluated cells are unchanged, in head form, and the result satisfies [Q] *)
Definition wx {A} (m : RM A) (h : heap) (Q : A -> heap -> Prop) : Prop :=
  hfi h -> match m h with Ok (a, h') => wext h h' /\ hfi h' /\ Q a h' | _ => True end.
Definition tt1 {A} (_ : A) (_ : heap) : Prop := True.

Lemma wx_ret {A} (a : A) h (Q : A -> heap -> Prop) : Q a h -> wx (ret a) h Q.
Proof. intros H Hh. cbn. auto using wext_refl. Qed.
Lemma wx_panic {A} h (Q : A -> heap -> Prop) : wx panic h Q.
Proof. intros Hh. exact I. Qed.
Lemma wx_nofuel {A} h (Q : A -> heap -> Prop) : wx nofuel h Q.
Proof. intros Hh. exact I. Qed.
Lemma wx_bind {A B} (m : RM A) (k : A -> RM B) h P Q :
  wx m h P -> (forall a h', wext h h' -> P a h' -> wx (k a) h' Q) -> wx (bind m k) h Q.
Proof.
  intros Hm Hk Hh. specialize (Hm Hh). unfold bind. destruct (m h) as [[a h1]| | |]; auto.
  destruct Hm as (He & Hh1 & HP). specialize (Hk a h1 He HP Hh1). destruct (k a h1) as [[b h2]| | |]; auto.
  destruct Hk as (He2 & Hh2 & HQ). eauto using wext_trans.
Qed.
Lemma wx_post {A} (m : RM A) h (P Q : A -> heap -> Prop) : (forall a h', wext h h' -> P a h' -> Q a h') -> wx m h P -> wx m h Q.
Proof.
  intros H Hm Hh. specialize (Hm Hh). destruct (m h) as [[a h1]| | |]; auto. destruct Hm as (? & ? & ?). auto.
Qed.
Lemma wx_mapM {A B} (f : A -> RM B) (Q : A -> B -> Prop) l : forall h,
  (forall a h', In a l -> wext h h' -> wx (f a) h' (fun b _ => Q a b)) -> wx (mapM f l) h (fun bs _ => Forall2 Q l bs).
Proof.
  induction l as [|a l IH]; intros h H; cbn [mapM]; [apply wx_ret; constructor|].
  eapply wx_bind; [apply H; [left; reflexivity|apply wext_refl]|]. intros b h1 He Hb. cbn beta in Hb.
  eapply wx_bind; [apply IH; intros; apply H; [right; assumption|eapply wext_trans; eassumption]|].
  intros bs h2 _ Hbs. cbn beta in Hbs. apply wx_ret. constructor; assumption.
Qed.

Lemma wx_alloc c h : match c with RCState _ w _ => w = false | _ => True end -> wx (r_alloc c) h tt1.
Proof.
  intros Hc Hh. cbn. split; [|split; [|exact I]].
  - intros l c' H. exists c'. split; [|auto]. rewrite nth_error_app1; [assumption|]. apply nth_error_Some. congruence.
  - intros l st b H. destruct (lt_dec l (length h)).
    + rewrite nth_error_app1 in H by assumption. eapply Hh; exact H.
    + rewrite nth_error_app2 in H by lia. destruct (l - length h) as [|[|?]]; try discriminate.
      injection H as ->. discriminate.
Qed.
Lemma wx_read l h : wx (r_read l) h (fun c h' => h' = h /\ nth_error h l = Some c).
Proof.
  intros Hh. unfold r_read. destruct (nth_error h l) eqn:E; [|exact I]. auto using wext_refl.
Qed.
Lemma wx_borrow l h : wx (r_borrow l) h (fun st h' => h' = h /\ exists w, nth_error h l = Some (RCState st w false)).
Proof.
  eapply wx_bind; [apply wx_read|]. intros c h' _ [-> Hc]. destruct c as [st w [|]|th]; try apply wx_panic.
  apply wx_ret. eauto.
Qed.
Lemma wx_usub a b h : wx (r_usub a b) h tt1.
Proof. unfold r_usub. destruct (b <=? a); [apply wx_ret; exact I|apply wx_panic]. Qed.
Lemma wext_set h l c c' : nth_error h l = Some c -> is_state c' = is_state c -> (frozen c -> c' = c) -> wext h (list_set h l c').
Proof.
  intros Hl Hk Hf l' d Hd. destruct (Nat.eq_dec l l') as [<-|Hn].
  - exists c'. rewrite nth_error_list_set_eq by (eapply nth_error_lt; eassumption).
    assert (d = c) by congruence. subst d. auto.
  - exists d. rewrite nth_error_list_set_neq by assumption. auto.
Qed.
Lemma hfi_set h l c : hfi h -> match c with RCState st true _ => hform st | _ => True end -> hfi (list_set h l c).
Proof.
  intros Hh Hc l' st b H. destruct (Nat.eq_dec l l') as [<-|Hn].
  - destruct (lt_dec l (length h)).
    + rewrite nth_error_list_set_eq in H by assumption. injection H as ->. exact Hc.
    + assert (Hlen : length (list_set h l c) <= l) by (rewrite length_list_set; lia).
      apply nth_error_None in Hlen. congruence.
  - rewrite nth_error_list_set_neq in H by assumption. eapply Hh; exact H.
Qed.

(** ** Reading back *)
Lemma wx_rsub f : (forall n k h, wx (f n k) h tt1) -> forall t k h, wx (rsub f t k) h tt1.
Proof.
  intros Hf t. induction t; intros k h; cbn [rsub]; try (apply wx_ret; exact I).
  - destruct (k <=? n); [apply Hf|apply wx_ret; exact I].
  - eapply wx_bind; [apply IHt1|]. intros. eapply wx_bind; [apply IHt2|]. intros. apply wx_ret; exact I.
  - eapply wx_bind; [apply IHt2|]. intros. eapply wx_bind; [apply IHt1|]. intros. apply wx_ret; exact I.
  - eapply wx_bind; [apply IHt|]. intros. apply wx_ret; exact I.
  - eapply wx_bind; [apply IHt1|]. intros. eapply wx_bind; [apply IHt2|]. intros. apply wx_ret; exact I.
Qed.
Definition wxo (f : loc -> RM tm) : Prop := forall l h, wx (f l) h tt1.
Lemma wx_psubst f args n k h : wxo f -> wx (r_psubst f args n k) h tt1.
Proof.
  intros Hf. unfold r_psubst. eapply wx_bind; [apply wx_usub|]. intros d h1 _ _. destruct (nth_error args d).
  - eapply wx_bind; [apply Hf|]. intros. apply wx_ret; exact I.
  - eapply wx_bind; [apply wx_usub|]. intros. apply wx_ret; exact I.
Qed.
(** what reading back a term under a context gives *)
Definition same_head (t t' : tm) : Prop :=
  match t with
  | Kind => t' = Kind
  | Typ => t' = Typ
  | Const c => t' = Const c
  | Var _ => True
  | App _ _ => True
  | Lam _ _ => exists a b, t' = Lam a b
  | ULam _ => exists b, t' = ULam b
  | Pi _ _ => exists a b, t' = Pi a b
  end.
Lemma wx_rsub_head f t k h : (forall n k h, wx (f n k) h tt1) -> wx (rsub f t k) h (fun t' _ => same_head t t').
Proof.
  intros Hf. destruct t; cbn [rsub same_head]; try (apply wx_ret; reflexivity).
  - destruct (k <=? n); [|apply wx_ret; exact I]. eapply wx_post; [|apply Hf]. intros; exact I.
  - eapply wx_bind; [now apply wx_rsub|]. intros. eapply wx_bind; [now apply wx_rsub|]. intros. apply wx_ret; exact I.
  - eapply wx_bind; [now apply wx_rsub|]. intros. eapply wx_bind; [now apply wx_rsub|]. intros. apply wx_ret; eauto.
  - eapply wx_bind; [now apply wx_rsub|]. intros. apply wx_ret; eauto.
  - eapply wx_bind; [now apply wx_rsub|]. intros. eapply wx_bind; [now apply wx_rsub|]. intros. apply wx_ret; eauto.
Qed.
Lemma same_head_refl t : same_head t t.
Proof. destruct t; cbn; eauto. Qed.

(** the readback of a state: the term under its context, applied to what the stack cells read back to *)
Lemma wx_of_state f g st h (Q : loc -> tm -> Prop) : wxo f ->
  (forall l h', In l (rs_stack st) -> wext h h' -> wx (g l) h' (fun t _ => Q l t)) ->
  wx (r_of_state f g st) h (fun t _ => exists t0 us, t = apps t0 us /\ same_head (rs_term st) t0 /\
      (rs_ctx st = [] -> t0 = rs_term st) /\ Forall2 Q (rs_stack st) us).
Proof.
  intros Hf Hg. unfold r_of_state.
  eapply wx_bind with (P := fun t0 _ => same_head (rs_term st) t0 /\ (rs_ctx st = [] -> t0 = rs_term st)).
  - destruct (rs_ctx st) as [|x ctx]; [apply wx_ret; auto using same_head_refl|].
    eapply wx_post; [|apply wx_rsub_head; intros; now apply wx_psubst]. cbn beta. intros t0 h' _ H. split; [exact H|discriminate].
  - intros t0 h1 He [H1 H2]. eapply wx_bind; [apply wx_mapM with (Q := Q)|].
    + intros l h2 Hin He2. apply Hg; [assumption|eapply wext_trans; eassumption].
    + intros us h2 _ Hus. apply wx_ret. eauto 10.
Qed.

Lemma wx_force n : wxo (r_force n) /\ wxo (r_of_rstate n).
Proof.
  induction n as [|n [IH1 IH2]]; [split; intros l h; apply wx_nofuel|]. split; intros l h.
  - cbn [r_force]. eapply wx_bind; [apply wx_read|]. intros c h1 _ [-> Hc].
    destruct c as [st w b|[l'| |t]]; try apply wx_panic; [|apply wx_ret; exact I].
    intros Hh. unfold bind at 1, r_write at 1.
    set (h1 := list_set h l (RCThunk RBusy)).
    assert (Hh1 : hfi h1) by (apply hfi_set; [assumption|exact I]).
    assert (He1 : wext h h1) by (eapply wext_set; [eassumption|reflexivity|intros []]).
    specialize (IH2 l' h1 Hh1). unfold bind. destruct (r_of_rstate n l' h1) as [[t h2]| | |]; auto.
    destruct IH2 as (He2 & Hh2 & _). cbn.
    assert (Hl1 : nth_error h1 l = Some (RCThunk RBusy)) by (apply nth_error_list_set_eq; eapply nth_error_lt; eassumption).
    destruct (He2 _ _ Hl1) as (c2 & Hl2 & Hk & _).
    split; [|split; [apply hfi_set; [assumption|exact I]|exact I]].
    eapply wext_trans; [exact He1|]. eapply wext_trans; [exact He2|].
    eapply wext_set; [exact Hl2|rewrite Hk; reflexivity|]. intros Hf. destruct c2; [discriminate Hk|contradiction].
  - cbn [r_of_rstate]. eapply wx_bind; [apply wx_borrow|]. intros st h1 _ [-> _].
    eapply wx_post; [|eapply wx_of_state with (Q := fun _ _ => True)].
    + intros; exact I.
    + exact IH1.
    + intros l' h' _ _. eapply wx_post; [|apply IH2]. intros; exact I.
Qed.

(** ** Mismatches are stable *)
Inductive mism (h : heap) : loc -> pat -> Prop :=
| mism_head l st sp ps :
  nth_error h l = Some (RCState st true false) ->
  ~ (rs_term st = Const sp /\ length (rs_stack st) = length ps) ->
  mism h l (PatSymb sp ps)
| mism_arg l st sp ps i l' p' :
  nth_error h l = Some (RCState st true false) ->
  rs_term st = Const sp -> length (rs_stack st) = length ps ->
  nth_error (rs_stack st) i = Some l' -> nth_error ps i = Some p' -> mism h l' p' ->
  mism h l (PatSymb sp ps).

Lemma wext_cell h h' l st : wext h h' -> nth_error h l = Some (RCState st true false) -> nth_error h' l = Some (RCState st true false).
Proof. intros He Hl. destruct (He _ _ Hl) as (c' & Hc' & _ & Hf). rewrite Hf in Hc'; [assumption|left; reflexivity]. Qed.
Lemma mism_ext h h' l p : wext h h' -> mism h l p -> mism h' l p.
Proof.
  intros He H. induction H; [eapply mism_head|eapply mism_arg]; eauto using wext_cell.
Qed.

Lemma apps_head_inj t us t' us' : (match t with App _ _ => False | _ => True end) -> (match t' with App _ _ => False | _ => True end) ->
  apps t us = apps t' us' -> t = t' /\ us = us'.
Proof.
  intros H H' E. apply (f_equal (fun x => spine x [])) in E. rewrite !spine_apps, !app_nil_r in E.
  rewrite (spine_not_app (fun _ => true) t us), (spine_not_app (fun _ => true) t' us') in E by assumption. injection E as -> ->. auto.
Qed.

Lemma mism_readback h0 l p : mism h0 l p -> forall n h, wext h0 h -> wx (r_of_rstate n l) h (fun t _ => forall s, ~ inst s p t).
Proof.
  induction 1 as [l st sp ps Hl Hn|l st sp ps i l' p' Hl Ht Hlen Hi Hp Hm IH]; intros n h He0; destruct n as [|n]; try apply wx_nofuel;
    apply (wext_cell _ _ _ _ He0) in Hl.
  - cbn [r_of_rstate]. intros Hh. pose proof (Hh _ _ _ Hl) as Hf. revert Hh.
    eapply wx_bind; [apply wx_borrow|]. intros st' h1 _ [-> [w Hl']]. assert (st' = st) by congruence. subst st'.
    eapply wx_post; [|apply wx_of_state with (Q := fun _ _ => True); [apply wx_force|]].
    + cbn beta. intros t h' _ (t0 & us & -> & Hs & Hc & Hus) s Hi. inversion Hi as [| |c qs ts Hts E1 E2].
      assert (Hna : match t0 with App _ _ => False | _ => True end).
      { unfold hform in Hf. destruct (rs_term st); cbn in Hs; try contradiction; try (subst; exact I).
        - rewrite Hc by assumption. exact I.
        - destruct Hs as (? & ? & ->); exact I.
        - destruct Hs as (? & ->); exact I.
        - destruct Hs as (? & ? & ->); exact I. }
      apply apps_head_inj in E2; [|exact I|exact Hna]. destruct E2 as [<- ->].
      apply Hn. split.
      * unfold hform in Hf. destruct (rs_term st); cbn in Hs; try discriminate; try contradiction.
        -- congruence.
        -- specialize (Hc Hf). discriminate.
        -- destruct Hs as (? & ? & Hs); discriminate.
        -- destruct Hs as (? & Hs); discriminate.
        -- destruct Hs as (? & ? & Hs); discriminate.
      * apply Forall2_length in Hts, Hus. congruence.
    + intros l' h' _ _. eapply wx_post; [|apply wx_force]. intros; exact I.
  - cbn [r_of_rstate]. eapply wx_bind; [apply wx_borrow|]. intros st' h1 He [-> [w Hl']]. assert (st' = st) by congruence. subst st'.
    eapply wx_post; [|apply wx_of_state with (Q := fun x t => x = l' -> forall s, ~ inst s p' t); [apply wx_force|]].
    + cbn beta. intros t h' _ (t0 & us & -> & Hs & Hc & Hus) s Hin. inversion Hin as [| |c qs ts Hts E1 E2].
      rewrite Ht in Hs. cbn in Hs. subst t0. apply apps_head_inj in E2; [|exact I|exact I]. destruct E2 as [_ ->].
      assert (exists u, nth_error us i = Some u /\ (forall s, ~ inst s p' u)) as (u & Hu & Hno).
      { clear - Hus Hi. revert i Hi. induction Hus as [|x y l l2 Hxy Hus IHu]; intros [|i]; cbn; try discriminate; eauto.
        intros [= ->]. eauto. }
      assert (exists u, nth_error us i = Some u /\ inst s p' u) as (u' & Hu' & Hin').
      { clear - Hts Hp. revert i Hp. induction Hts as [|x y l l2 Hxy Hts IHu]; intros [|i]; cbn; try discriminate; eauto.
        intros [= ->]. eauto. }
      apply (Hno s). congruence.
    + intros x h' _ He'. destruct (Nat.eq_dec x l') as [->|Hx].
      * eapply wx_post; [|apply IH; eapply wext_trans; eassumption]. auto.
      * eapply wx_post; [|apply wx_force]. intros; contradiction.
Qed.

(** ** Matching *)
Fixpoint pushes (sb : list (list loc)) (m : nat) : nat :=
  match sb, m with
  | [], _ => 0
  | ls :: _, 0 => length ls
  | _ :: sb, S m => pushes sb m
  end.
Lemma subst_push_pushes sb m l sb' : subst_push sb m l = Some sb' ->
  length sb' = length sb /\ forall m', pushes sb' m' = pushes sb m' + (if Nat.eq_dec m m' then 1 else 0).
Proof.
  revert m sb'. induction sb as [|ls sb IH]; intros [|m] sb'; cbn [subst_push length]; try discriminate.
  - intros [= <-]. split; [reflexivity|]. intros [|m']; cbn [pushes].
    + destruct (Nat.eq_dec 0 0); [|congruence]. rewrite app_length. reflexivity.
    + destruct (Nat.eq_dec 0 (S m')); lia.
  - destruct (subst_push sb m l) eqn:E; [|discriminate]. intros [= <-]. destruct (IH _ _ E) as [H1 H2].
    split; [cbn; congruence|]. intros [|m']; cbn [pushes].
    + destruct (Nat.eq_dec (S m) 0); lia.
    + rewrite H2. destruct (Nat.eq_dec m m'), (Nat.eq_dec (S m) (S m')); lia.
Qed.
Lemma subst_push_some sb m l : m < length sb -> subst_push sb m l <> None.
Proof.
  revert m. induction sb as [|ls sb IH]; intros [|m]; cbn; try lia; try discriminate.
  intros H. specialize (IH m ltac:(lia)). destruct (subst_push sb m l); congruence.
Qed.

(** the outcome of matching patterns with variables [vs]: a substitution with one more binding
    for each occurrence of a variable, or a failure for reason [bad] *)
Definition mout (vs : list nat) (sb : list (list loc)) (bad : heap -> Prop)
  (o : option (list (list loc))) (h : heap) : Prop :=
  match o with
  | Some sb' => length sb' = length sb /\ forall m, pushes sb' m = pushes sb m + count_occ Nat.eq_dec vs m
  | None => bad h
  end.

Section Match.
  Variable rw : loc -> RM unit.
  Hypothesis Hrw : forall l h, wx (rw l) h (fun _ h' => exists st, nth_error h' l = Some (RCState st true false)).

  Definition mism_some (stack : list loc) (ps : list pat) (h : heap) : Prop :=
    exists i l p, nth_error stack i = Some l /\ nth_error ps i = Some p /\ mism h l p.

  Lemma wx_match_pat p : forall l sb h, (forall m, In m (pat_vars p) -> m < length sb) ->
    wx (r_match_pat rw l p sb) h (mout (pat_vars p) sb (fun h => mism h l p)).
  Proof.
    induction p as [sp ps IH|m|] using pat_ind'; intros l sb h Hv; cbn [r_match_pat].
    - eapply wx_bind; [apply Hrw|]. intros _ h1 He1 [st Hl]. cbn beta in Hl.
      eapply wx_bind; [apply wx_borrow|]. intros st' h2 _ [-> [w Hl']].
      assert (st' = st) by congruence. subst st'.
      assert (Hbad : forall o, ~ (rs_term st = Const sp /\ length (rs_stack st) = length ps) -> o = None ->
         wx (ret o) h1 (mout (pat_vars (PatSymb sp ps)) sb (fun h => mism h l (PatSymb sp ps)))).
      { intros o Hn ->. apply wx_ret. cbn. eapply mism_head; eassumption. }
      destruct (rs_term st) as [| |c| | | | |] eqn:Et; try (apply Hbad; [intros [? ?]; discriminate|reflexivity]).
      destruct (sp =? c) eqn:Ec; cbn [andb]; [|apply Nat.eqb_neq in Ec; apply Hbad; [intros [[= ->] _]; congruence|reflexivity]].
      destruct (length (rs_stack st) =? length ps) eqn:El; [|apply Nat.eqb_neq in El; apply Hbad; [tauto|reflexivity]].
      apply Nat.eqb_eq in Ec, El. subst c.
      eapply wx_post with (P := mout (flat_map pat_vars ps) sb (mism_some (rs_stack st) ps)).
      { intros [sb'|] h' He; cbn; [auto|]. intros (i & l' & p' & Hi & Hp & Hm).
        eapply mism_arg; [eapply wext_cell; [exact He|exact Hl]|exact Et|exact El|exact Hi|exact Hp|exact Hm]. }
      cbn [pat_vars] in Hv. clear Hl Hl' Hbad Et He1. revert sb Hv h1. revert El. generalize (rs_stack st) as stack.
      induction IH as [|p ps Hp Hps IHps]; intros stack El sb Hv h1.
      + apply wx_ret. cbn. split; [reflexivity|]. intros; lia.
      + destruct stack as [|l' stack]; [discriminate El|]. injection El as El.
        eapply wx_bind; [apply Hp; intros; apply Hv; cbn; apply in_or_app; auto|].
        intros [sb1|] h2 He2; unfold mout at 1; [intros [Hlen Hpu]|intros Hbad].
        * eapply wx_post; [|apply IHps; [assumption|]].
          -- intros [sb2|] h3 He3; cbn.
             ++ intros [Hlen2 Hpu2]. split; [congruence|]. intros m. rewrite Hpu2, Hpu, count_occ_app. lia.
             ++ intros (i & l2 & p2 & Hi & Hp2 & Hm). exists (S i), l2, p2. auto.
          -- intros m Hm. rewrite Hlen. apply Hv. cbn. apply in_or_app; auto.
        * apply wx_ret. exists 0, l', p. auto.
    - apply wx_ret. destruct (subst_push sb m l) eqn:E; cbn.
      + destruct (subst_push_pushes _ _ _ _ E) as [H1 H2]. split; [assumption|]. intros m'. rewrite H2.
        destruct (Nat.eq_dec m m'); reflexivity.
      + exfalso. eapply subst_push_some; [|exact E]. apply Hv. left; reflexivity.
    - apply wx_ret. cbn. split; [reflexivity|]. intros; lia.
  Qed.

  Lemma wx_match_pats ps : forall stack sb h, length ps <= length stack ->
    (forall m, In m (flat_map pat_vars ps) -> m < length sb) ->
    wx (r_match_pats rw stack ps sb) h (mout (flat_map pat_vars ps) sb (mism_some stack ps)).
  Proof.
    induction ps as [|p ps IH]; intros stack sb h Hlen Hv; cbn [r_match_pats].
    - apply wx_ret. cbn. split; [reflexivity|]. intros; lia.
    - destruct stack as [|l stack]; [cbn in Hlen; lia|]. cbn in Hlen.
      eapply wx_bind; [apply wx_match_pat; intros; apply Hv; cbn; apply in_or_app; auto|].
      intros [sb1|] h2 He2; unfold mout at 1; [intros [Hl Hpu]|intros Hbad].
      + eapply wx_post; [|apply IH; [lia|]].
        * intros [sb2|] h3 He3; cbn.
          -- intros [Hlen2 Hpu2]. split; [congruence|]. intros m. rewrite Hpu2, Hpu, count_occ_app. lia.
          -- intros (i & l2 & p2 & Hi & Hp2 & Hm). exists (S i), l2, p2. auto.
        * intros m Hm. rewrite Hl. apply Hv. cbn. apply in_or_app; auto.
      + apply wx_ret. exists 0, l, p. auto.
  Qed.

  (** all patterns fail to match because of a stable mismatch, or for lack of arguments *)
  Definition blocked (r : srule) (stack : list loc) (h : heap) : Prop :=
    usable r -> linear r -> length stack < length (sr_args r) \/ mism_some stack (sr_args r) h.
  Lemma blocked_ext r stack h h' : wext h h' -> blocked r stack h -> blocked r stack h'.
  Proof.
    intros He Hb Hu Hl. destruct (Hb Hu Hl) as [|(i & l & p & H1 & H2 & H3)]; [left; assumption|].
    right. exists i, l, p. eauto using mism_ext.
  Qed.

  Variable cv : tm -> tm -> RM bool.
  Hypothesis Hcv : forall t u h, wx (cv t u) h tt1.
  Variable n : nat.

  Lemma wx_match_pat_any p : forall l sb h, wx (r_match_pat rw l p sb) h tt1.
  Proof.
    induction p as [sp ps IH|m|] using pat_ind'; intros l sb h; cbn [r_match_pat]; try (apply wx_ret; exact I).
    eapply wx_bind; [apply Hrw|]. intros _ h1 _ _. eapply wx_bind; [apply wx_borrow|]. intros st h2 _ _.
    destruct (rs_term st); try (apply wx_ret; exact I). destruct (_ && _); [|apply wx_ret; exact I].
    generalize (rs_stack st). revert sb h2. induction IH as [|p ps Hp Hps IHps]; intros sb h2 stack; [apply wx_ret; exact I|].
    destruct stack as [|l' stack]; [apply wx_ret; exact I|]. eapply wx_bind; [apply Hp|].
    intros [sb1|] h3 _ _; [apply IHps|apply wx_ret; exact I].
  Qed.
  Lemma wx_match_pats_any ps : forall stack sb h, wx (r_match_pats rw stack ps sb) h tt1.
  Proof.
    induction ps as [|p ps IH]; intros stack sb h; cbn [r_match_pats]; [apply wx_ret; exact I|].
    destruct stack as [|l stack]; [apply wx_ret; exact I|]. eapply wx_bind; [apply wx_match_pat_any|].
    intros [sb1|] h3 _ _; [apply IH|apply wx_ret; exact I].
  Qed.
  Lemma wx_all_conv_loop ls : forall t h, wx (r_all_conv_loop cv n t ls) h tt1.
  Proof.
    induction ls as [|l ls IH]; intros t h; cbn [r_all_conv_loop]; [apply wx_ret; exact I|].
    eapply wx_bind; [apply wx_force|]. intros. eapply wx_bind; [apply wx_force|]. intros.
    eapply wx_bind; [apply Hcv|]. intros [|] ? ? ?; [apply IH|apply wx_ret; exact I].
  Qed.
  (** unifying the bindings of a linear match succeeds *)
  Lemma wx_flatten sb : forall h,
    wx (r_flatten cv n sb) h (fun o _ => (forall ls, In ls sb -> length ls = 1) -> o <> None).
  Proof.
    induction sb as [|ls sb IH]; intros h; cbn [r_flatten]; [apply wx_ret; discriminate|].
    eapply wx_bind; [apply IH|]. intros [ctx|] h1 _ Hc; cbn beta in Hc.
    - eapply wx_bind with (P := fun o _ => length ls = 1 -> o <> None).
      + destruct ls as [|l ls]; cbn [r_all_conv]; [apply wx_ret; discriminate|].
        eapply wx_bind; [apply wx_alloc; exact I|]. intros th h2 _ _.
        destruct ls as [|l2 ls]; [cbn [r_all_conv_loop]; apply wx_ret; discriminate|].
        eapply wx_post; [|apply wx_all_conv_loop]. cbn. intros; lia.
      + intros [tm|] h2 _ Ho; cbn beta in Ho; apply wx_ret; [discriminate|].
        intros H. exfalso. apply Ho; [|reflexivity]. apply H. left; reflexivity.
    - apply wx_ret. intros H. exfalso. apply Hc; [|reflexivity]. intros; apply H; right; assumption.
  Qed.
  Lemma pushes_repeat k m : pushes (repeat [] k) m = 0.
  Proof. revert m. induction k; intros [|m]; cbn; auto. Qed.
  Lemma pushes_in sb ls : In ls sb -> exists m, m < length sb /\ pushes sb m = length ls.
  Proof.
    induction sb as [|x sb IH]; intros []; [exists 0; subst; cbn; split; [lia|reflexivity]|].
    destruct (IH H) as (m & H1 & H2). exists (S m). cbn. split; [lia|assumption].
  Qed.
  Lemma wx_match_flatten stack r h :
    wx (r_match_flatten rw cv n stack r) h (fun o h' => o = None -> blocked r stack h').
  Proof.
    unfold r_match_flatten, r_match_rule. destruct (length stack <? length (sr_args r)) eqn:El.
    - intros Hh. cbn. split; [apply wext_refl|]. split; [assumption|]. intros _ _ _. left. apply Nat.ltb_lt. exact El.
    - apply Nat.ltb_ge in El.
      assert (Hany : wx (r_match_pats rw stack (sr_args r) (repeat [] (sr_vars r))) h
        (fun o h' => usable r -> mout (flat_map pat_vars (sr_args r)) (repeat [] (sr_vars r)) (mism_some stack (sr_args r)) o h')).
      { intros Hh.
        pose proof (wx_match_pats_any (sr_args r) stack (repeat [] (sr_vars r)) h Hh) as H1.
        pose proof (wx_match_pats (sr_args r) stack (repeat [] (sr_vars r)) h El) as H2.
        unfold wx in H2. destruct (r_match_pats _ _ _ _ h) as [[o h']| | |]; auto. destruct H1 as (H3 & H4 & _).
        split; [assumption|]. split; [assumption|]. intros Hu. apply H2; [|assumption].
        intros m Hm. rewrite repeat_length. apply Hu. exact Hm. }
      eapply wx_bind; [exact Hany|]. cbn beta. intros [sb|] h1 He Ho.
      + eapply wx_post; [|apply wx_flatten]. cbn beta. intros o h2 He2 Hf -> Hu Hl. exfalso.
        apply Hf; [|reflexivity]. destruct (Ho Hu) as [Hlen Hp]. rewrite repeat_length in Hlen.
        intros ls Hin. destruct (pushes_in _ _ Hin) as (m & Hm & <-). rewrite Hp, pushes_repeat. cbn [Nat.add].
        rewrite Hlen in Hm. apply Hu in Hm. apply (NoDup_count_occ' Nat.eq_dec); assumption.
      + apply wx_ret. intros _ Hu _. right. exact (Ho Hu).
  Qed.
  Lemma wx_first_match stack rules : forall h,
    wx (r_first_match rw cv n stack rules) h (fun o h' => o = None -> forall r, In r rules -> blocked r stack h').
  Proof.
    induction rules as [|r rules IH]; intros h; cbn [r_first_match]; [apply wx_ret; intros _ r []|].
    eapply wx_bind; [apply wx_match_flatten|]. cbn beta. intros [ctx|] h1 _ Ho; [apply wx_ret; discriminate|].
    eapply wx_post; [|apply IH]. cbn beta. intros o h2 He2 H -> r' [<-|Hin]; [|apply H; auto].
    eapply blocked_ext; [exact He2|]. apply Ho. reflexivity.
  Qed.
End Match.

(** ** The machine *)
Section Machine.
  Variable sg : sig.

  (** a state that is evaluated *)
  Definition wst (st : rstate) (h : heap) : Prop :=
    hform st /\
    forall c rs r, rs_term st = Const c -> sg_rules sg c = Some rs -> In r rs -> blocked r (rs_stack st) h.

  Lemma wx_rwhnf w : (forall st h, wx (w st) h wst) ->
    forall l h, wx (r_rwhnf w l) h (fun _ h' => exists st, nth_error h' l = Some (RCState st true false)).
  Proof.
    intros Hw l h. unfold r_rwhnf. eapply wx_bind; [apply wx_read|]. intros c h1 _ [-> Hc].
    destruct c as [st [|] [|]|th]; try apply wx_panic; [apply wx_ret; eauto|].
    intros Hh. unfold bind at 1, r_write at 1.
    set (h1 := list_set h l (RCState st false true)).
    assert (Hh1 : hfi h1) by (apply hfi_set; [assumption|exact I]).
    assert (He1 : wext h h1) by (eapply wext_set; [eassumption|reflexivity|intros [|]; discriminate]).
    specialize (Hw st h1 Hh1). unfold bind. destruct (w st h1) as [[st' h2]| | |]; auto.
    destruct Hw as (He2 & Hh2 & [Hst' _]). cbn.
    assert (Hl1 : nth_error h1 l = Some (RCState st false true)) by (apply nth_error_list_set_eq; eapply nth_error_lt; eassumption).
    destruct (He2 _ _ Hl1) as (c2 & Hl2 & _ & Hf). rewrite Hf in Hl2 by (right; reflexivity). clear Hf c2.
    split; [|split; [apply hfi_set; [assumption|exact Hst']|]].
    - intros l' c Hc'. destruct (Nat.eq_dec l l') as [<-|Hn].
      + assert (c = RCState st false false) by congruence. subst c. exists (RCState st' true false).
        rewrite nth_error_list_set_eq by (eapply nth_error_lt; eassumption).
        split; [reflexivity|]. split; [reflexivity|]. intros [|]; discriminate.
      + destruct (He1 _ _ Hc') as (c1 & Hc1 & Hk1 & Hf1). destruct (He2 _ _ Hc1) as (c2 & Hc2 & Hk2 & Hf2).
        exists c2. rewrite nth_error_list_set_neq by assumption. split; [assumption|]. split; [congruence|].
        intros Hfr. specialize (Hf1 Hfr). subst c1. auto.
    - exists st'. apply nth_error_list_set_eq. eapply nth_error_lt; eassumption.
  Qed.

  Lemma wx_unwind ctx t : forall stack h, wx (r_unwind ctx t stack) h (fun p _ => match fst p with App _ _ => False | _ => True end).
  Proof.
    induction t; intros stack h; cbn [r_unwind]; try (apply wx_ret; exact I).
    eapply wx_bind; [apply wx_alloc; reflexivity|]. intros; apply IHt1.
  Qed.
  Lemma wx_fresh {A} (m : RM A) h (Q : A -> Prop) : wx m [] (fun a _ => Q a) -> wx (r_fresh m) h (fun a _ => Q a).
  Proof.
    intros H Hh. unfold r_fresh. specialize (H ltac:(intros [|l]; discriminate)).
    destruct (m []) as [[a h']| | |]; auto. destruct H as (_ & _ & H). auto using wext_refl.
  Qed.

  Lemma applies_blocked r stack us s0 (h : heap) (Q : loc -> tm -> Prop) : usable r -> linear r ->
    blocked r stack h -> Forall2 (fun l t => forall p, mism h l p -> forall s, ~ inst s p t) stack us ->
    forall vs ws, us = vs ++ ws -> ~ Forall2 (inst s0) (sr_args r) vs.
  Proof.
    intros Hu Hl Hb Hst vs ws -> Hi. destruct (Hb Hu Hl) as [Hlt|(i & l & p & Hi1 & Hi2 & Hm)].
    - apply Forall2_length in Hst, Hi. rewrite app_length in Hst. lia.
    - assert (exists u, nth_error vs i = Some u /\ inst s0 p u) as (u & Hu1 & Hu2).
      { clear - Hi Hi2. revert i Hi2. induction Hi as [|x y l l' Hxy Hi IH]; intros [|i]; cbn; try discriminate; eauto.
        intros [= ->]. eauto. }
      assert (Hn : nth_error (vs ++ ws) i = Some u) by (rewrite nth_error_app1; [assumption|apply nth_error_Some; congruence]).
      assert (forall p, mism h l p -> forall s, ~ inst s p u) as Hno.
      { clear - Hst Hi1 Hn. revert i Hi1 Hn. induction Hst as [|x y l1 l2 Hxy Hst IH]; intros [|i]; cbn; try discriminate; eauto.
        intros [= ->] [= ->]. assumption. }
      eapply Hno; eassumption.
  Qed.

  Lemma wx_readback n st h : wst st h ->
    wx (r_of_state (r_force n) (r_of_rstate n) st) h (fun t _ => whnf_form sg t).
  Proof.
    intros [Hf Hb].
    eapply wx_post; [|apply wx_of_state with (Q := fun l t => forall p, mism h l p -> forall s, ~ inst s p t); [apply wx_force|]].
    - cbn beta. intros t h' He (t0 & us & -> & Hs & Hc & Hus). unfold hform in Hf.
      destruct (rs_term st) as [| |c|x|t1 t2|a b|b|a b] eqn:Et; cbn in Hs; try contradiction.
      + subst. apply wf_kind.
      + subst. apply wf_type.
      + subst. apply wf_const. intros rs r Hrs Hin Hu Hl (s & vs & ws & -> & Hi).
        eapply applies_blocked; [exact (fun _ _ => True)|exact Hu|exact Hl|eapply Hb; eauto|exact Hus|reflexivity|exact Hi].
      + rewrite (Hc Hf). apply wf_var.
      + destruct Hs as (a' & b' & ->). rewrite Hf in Hus. inversion Hus. apply wf_lam.
      + destruct Hs as (b' & ->). rewrite Hf in Hus. inversion Hus. apply wf_ulam.
      + destruct Hs as (a' & b' & ->). apply wf_pi.
    - intros l h' _ He Hh'. 
      destruct (r_of_rstate n l h') as [[t h2]| | |] eqn:E; auto.
      pose proof (proj2 (wx_force n) l h' Hh') as H. rewrite E in H. destruct H as (H1 & H2 & _).
      split; [assumption|]. split; [assumption|]. intros p Hm.
      pose proof (mism_readback h l p Hm n h' He Hh') as H. rewrite E in H. apply H.
  Qed.

  Lemma wx_machine n :
    (forall st h, wx (r_state_whnf sg n st) h wst) /\
    (forall cns h, wx (r_conv_loop sg n cns) h tt1).
  Proof.
    induction n as [|n [IH1 IH2]]; [split; intros; apply wx_nofuel|]. split.
    - intros [ctx t stack] h. cbn [r_state_whnf rs_ctx rs_term rs_stack].
      eapply wx_bind; [apply wx_unwind|]. intros [t' stack'] h1 _ Ht'. cbn [fst] in Ht'.
      assert (Hstop : forall ctx t, match t with Kind | Typ | Pi _ _ => True | _ => False end -> wx (ret (RState ctx t stack')) h1 wst).
      { intros ctx0 t0 H. apply wx_ret. split; [destruct t0; try contradiction; exact I|]. cbn. intros c rs r ->. contradiction. }
      assert (Hlam : forall b t0, lam_body t0 = Some b -> wx (match stack' with
        | [] => ret (RState ctx t0 stack')
        | l :: stack => th <- r_thunk_new l ;; r_state_whnf sg n (RState (th :: ctx) b stack)
        end) h1 wst).
      { intros b t0 Hb. destruct stack' as [|l stack'].
        - apply wx_ret. split; [destruct t0; try discriminate; reflexivity|]. cbn. intros c rs r ->. discriminate.
        - eapply wx_bind; [apply wx_alloc; exact I|]. intros; apply IH1. }
      destruct t' as [| |c|x|t1 t2|a b|b|a b]; cbn [r_head]; try (apply Hstop; exact I).
      + destruct (sg_rules sg c) as [rules|] eqn:Er.
        * eapply wx_bind; [apply wx_first_match; [apply wx_rwhnf; exact IH1|intros; apply IH2]|].
          intros [[ctx' r]|] h2 _ Ho; cbn beta in Ho.
          -- eapply wx_bind; [apply wx_usub|]. intros; apply IH1.
          -- apply wx_ret. split; [exact I|]. cbn. intros c' rs r [= <-] Hrs. rewrite Er in Hrs. injection Hrs as <-.
             intros Hin. apply Ho; auto.
        * apply wx_ret. split; [exact I|]. cbn. intros c' rs r [= <-] Hrs. congruence.
      + destruct (nth_error ctx x).
        * eapply wx_bind; [apply wx_force|]. intros; apply IH1.
        * eapply wx_bind; [apply wx_usub|]. intros m h2 _ _. apply wx_ret. split; [reflexivity|]. cbn. discriminate.
      + apply wx_panic.
      + apply (Hlam b (Lam a b)). reflexivity.
      + apply (Hlam b (ULam b)). reflexivity.
    - intros cns h. destruct cns as [|[t u] cns]; cbn [r_conv_loop]; [apply wx_ret; exact I|].
      destruct (tm_eq_dec t u); [apply IH2|].
      assert (Hw : forall t h, wx (r_whnf_ n (r_state_whnf sg n) t) h tt1).
      { intros t0 h0. apply wx_fresh with (Q := fun _ => True). eapply wx_bind; [apply IH1|]. intros st h1 _ Hst.
        eapply wx_post; [|apply wx_readback; exact Hst]. intros; exact I. }
      eapply wx_bind; [apply Hw|]. intros t' h1 _ _. eapply wx_bind; [apply Hw|]. intros u' h2 _ _.
      destruct (r_step _ t' u'); [apply IH2|apply wx_ret; exact I].
  Qed.

  Lemma r_whnf_form n t h t' h' : r_whnf sg n t h = Ok (t', h') -> whnf_form sg t'.
  Proof.
    intros H.
    assert (Hw : wx (r_whnf sg n t) [] (fun t _ => whnf_form sg t)).
    { apply wx_fresh with (Q := fun t => whnf_form sg t). eapply wx_bind; [apply wx_machine|]. intros st h1 _ Hst. apply wx_readback. exact Hst. }
    specialize (Hw ltac:(intros [|l]; discriminate)).
    unfold r_whnf, r_whnf_, r_fresh in *. revert H Hw.
    match goal with |- context [match ?m [] with _ => _ end] => destruct (m []) as [[a s]| | |] end; try discriminate.
    intros H Hw. injection H as <- _. apply Hw.
  Qed.
End Machine.
