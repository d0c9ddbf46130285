(** * The machine evaluates to stuck terms, and its negative answers are right

    This combines the invariants of [RefSound] (what cells denote) and [RefWhnf] (evaluated cells stay). *)

From Verif Require Import Base ModelSubst ModelReduce SpecTerm SpecConv SpecConvFacts SpecWhnf SpecRed RedConfl EtaConfl RedStuck
  RefMachine LibMono RefMono RefSafe RefSound SimReduce RefWhnf.

Open Scope sm_scope.

(** ** Where a pattern variable was matched *)
Inductive bnd (h : heap) : loc -> pat -> nat -> loc -> Prop :=
| bnd_var l m : bnd h l (PatVar m) m l
| bnd_arg l st sp ps i l' p' m l1 :
  nth_error h l = Some (RCState st true false) -> rs_term st = Const sp -> length (rs_stack st) = length ps ->
  nth_error (rs_stack st) i = Some l' -> nth_error ps i = Some p' -> bnd h l' p' m l1 ->
  bnd h l (PatSymb sp ps) m l1.
Definition binds (h : heap) (stack : list loc) (ps : list pat) (m : nat) (l1 : loc) : Prop :=
  exists i l p, nth_error stack i = Some l /\ nth_error ps i = Some p /\ bnd h l p m l1.

Lemma bnd_ext h h' l p m l1 : wext h h' -> bnd h l p m l1 -> bnd h' l p m l1.
Proof. intros He H. induction H; [constructor|eapply bnd_arg; eauto using wext_cell]. Qed.
Lemma binds_ext h h' stack ps m l1 : wext h h' -> binds h stack ps m l1 -> binds h' stack ps m l1.
Proof. intros He (i & l & p & H1 & H2 & H3). exists i, l, p. eauto using bnd_ext. Qed.

(** ** Computations that evaluate no cell *)
Definition nn {A} (m : RM A) : Prop := forall h,
  match m h with
  | Ok (_, h') => forall l st b, nth_error h' l = Some (RCState st true b) -> nth_error h l = Some (RCState st true b)
  | _ => True
  end.
Lemma nn_ret {A} (a : A) : nn (ret a).
Proof. intros h. cbn. auto. Qed.
Lemma nn_panic {A} : @nn A panic.
Proof. intros h. exact I. Qed.
Lemma nn_nofuel {A} : @nn A nofuel.
Proof. intros h. exact I. Qed.
Lemma nn_bind {A B} (m : RM A) (k : A -> RM B) : nn m -> (forall a, nn (k a)) -> nn (bind m k).
Proof.
  intros Hm Hk h. specialize (Hm h). unfold bind. destruct (m h) as [[a h1]| | |]; auto.
  specialize (Hk a h1). destruct (k a h1) as [[b h2]| | |]; auto.
Qed.
Lemma nn_mapM {A B} (f : A -> RM B) l : (forall a, nn (f a)) -> nn (mapM f l).
Proof.
  intros Hf. induction l; cbn [mapM]; [apply nn_ret|]. apply nn_bind; [apply Hf|]. intros. apply nn_bind; [assumption|].
  intros; apply nn_ret.
Qed.
Lemma nn_alloc c : match c with RCState _ true _ => False | _ => True end -> nn (r_alloc c).
Proof.
  intros Hc h. cbn. intros l st b H. destruct (lt_dec l (length h)) as [Hl|Hl].
  - rewrite nth_error_app1 in H by assumption. exact H.
  - rewrite nth_error_app2 in H by lia. destruct (l - length h) as [|[|?]]; try discriminate. injection H as ->. destruct Hc.
Qed.
Lemma nn_read l : nn (r_read l).
Proof. intros h. unfold r_read. destruct (nth_error h l); auto. Qed.
Lemma nn_write l c : match c with RCState _ true _ => False | _ => True end -> nn (r_write l c).
Proof.
  intros Hc h. cbn. intros l' st b H. destruct (Nat.eq_dec l l') as [<-|Hn].
  - destruct (lt_dec l (length h)).
    + rewrite nth_error_list_set_eq in H by assumption. injection H as ->. destruct Hc.
    + assert (Hlen : length (list_set h l c) <= l) by (rewrite length_list_set; lia).
      apply nth_error_None in Hlen. congruence.
  - rewrite nth_error_list_set_neq in H by assumption. exact H.
Qed.
Lemma nn_borrow l : nn (r_borrow l).
Proof. apply nn_bind; [apply nn_read|]. intros [st w [|]|th]; first [apply nn_ret|apply nn_panic]. Qed.
Lemma nn_usub a b : nn (r_usub a b).
Proof. unfold r_usub. destruct (b <=? a); [apply nn_ret|apply nn_panic]. Qed.
Lemma nn_rsub f : (forall n k, nn (f n k)) -> forall t k, nn (rsub f t k).
Proof.
  intros Hf. induction t; intros k; cbn [rsub]; try apply nn_ret.
  - destruct (k <=? n); [apply Hf|apply nn_ret].
  - apply nn_bind; [apply IHt1|]. intros. apply nn_bind; [apply IHt2|]. intros. apply nn_ret.
  - apply nn_bind; [apply IHt2|]. intros. apply nn_bind; [apply IHt1|]. intros. apply nn_ret.
  - apply nn_bind; [apply IHt|]. intros. apply nn_ret.
  - apply nn_bind; [apply IHt1|]. intros. apply nn_bind; [apply IHt2|]. intros. apply nn_ret.
Qed.
Lemma nn_psubst f args n k : (forall l, nn (f l)) -> nn (r_psubst f args n k).
Proof.
  intros Hf. unfold r_psubst. apply nn_bind; [apply nn_usub|]. intros d. destruct (nth_error args d).
  - apply nn_bind; [apply Hf|]. intros. apply nn_ret.
  - apply nn_bind; [apply nn_usub|]. intros. apply nn_ret.
Qed.
Lemma nn_force n : (forall l, nn (r_force n l)) /\ (forall l, nn (r_of_rstate n l)).
Proof.
  induction n as [|n [IH1 IH2]]; [split; intros; apply nn_nofuel|]. split; intros l.
  - cbn [r_force]. apply nn_bind; [apply nn_read|]. intros [st w b|[l'| |t]]; try apply nn_panic; [|apply nn_ret].
    apply nn_bind; [apply nn_write; exact I|]. intros _. apply nn_bind; [apply IH2|]. intros t.
    apply nn_bind; [apply nn_write; exact I|]. intros _. apply nn_ret.
  - cbn [r_of_rstate]. apply nn_bind; [apply nn_borrow|]. intros st. unfold r_of_state. apply nn_bind.
    + destruct (rs_ctx st); [apply nn_ret|]. apply nn_rsub. intros. apply nn_psubst. exact IH1.
    + intros t. apply nn_bind; [apply nn_mapM; exact IH2|]. intros. apply nn_ret.
Qed.

Section Stuck.
  Variable sg : sig.
  Notation conv := (conv sg).
  Notation heap_ok := (heap_ok sg).
  Notation tr := (tr sg).
  Notation st_sem := (st_sem sg).

  (** ** Why no rule applies *)
  Definition nonlin (G : list tm) (h : heap) (stack : list loc) (ps : list pat) : Prop :=
    exists m l1 l2 g1 g2, binds h stack ps m l1 /\ binds h stack ps m l2 /\ look G l1 g1 /\ look G l2 g2 /\ ~ conv g1 g2.
  Definition blocked2 (G : list tm) (h : heap) (stack : list loc) (r : srule) : Prop :=
    length stack < length (sr_args r) \/ mism_some stack (sr_args r) h \/ nonlin G h stack (sr_args r).
  Definition wst2 (G : list tm) (h : heap) (st : rstate) : Prop :=
    hform st /\ forall c r, rs_term st = Const c -> rule_of sg c r -> blocked2 G h (rs_stack st) r.
  Definition inv (G : list tm) (h : heap) : Prop :=
    heap_ok G h /\ forall l st b, nth_error h l = Some (RCState st true b) -> wst2 G h st.

  Lemma blocked2_ext G G' h h' stack r : pre G G' -> wext h h' -> blocked2 G h stack r -> blocked2 G' h' stack r.
  Proof.
    intros Hp He [H|[(i & l & p & H1 & H2 & H3)|(m & l1 & l2 & g1 & g2 & H1 & H2 & H3 & H4 & H5)]]; [left; assumption| |].
    - right; left. exists i, l, p. eauto using mism_ext.
    - right; right. exists m, l1, l2, g1, g2. eauto 10 using binds_ext, look_pre.
  Qed.
  Lemma wst2_ext G G' h h' st : pre G G' -> wext h h' -> wst2 G h st -> wst2 G' h' st.
  Proof. intros Hp He [H1 H2]. split; [assumption|]. eauto using blocked2_ext. Qed.
  Lemma inv_hfi G h : inv G h -> hfi h.
  Proof. intros [_ H] l st b Hl. apply (H _ _ _ Hl). Qed.

  Definition cz {A} (G : list tm) (h : heap) (m : RM A) (Q : list tm -> heap -> A -> Prop) : Prop :=
    inv G h -> match m h with
               | Ok (a, h') => exists G', pre G G' /\ wext h h' /\ inv G' h' /\ Q G' h' a
               | _ => True
               end.
  Lemma cz_ret {A} G h (a : A) (Q : list tm -> heap -> A -> Prop) : Q G h a -> cz G h (ret a) Q.
  Proof. intros H Hi. exists G. auto using pre_refl, wext_refl. Qed.
  Lemma cz_panic {A} G h (Q : list tm -> heap -> A -> Prop) : cz G h panic Q.
  Proof. intros Hi. exact I. Qed.
  Lemma cz_nofuel {A} G h (Q : list tm -> heap -> A -> Prop) : cz G h nofuel Q.
  Proof. intros Hi. exact I. Qed.
  Lemma cz_bind {A B} G h (m : RM A) (k : A -> RM B) P Q :
    cz G h m P -> (forall G' h' a, pre G G' -> wext h h' -> P G' h' a -> cz G' h' (k a) Q) -> cz G h (bind m k) Q.
  Proof.
    intros Hm Hk Hi. specialize (Hm Hi). unfold bind. destruct (m h) as [[a h1]| | |]; auto.
    destruct Hm as (G1 & Hp & He & Hi1 & HP). specialize (Hk _ _ _ Hp He HP Hi1). destruct (k a h1) as [[b h2]| | |]; auto.
    destruct Hk as (G2 & Hp2 & He2 & Hi2 & HQ). exists G2.
    split; [eapply pre_trans; eassumption|]. split; [eapply wext_trans; eassumption|]. auto.
  Qed.
  Lemma cz_post {A} G h (m : RM A) (P Q : list tm -> heap -> A -> Prop) :
    (forall G' h' a, pre G G' -> wext h h' -> P G' h' a -> Q G' h' a) -> cz G h m P -> cz G h m Q.
  Proof.
    intros H Hm Hi. specialize (Hm Hi). destruct (m h) as [[a h1]| | |]; auto.
    destruct Hm as (G1 & ? & ? & ? & ?). exists G1. auto.
  Qed.
  Lemma cz_wx {A} G h (m : RM A) (P : list tm -> heap -> A -> Prop) (Q : A -> heap -> Prop) :
    cz G h m P -> wx m h Q -> cz G h m (fun G' h' a => P G' h' a /\ Q a h').
  Proof.
    intros Hm Hw Hi. specialize (Hm Hi). specialize (Hw (inv_hfi _ _ Hi)). destruct (m h) as [[a h1]| | |]; auto.
    destruct Hm as (G1 & ? & ? & ? & ?). destruct Hw as (? & ? & ?). exists G1. auto.
  Qed.
  Lemma cz_inv {A} G h (m : RM A) Q : (inv G h -> cz G h m Q) -> cz G h m Q.
  Proof. intros H Hi. exact (H Hi Hi). Qed.
  Lemma cz_lift {A} G h (m : RM A) (P : list tm -> A -> Prop) (Q : A -> heap -> Prop) :
    tr G m P -> wx m h Q -> nn m -> cz G h m (fun G' h' a => P G' a /\ Q a h').
  Proof.
    intros Ht Hw Hn Hi. pose proof (inv_hfi _ _ Hi) as Hf. destruct Hi as [Hok Hst]. specialize (Ht h Hok). specialize (Hw Hf). specialize (Hn h).
    destruct (m h) as [[a h1]| | |]; auto. destruct Ht as (G1 & Hp & Hok1 & HP). destruct Hw as (He & _ & HQ).
    exists G1. split; [assumption|]. split; [assumption|]. split; [|auto]. split; [assumption|].
    intros l st b Hl. eapply wst2_ext; [exact Hp|exact He|]. eapply Hst. apply Hn. exact Hl.
  Qed.
  Lemma cz_lift1 {A} G h (m : RM A) (P : list tm -> A -> Prop) :
    tr G m P -> wx m h tt1 -> nn m -> cz G h m (fun G' _ a => P G' a).
  Proof. intros H1 H2 H3. eapply cz_post; [|eapply cz_lift; eassumption]. cbn. tauto. Qed.
  Lemma cz_mapM {A B} (f : A -> RM B) (Q : A -> B -> Prop) l : forall G h,
    (forall a G' h', In a l -> pre G G' -> wext h h' -> cz G' h' (f a) (fun _ _ b => Q a b)) ->
    cz G h (mapM f l) (fun _ _ bs => Forall2 Q l bs).
  Proof.
    induction l as [|a l IH]; intros G h H; cbn [mapM]; [apply cz_ret; constructor|].
    eapply cz_bind; [apply H; [left; reflexivity|apply pre_refl|apply wext_refl]|]. intros G1 h1 b Hp He Hb. cbn beta in Hb.
    eapply cz_bind; [apply IH; intros; apply H; [right; assumption|eapply pre_trans; eassumption|eapply wext_trans; eassumption]|].
    intros G2 h2 bs _ _ Hbs. cbn beta in Hbs. apply cz_ret. constructor; assumption.
  Qed.

  Lemma cz_force n G h l g : look G l g -> cz G h (r_force n l) (fun _ _ t => conv t g).
  Proof. intros Hl. apply cz_lift1; [apply r_force_sound; exact Hl|apply wx_force|apply nn_force]. Qed.
  Lemma cz_of_rstate n G h l g : look G l g -> cz G h (r_of_rstate n l) (fun _ _ t => conv t g).
  Proof. intros Hl. apply cz_lift1; [apply r_force_sound; exact Hl|apply wx_force|apply nn_force]. Qed.
  Lemma cz_alloc G h c g : cellok sg G c g -> match c with RCState _ true _ => False | _ => True end ->
    cz G h (r_alloc c) (fun G' _ l => look G' l g).
  Proof.
    intros H Hc. apply cz_lift1; [apply tr_alloc; exact H| |apply nn_alloc; exact Hc].
    apply wx_alloc. destruct c as [st [|] b|]; [destruct Hc|reflexivity|exact I].
  Qed.
  Lemma cz_usub G h n k : cz G h (r_usub n k) (fun _ _ d => k <= n /\ d = n - k).
  Proof. apply cz_lift1; [apply tr_usub|apply wx_usub|apply nn_usub]. Qed.
  Lemma cz_borrow G h l g : look G l g ->
    cz G h (r_borrow l) (fun G' h' st => st_sem G' st g /\ h' = h /\ exists w, nth_error h l = Some (RCState st w false)).
  Proof. intros Hl. apply cz_lift; [apply tr_borrow; exact Hl|apply wx_borrow|apply nn_borrow]. Qed.
  Lemma inv_look G h l c : inv G h -> nth_error h l = Some c -> exists g, look G l g /\ cellok sg G c g.
  Proof.
    intros [Hok _] Hl. unfold RefSound.heap_ok in Hok. 
    assert (Hlen : l < length G) by (rewrite <- (Forall2_length Hok); apply nth_error_Some; congruence).
    destruct (nth_error G l) as [g|] eqn:E; [|apply nth_error_None in E; lia].
    exists g. split; [exact E|]. eapply Forall2_nth; eassumption.
  Qed.

  (** ** Reading back an evaluated cell *)
  Definition head_of (st : rstate) (t0 : tm) : Prop := same_head (rs_term st) t0 /\ (rs_ctx st = [] -> t0 = rs_term st).
  Lemma cz_of_state G h n st g (Q : loc -> tm -> Prop) : st_sem G st g ->
    (forall l G' h', In l (rs_stack st) -> pre G G' -> wext h h' -> cz G' h' (r_of_rstate n l) (fun _ _ t => Q l t)) ->
    cz G h (r_of_state (r_force n) (r_of_rstate n) st)
      (fun _ _ t => exists t0 us, t = apps t0 us /\ head_of st t0 /\ Forall2 Q (rs_stack st) us).
  Proof.
    intros (ts & us & Hc & Hs & Hg) HQ. unfold r_of_state.
    eapply cz_bind with (P := fun _ _ t0 => head_of st t0).
    - destruct (rs_ctx st) as [|x ctx] eqn:Ec; [apply cz_ret; split; [apply same_head_refl|auto]|]. rewrite <- Ec in *.
      eapply cz_post; [|eapply cz_lift].
      + cbn beta. intros G' h' t0 _ _ [_ H]. split; [exact H|]. rewrite Ec. discriminate.
      + eapply rsub_sound with (s := slist ts) (G0 := G); [|apply pre_refl].
        intros G1 m k Hp Hk. apply r_psubst_sound; auto; [apply r_force_sound|eapply looks_pre; eassumption].
      + apply wx_rsub_head. intros. apply wx_psubst. apply wx_force.
      + apply nn_rsub. intros. apply nn_psubst. apply nn_force.
    - intros G1 h1 t0 Hp He Ht0. cbn beta in Ht0. eapply cz_bind; [apply cz_mapM with (Q := Q)|].
      + intros l G' h' Hin Hp' He'. apply HQ; [assumption|eapply pre_trans; eassumption|eapply wext_trans; eassumption].
      + intros G2 h2 us' _ _ Hus. apply cz_ret. exists t0, us'. auto.
  Qed.

  (** what is known of the term read back from a cell *)
  Definition rb (G : list tm) (h : heap) (l : loc) (t : tm) : Prop :=
    (forall g, look G l g -> conv t g) /\
    (forall st b, nth_error h l = Some (RCState st true b) -> stuck sg t) /\
    (forall p, mism h l p -> forall v s, reds sg (strip t) v -> ~ inst s p v) /\
    (forall p m l1 g1, bnd h l p m l1 -> look G l1 g1 -> forall v s, reds sg (strip t) v -> inst s p v -> conv (s m) g1).

  Lemma stuck_inv h us : not_app h -> stuck sg (apps h us) ->
    rigid sg (strip h) (map strip us) \/ (is_lam h /\ us = []).
  Proof.
    intros Hn H. remember (apps h us) as t eqn:Et. destruct H as [h' us' Hr|a b|b].
    - assert (not_app h') by (destruct h'; cbn in *; auto; destruct Hr).
      apply apps_inj in Et; [|assumption|assumption]. destruct Et as [-> ->]. auto.
    - apply (apps_inj [] us) in Et; [|exact I|assumption]. destruct Et as [<- <-]. right. split; [exact I|reflexivity].
    - apply (apps_inj [] us) in Et; [|exact I|assumption]. destruct Et as [<- <-]. right. split; [exact I|reflexivity].
  Qed.
  Lemma strip_not_app h : not_app h -> not_app (strip h).
  Proof. destruct h; cbn; auto. Qed.

  (** instances of a pattern with a symbol at its head among the reducts of a stuck term *)
  Lemma stuck_inst t0 us v s c ps : not_app t0 -> stuck sg (apps t0 us) -> reds sg (strip (apps t0 us)) v ->
    inst s (PatSymb c ps) v ->
    t0 = Const c /\ exists us', Forall2 (reds sg) (map strip us) us' /\ Forall2 (inst s) ps us'.
  Proof.
    intros Hn Hst Hv Hi. inversion Hi as [| |c' ps' ts Hts E1 E2]; subst. rewrite strip_apps in Hv.
    destruct (stuck_inv _ _ Hn Hst) as [Hr|[Hl ->]].
    - destruct (reds_apps_inv _ _ _ _ Hr Hv) as (h' & us' & E & Hus & Hh).
      assert (Hr' : rigid sg h' us') by (eapply hred_rigid; eassumption).
      apply apps_inj in E; [|exact I|eapply rigid_not_app; eassumption]. destruct E as [<- ->].
      split; [|eauto]. destruct t0; cbn in Hr; try contradiction; cbn in Hh; try discriminate; try congruence.
      destruct Hh as (a' & b' & E & _). discriminate.
    - exfalso. assert (exists b, strip t0 = ULam b) as [b Eb] by (destruct t0; cbn in *; try contradiction; eauto).
      cbn in Hv. rewrite Eb in Hv. apply reds_ulam_inv in Hv. destruct Hv as (b' & E & _).
      destruct (apps_const_cases c ts) as [[-> E']|(? & ? & -> & E')]; rewrite E' in E; discriminate.
  Qed.

  Lemma Forall2_strip_nth us us' i u : Forall2 (reds sg) (map strip us) us' -> nth_error us i = Some u ->
    exists u', nth_error us' i = Some u' /\ reds sg (strip u) u'.
  Proof.
    intros H. revert i us' H. induction us as [|x us IH]; intros [|i] us' H; cbn; try discriminate; inversion H; subst.
    - intros [= ->]. eauto.
    - cbn. eauto.
  Qed.
  Lemma Forall2_nth_l {A B} (R : A -> B -> Prop) l l' i a : Forall2 R l l' -> nth_error l i = Some a ->
    exists b, nth_error l' i = Some b /\ R a b.
  Proof. intros H. revert i. induction H; intros [|i]; cbn; try discriminate; eauto. intros [= ->]. eauto. Qed.

  Section Args.
    Variables (G : list tm) (h : heap) (stack : list loc) (us : list tm).
    Hypothesis Hus : Forall2 (rb G h) stack us.

    Lemma args_mism i l p us' s : nth_error stack i = Some l -> mism h l p ->
      Forall2 (reds sg) (map strip us) us' -> forall u', nth_error us' i = Some u' -> ~ inst s p u'.
    Proof.
      intros Hl Hm Hr u' Hu' Hi. destruct (Forall2_nth_l _ _ _ _ _ Hus Hl) as (u & Hu & Hrb).
      destruct (Forall2_strip_nth _ _ _ _ Hr Hu) as (u'' & Hu'' & Hred). assert (u'' = u') by congruence. subst u''.
      destruct Hrb as (_ & _ & H & _). exact (H _ Hm _ _ Hred Hi).
    Qed.
    Lemma args_bnd i l p m l1 g1 us' s : nth_error stack i = Some l -> bnd h l p m l1 -> look G l1 g1 ->
      Forall2 (reds sg) (map strip us) us' -> forall u', nth_error us' i = Some u' -> inst s p u' -> conv (s m) g1.
    Proof.
      intros Hl Hm Hg Hr u' Hu' Hi. destruct (Forall2_nth_l _ _ _ _ _ Hus Hl) as (u & Hu & Hrb).
      destruct (Forall2_strip_nth _ _ _ _ Hr Hu) as (u'' & Hu'' & Hred). assert (u'' = u') by congruence. subst u''.
      destruct Hrb as (_ & _ & _ & H). exact (H _ _ _ _ Hm Hg _ _ Hred Hi).
    Qed.

    Lemma args_blocked r us' : blocked2 G h stack r -> Forall2 (reds sg) (map strip us) us' -> ~ applies r us'.
    Proof.
      intros Hb Hr (s & vs & ws & -> & Hi).
      assert (Hnth : forall i p, nth_error (sr_args r) i = Some p -> exists v, nth_error (vs ++ ws) i = Some v /\ inst s p v).
      { intros i p Hp. destruct (Forall2_nth_l _ _ _ _ _ Hi Hp) as (v & Hv & Hiv). exists v. split; [|assumption].
        rewrite nth_error_app1; [assumption|]. apply nth_error_Some. congruence. }
      assert (Hbn : forall m l1 g1, binds h stack (sr_args r) m l1 -> look G l1 g1 -> conv (s m) g1).
      { intros m l1 g1 (i & l & p & H1 & H2 & H3) Hg. destruct (Hnth _ _ H2) as (v & Hv & Hiv).
        eapply args_bnd; eassumption. }
      destruct Hb as [Hlt|[(i & l & p & H1 & H2 & H3)|(m & l1 & l2 & g1 & g2 & H1 & H2 & H3 & H4 & H5)]].
      - pose proof (Forall2_length Hus) as L1. pose proof (Forall2_length Hr) as L2. pose proof (Forall2_length Hi) as L3.
        rewrite map_length in L2. rewrite app_length in L2. lia.
      - destruct (Hnth _ _ H2) as (v & Hv & Hiv). eapply args_mism; eassumption.
      - apply H5. eapply conv_trans; [apply conv_sym; exact (Hbn m l1 g1 H1 H3)|exact (Hbn m l2 g2 H2 H4)].
    Qed.
  End Args.

  Lemma hform_not_app st t0 : hform st -> head_of st t0 -> not_app t0.
  Proof.
    intros Hf [Hs Hc]. unfold hform in Hf. destruct (rs_term st); cbn in Hs; try contradiction; try (subst; exact I).
    - rewrite (Hc Hf). exact I.
    - destruct Hs as (? & ? & ->); exact I.
    - destruct Hs as (? & ->); exact I.
    - destruct Hs as (? & ? & ->); exact I.
  Qed.
  (** an evaluated state is read back as a stuck term *)
  Lemma wst2_stuck G h st t0 us : wst2 G h st -> head_of st t0 -> Forall2 (rb G h) (rs_stack st) us -> stuck sg (apps t0 us).
  Proof.
    intros [Hf Hb] [Hs Hc] Hus. unfold hform in Hf.
    destruct (rs_term st) as [| |c|x|t1 t2|a b|b|a b] eqn:Et; cbn in Hs; try contradiction.
    - subst. apply stuck_apps. exact I.
    - subst. apply stuck_apps. exact I.
    - subst. apply stuck_apps. cbn. intros us' Hr r Hrule. eapply args_blocked; [exact Hus| |exact Hr]. eauto.
    - rewrite (Hc Hf). apply stuck_apps. exact I.
    - destruct Hs as (a' & b' & ->). rewrite Hf in Hus. inversion Hus. apply stuck_lam.
    - destruct Hs as (b' & ->). rewrite Hf in Hus. inversion Hus. apply stuck_ulam.
    - destruct Hs as (a' & b' & ->). apply stuck_apps. exact I.
  Qed.

  Lemma inv_busy G h l st w b : inv G h -> nth_error h l = Some (RCState st true b) -> nth_error h l = Some (RCState st w false) ->
    wst2 G h st.
  Proof. intros [_ H] H1 _. eapply H; exact H1. Qed.

  Lemma rb_ext G G' h h' l t : pre G G' -> wext h h' ->
    (exists g, look G l g) -> (forall p m l1, bnd h l p m l1 -> exists g, look G l1 g) ->
    rb G' h' l t -> rb G h l t.
  Proof.
    intros Hp He Hl Hb (H1 & H2 & H3 & H4). split; [|split; [|split]].
    - intros g Hg. apply H1. eapply look_pre; eassumption.
    - intros st b Hst. destruct (He _ _ Hst) as (c' & Hc' & _ & Hf). rewrite Hf in Hc' by (left; reflexivity). eapply H2; exact Hc'.
    - intros p Hm. apply H3. eapply mism_ext; eassumption.
    - intros p m l1 g1 Hbd Hg. eapply H4; [eapply bnd_ext; eassumption|eapply look_pre; eassumption].
  Qed.

  Lemma cz_readback n : forall G h l, l < length h -> cz G h (r_of_rstate n l) (fun _ _ t => rb G h l t).
  Proof.
    induction n as [|n IH]; intros G h l Hlt; [apply cz_nofuel|]. apply cz_inv. intros Hinv.
    assert (exists c, nth_error h l = Some c) as [c0 Hc0].
    { destruct (nth_error h l) eqn:E; [eauto|]. apply nth_error_None in E. lia. }
    destruct (inv_look _ _ _ _ Hinv Hc0) as (g & Hg & _).
    (* the term denotes what the cell denotes *)
    eapply cz_post with (P := fun _ _ t => conv t g /\ exists st t0 us w, nth_error h l = Some (RCState st w false) /\
        t = apps t0 us /\ head_of st t0 /\ Forall2 (rb G h) (rs_stack st) us).
    - intros G' h' t _ _ (Hcv & st & t0 & us & w & Hl & -> & Hh & Hus).
      assert (Hstuck : forall st' b, nth_error h l = Some (RCState st' true b) -> stuck sg (apps t0 us) /\ not_app t0).
      { intros st' b Hl'. assert (st' = st) by congruence. subst st'.
        assert (Hw : wst2 G h st) by (eapply Hinv; exact Hl'). split; [eapply wst2_stuck; eassumption|].
        eapply hform_not_app; [apply Hw|exact Hh]. }
      split; [|split; [|split]].
      + intros g' Hg'. rewrite <- (look_fun _ _ _ _ Hg Hg'). exact Hcv.
      + intros st' b Hl'. apply (Hstuck _ _ Hl').
      + intros p Hm v s Hv Hi. destruct Hm as [l st' sp ps Hl' Hn|l st' sp ps i l' p' Hl' Ht Hlen Hi1 Hi2 Hm];
          assert (st' = st) by congruence; subst st'; destruct (Hstuck _ _ Hl') as [Hst Hna];
          destruct (stuck_inst _ _ _ _ _ _ Hna Hst Hv Hi) as (-> & us' & Hus' & Hps).
        * apply Hn. split.
          -- destruct Hh as [Hs Hc]. assert (Hw : wst2 G h st) by (eapply Hinv; exact Hl'). destruct Hw as [Hf _]. unfold hform in Hf.
             destruct (rs_term st); cbn in Hs; try discriminate; try contradiction.
             ++ congruence.
             ++ specialize (Hc Hf). discriminate.
             ++ destruct Hs as (? & ? & Hs); discriminate.
             ++ destruct Hs as (? & Hs); discriminate.
             ++ destruct Hs as (? & ? & Hs); discriminate.
          -- pose proof (Forall2_length Hus) as L1. pose proof (Forall2_length Hus') as L2. pose proof (Forall2_length Hps) as L3.
             rewrite map_length in L2. congruence.
        * destruct (Forall2_nth_l _ _ _ _ _ Hps Hi2) as (u' & Hu' & Hiu). eapply args_mism; eassumption.
      + intros p m l1 g1 Hb Hg1 v s Hv Hi. destruct Hb as [l m|l st' sp ps i l' p' m l1 Hl' Ht Hlen Hi1 Hi2 Hb].
        * inversion Hi; subst. rewrite <- (look_fun _ _ _ _ Hg Hg1). eapply conv_trans; [|exact Hcv].
          apply conv_sym. eapply conv_trans; [apply conv_strip|]. apply reds_conv. exact Hv.
        * assert (st' = st) by congruence. subst st'. destruct (Hstuck _ _ Hl') as [Hst Hna].
          destruct (stuck_inst _ _ _ _ _ _ Hna Hst Hv Hi) as (-> & us' & Hus' & Hps).
          destruct (Forall2_nth_l _ _ _ _ _ Hps Hi2) as (u' & Hu' & Hiu). eapply args_bnd; eassumption.
    - (* both facts hold of the same run *)
      intros Hi0.
      assert (H1 : cz G h (r_of_rstate (S n) l) (fun _ _ t => conv t g)) by (apply cz_of_rstate; exact Hg).
      assert (H2 : cz G h (r_of_rstate (S n) l) (fun _ _ t => exists st t0 us w, nth_error h l = Some (RCState st w false) /\
        t = apps t0 us /\ head_of st t0 /\ Forall2 (rb G h) (rs_stack st) us)).
      { cbn [r_of_rstate]. eapply cz_bind; [apply cz_borrow; exact Hg|]. intros G1 h1 st Hp1 He1 (Hst & -> & w & Hl). cbn beta.
        destruct (inv_look _ _ _ _ Hinv Hl) as (g' & Hg' & (ts & us0 & Hc & Hs & _)).
        eapply cz_post; [|eapply cz_of_state with (g := g) (Q := rb G h); [exact Hst|]].
        - cbn beta. intros G2 h2 t _ _ (t0 & us & -> & Hh & Hus). exists st, t0, us, w. auto.
        - intros l' G' h' Hin Hp' He'.
          assert (exists g, look G l' g) as [g2 Hg2].
          { clear - Hs Hin. induction Hs as [|x y l1 l2 Hxy Hs IHs]; [destruct Hin|]. destruct Hin as [->|Hin]; [eauto|auto]. }
          assert (Hin' : l' < length h).
          { destruct Hinv as [Hok _]. unfold RefSound.heap_ok in Hok. rewrite (Forall2_length Hok). apply nth_error_Some. unfold look in Hg2. congruence. }
          assert (Hlt' : l' < length h').
          { destruct (nth_error h l') as [c|] eqn:E; [|apply nth_error_None in E; lia]. destruct (He' _ _ E) as (c' & E' & _).
            apply nth_error_Some. congruence. }
          eapply cz_post; [|apply IH; exact Hlt']. cbn beta. intros _ _ t _ _ Hrb.
          eapply rb_ext; [eapply pre_trans; eassumption|exact He'|eauto| |exact Hrb].
          intros p m l1 Hb. clear - Hb Hinv Hg2. revert g2 Hg2. induction Hb as [l m|l st' sp ps i l' p' m l1 Hl' Ht Hlen Hi1 Hi2 Hb IHb]; intros g2 Hg2; [eauto|].
          destruct (inv_look _ _ _ _ Hinv Hl') as (g' & Hg' & (ts & us0 & Hc & Hs & _)).
          destruct (Forall2_nth_l _ _ _ _ _ Hs Hi1) as (g3 & _ & Hg3). eapply IHb; exact Hg3. }
      specialize (H1 Hi0). specialize (H2 Hi0). destruct (r_of_rstate (S n) l h) as [[t h']| | |]; auto.
      destruct H1 as (G1 & ? & ? & ? & ?). destruct H2 as (G2 & ? & ? & ? & ?). exists G2. auto.
  Qed.

  (** ** Matching *)
  Section Match.
    Variable rw : loc -> RM unit.
    Hypothesis Hrw : forall G h l g, look G l g ->
      cz G h (rw l) (fun _ h' _ => exists st, nth_error h' l = Some (RCState st true false)).
    Hypothesis Hrwx : forall l h, wx (rw l) h (fun _ h' => exists st, nth_error h' l = Some (RCState st true false)).

    (** every binding is an old one or comes from the pattern *)
    Definition entries (B : nat -> loc -> Prop) (sb : list (list loc)) (o : option (list (list loc))) : Prop :=
      match o with
      | None => True
      | Some sb' => forall m ls l1, nth_error sb' m = Some ls -> In l1 ls ->
          (exists ls0, nth_error sb m = Some ls0 /\ In l1 ls0) \/ B m l1
      end.
    Lemma entries_weak (B B' : nat -> loc -> Prop) sb o : (forall m l1, B m l1 -> B' m l1) -> entries B sb o -> entries B' sb o.
    Proof. intros H. destruct o; cbn; [|auto]. intros He m ls l1 H1 H2. destruct (He m ls l1 H1 H2); auto. Qed.
    Lemma entries_trans (B1 B2 B : nat -> loc -> Prop) sb sb1 o :
      entries B1 sb (Some sb1) -> entries B2 sb1 o -> (forall m l1, B1 m l1 \/ B2 m l1 -> B m l1) -> entries B sb o.
    Proof.
      intros H1 H2 H. destruct o; cbn in *; [|auto]. intros m ls l1 Hm Hl.
      destruct (H2 _ _ _ Hm Hl) as [(ls0 & Ha & Hb)|]; [|auto]. destruct (H1 _ _ _ Ha Hb); auto.
    Qed.
    Lemma subst_push_entries sb m l : entries (fun m' l' => m' = m /\ l' = l) sb (subst_push sb m l).
    Proof.
      unfold entries. destruct (subst_push sb m l) as [sb'|] eqn:E; [|exact I].
      revert m sb' E. induction sb as [|ls sb IH]; intros [|m] sb'; cbn [subst_push]; try discriminate.
      - intros [= <-] [|m'] ls' l1; cbn.
        + intros [= <-] Hin. apply in_app_or in Hin. destruct Hin as [Hin|[<-|[]]]; [left; eauto|right; auto].
        + intros H1 H2. left. eauto.
      - destruct (subst_push sb m l) as [sb0|] eqn:E; [|discriminate]. intros [= <-] [|m'] ls' l1; cbn.
        + intros [= <-] Hin. left. eauto.
        + intros H1 H2. destruct (IH _ _ E _ _ _ H1 H2) as [|[-> ->]]; [left; assumption|right; auto].
    Qed.

    Lemma cz_match_pat p : forall G h l g sb, look G l g -> sb_ok G sb ->
      cz G h (r_match_pat rw l p sb) (fun G' h' o => match_post sg p g sb G' o /\ entries (fun m l1 => bnd h' l p m l1) sb o).
    Proof.
      induction p as [c ps IH|m|] using pat_ind'; intros G h l g sb Hl Hsb; cbn [r_match_pat].
      - eapply cz_bind; [eapply Hrw; eassumption|]. intros G1 h1 [] Hp1 He1 [st Hst]. cbn beta in Hst.
        eapply cz_bind; [apply cz_borrow; eapply look_pre; eassumption|]. intros G2 h2 st' Hp2 He2 (Hsem & -> & w & Hst').
        assert (st' = st) by congruence. subst st'. cbn beta.
        destruct Hsem as (ts & us & Hc & Hu & Hg).
        destruct (rs_term st) as [| |c'| | | | |] eqn:Et; try (apply cz_ret; split; exact I).
        destruct ((c =? c') && (length (rs_stack st) =? length ps)) eqn:E; [|apply cz_ret; split; exact I].
        apply andb_true_iff in E. destruct E as [E1 E2]. apply Nat.eqb_eq in E1, E2. subst c'. cbn [sub] in Hg.
        assert (Hgo : cz G2 h1 ((fix go (stack : list loc) (pats : list pat) (sb : list (list loc)) {struct pats} :=
             match pats, stack with
             | p :: pats, l :: stack =>
               o <- r_match_pat rw l p sb ;;
               match o with
               | None => ret None
               | Some sb => go stack pats sb
               end
             | _, _ => ret (Some sb)
             end) (rs_stack st) ps sb)
             (fun G' h' o => matches_post sg ps us sb G' o /\ entries (fun m l1 => binds h' (rs_stack st) ps m l1) sb o)).
        { assert (Hsb2 : sb_ok G2 sb) by eauto using sb_ok_pre, pre_trans.
          clear Hg Hsb Hl Hc Hst Hst' Et He1 He2. revert IH us sb G2 h1 Hp2 Hsb2 E2 Hu. generalize (rs_stack st) as stack.
          induction ps as [|p ps IHps]; intros stack IH us sb G2 h1 Hp2 Hsb2 Hlen Hu.
          - destruct stack; [|discriminate]. inversion Hu; subst. apply cz_ret.
            split; [split; [apply sb_ext_refl|]; split; [assumption|]; intros s _; exists []; split; constructor|].
            intros m ls l1 H1 H2. left. eauto.
          - destruct stack as [|l1 stack]; [discriminate|]. inversion Hu as [|? u ? us' Hl1 Hus]; subst.
            inversion IH as [|? ? IHp IHps']; subst.
            eapply cz_bind; [apply IHp; eassumption|]. intros G3 h3 o Hp3 He3 [Ho Hen].
            destruct o as [sb1|]; [|apply cz_ret; split; exact I].
            eapply cz_post; [|apply IHps with (us := us'); [assumption| | | |]].
            + cbn beta. intros G4 h4 o Hp4 He4 [Ho2 Hen2]. split; [eapply match_cons; eassumption|].
              eapply entries_trans; [exact Hen|exact Hen2|]. intros m l2 [Hb|(i & lx & px & Hi1 & Hi2 & Hb)].
              * exists 0, l1, p. split; [reflexivity|]. split; [reflexivity|]. eapply bnd_ext; eassumption.
              * exists (S i), lx, px. auto.
            + eauto using pre_trans.
            + apply Ho.
            + cbn in Hlen. lia.
            + eapply looks_pre; eassumption. }
        eapply cz_post; [|exact Hgo]. intros G3 h3 [sb'|] Hp3 He3; [|intros _; split; exact I].
        intros [(H1 & H2 & H3) Hen]. split.
        + split; [exact H1|]. split; [exact H2|]. intros s Hs.
          destruct (H3 s Hs) as (vs & Hv1 & Hv2). exists (apps (Const c) vs). split; [constructor; assumption|].
          eapply conv_trans; [|exact Hg]. apply conv_apps; auto using conv_refl.
        + eapply entries_weak; [|exact Hen]. intros m l1 (i & l' & p' & Hi1 & Hi2 & Hb).
          eapply bnd_arg; [eapply wext_cell; [exact He3|exact Hst]|exact Et|exact E2|exact Hi1|exact Hi2|exact Hb].
      - apply cz_ret. split.
        + unfold match_post. destruct (subst_push sb m l) as [sb'|] eqn:E; [|exact I].
          destruct (subst_push_ext _ _ _ _ E) as (H1 & (ls & H2 & H3) & H4). split; [exact H1|]. split.
          * intros ls' l' Hls Hl'. destruct (H4 _ _ Hls Hl') as [->|(ls0 & ? & ?)]; eauto.
          * intros s Hs. exists (s m). split; [constructor|]. destruct (Hs _ _ _ H2 H3) as (t & Ht & Hc).
            rewrite (look_fun _ _ _ _ Hl Ht). exact Hc.
        + eapply entries_weak; [|apply subst_push_entries]. intros m' l' [-> ->]. constructor.
      - apply cz_ret. split.
        + split; [apply sb_ext_refl|]. split; [assumption|]. intros s _. exists g. split; [constructor|apply conv_refl].
        + intros m ls l1 H1 H2. left. eauto.
    Qed.

    Lemma cz_match_pats ps : forall G h stack us sb,
      length ps <= length stack -> Forall2 (look G) stack us -> sb_ok G sb ->
      cz G h (r_match_pats rw stack ps sb)
        (fun G' h' o => matches_post sg ps (firstn (length ps) us) sb G' o /\ entries (fun m l1 => binds h' stack ps m l1) sb o).
    Proof.
      induction ps as [|p ps IH]; intros G h stack us sb Hlen Hu Hsb; cbn [r_match_pats].
      - apply cz_ret. split; [split; [apply sb_ext_refl|]; split; [assumption|]; intros s _; exists []; split; constructor|].
        intros m ls l1 H1 H2. left. eauto.
      - destruct stack as [|l stack]; [cbn in Hlen; lia|]. inversion Hu as [|? u ? us' Hl Hus]; subst.
        eapply cz_bind; [apply cz_match_pat; eassumption|]. intros G3 h3 o Hp3 He3 [Ho Hen].
        destruct o as [sb1|]; [|apply cz_ret; split; exact I].
        eapply cz_post; [|apply IH with (us := us')].
        + cbn beta. cbn [length firstn]. intros G4 h4 o Hp4 He4 [Ho2 Hen2]. split; [eapply match_cons; eassumption|].
          eapply entries_trans; [exact Hen|exact Hen2|]. intros m l2 [Hb|(i & lx & px & Hi1 & Hi2 & Hb)].
          * exists 0, l, p. split; [reflexivity|]. split; [reflexivity|]. eapply bnd_ext; eassumption.
          * exists (S i), lx, px. auto.
        + cbn in Hlen. lia.
        + eapply looks_pre; eassumption.
        + apply Ho.
    Qed.

    Variable cv : tm -> tm -> RM bool.
    Hypothesis Hcv : forall G h t u, cz G h (cv t u) (fun _ _ b => if b : bool then conv t u else ~ conv t u).
    Hypothesis Hcvx : forall t u h, wx (cv t u) h tt1.
    Variable n : nat.

    (** two bindings of a variable that are not convertible *)
    Definition clash (G : list tm) (ls : list loc) : Prop :=
      exists l1 l2 g1 g2, In l1 ls /\ In l2 ls /\ look G l1 g1 /\ look G l2 g2 /\ ~ conv g1 g2.

    Lemma cz_all_conv_loop l0 ls : forall G h th g, look G th g -> look G l0 g -> (forall l, In l ls -> exists t, look G l t) ->
      cz G h (r_all_conv_loop cv n th ls)
        (fun G' _ o => match o with
                  | Some th' => th' = th /\ forall l, In l ls -> exists t, look G' l t /\ conv g t
                  | None => clash G' (l0 :: ls) end).
    Proof.
      induction ls as [|l ls IH]; intros G h th g Hth Hl0 Hls; cbn [r_all_conv_loop].
      - apply cz_ret. split; [reflexivity|]. intros l [].
      - destruct (Hls l (or_introl eq_refl)) as [tl Htl].
        eapply cz_bind; [apply cz_force; eassumption|]. intros G1 h1 t1 Hp1 He1 Ht1. cbn beta in Ht1.
        eapply cz_bind; [apply cz_of_rstate; eapply look_pre; eassumption|]. intros G2 h2 t2 Hp2 He2 Ht2. cbn beta in Ht2.
        eapply cz_bind; [apply Hcv|]. intros G3 h3 b Hp3 He3 Hb.
        assert (pre G G3) by eauto using pre_trans. destruct b; cbn beta in Hb.
        + eapply cz_post; [|apply IH with (g := g); [eapply look_pre; eassumption|eapply look_pre; eassumption|]].
          * cbn. intros G4 h4 [th'|] Hp4 He4.
            -- intros [-> H4]. split; [reflexivity|]. intros l' [<-|Hin]; [|auto].
               exists tl. split; [eauto using look_pre, pre_trans|].
               eapply conv_trans; [apply conv_sym; exact Ht1|]. eapply conv_trans; [exact Hb|exact Ht2].
            -- intros (a1 & a2 & g1 & g2 & H1 & H2 & H3 & H4 & H5). exists a1, a2, g1, g2. cbn in *. tauto.
          * intros l' Hin. destruct (Hls l' (or_intror Hin)) as [t' Ht']. eauto using look_pre.
        + apply cz_ret. exists l0, l, g, tl. split; [left; reflexivity|]. split; [right; left; reflexivity|].
          split; [eapply look_pre; eassumption|]. split; [eapply look_pre; eassumption|].
          intros Hc. apply Hb. eapply conv_trans; [exact Ht1|]. eapply conv_trans; [exact Hc|]. apply conv_sym. exact Ht2.
    Qed.

    Lemma cz_all_conv ls G h : (forall l, In l ls -> exists t, look G l t) ->
      cz G h (r_all_conv cv n ls)
        (fun G' _ o => match o with
                  | Some th => ls <> [] /\ exists g, look G' th g /\ forall l, In l ls -> exists t, look G' l t /\ conv g t
                  | None => ls = [] \/ clash G' ls end).
    Proof.
      intros Hls. destruct ls as [|l ls]; cbn [r_all_conv]; [apply cz_ret; left; reflexivity|].
      destruct (Hls l (or_introl eq_refl)) as [t Ht].
      eapply cz_bind; [apply cz_alloc with (g := t); [cbn; eauto using conv_refl|exact I]|]. intros G1 h1 th Hp1 He1 Hth.
      eapply cz_post; [|apply cz_all_conv_loop with (g := t) (l0 := l); [exact Hth|eapply look_pre; eassumption|]].
      - cbn. intros G2 h2 [th'|] Hp2 He2; [|auto]. intros [-> H]. split; [discriminate|]. exists t.
        split; [eapply look_pre; eassumption|]. intros l' [<-|Hin]; [|auto].
        exists t. eauto using look_pre, pre_trans, conv_refl.
      - intros l' Hin. destruct (Hls l' (or_intror Hin)) as [t' Ht']. eauto using look_pre.
    Qed.

    Lemma cz_flatten sb : forall G h, sb_ok G sb -> cz G h (r_flatten cv n sb)
      (fun G' _ o => flat_post sg sb G' o /\ (o = None -> exists ls, In ls sb /\ (ls = [] \/ clash G' ls))).
    Proof.
      induction sb as [|ls sb IH]; intros G h Hsb; cbn [r_flatten].
      - apply cz_ret. split; [|discriminate]. split; [intros ls []|]. exists []. split; [constructor|]. split; [reflexivity|].
        intros [|m] ls l; discriminate.
      - eapply cz_bind; [apply IH; intros x l Hx; apply Hsb; right; exact Hx|]. intros G1 h1 [ctx|] Hp1 He1 [Ho Hno].
        2:{ apply cz_ret. split; [exact I|]. intros _. destruct (Hno eq_refl) as (ls0 & ? & ?). exists ls0. cbn. auto. }
        eapply cz_bind.
        { apply cz_all_conv. intros l Hl. destruct (Hsb ls l (or_introl eq_refl) Hl) as [t Ht]. eauto using look_pre. }
        intros G2 h2 [th|] Hp2 He2 Ho2; cbn beta in Ho2.
        2:{ apply cz_ret. split; [exact I|]. intros _. exists ls. cbn. auto. }
        apply cz_ret. split; [|discriminate].
        destruct Ho as (Hne & ts & Hts & Hlen & Hc). destruct Ho2 as (Hne2 & g & Hg & Hls).
        split; [intros x [<-|Hx]; auto|]. exists (g :: ts). split; [constructor; [assumption|eapply looks_pre; eassumption]|].
        split; [cbn; congruence|]. intros [|m] ls0 l; cbn.
        + intros [= <-] Hl. destruct (Hls l Hl) as (t & ? & ?). eauto.
        + intros Hm Hl. destruct (Hc _ _ _ Hm Hl) as (t & ? & ?). eauto using look_pre.
    Qed.

    Lemma cz_match_flatten stack us r G h : Forall2 (look G) stack us ->
      cz G h (r_match_flatten rw cv n stack r)
        (fun G' h' o => match o with
                        | Some ctx => fire_post sg [r] us G' (Some (ctx, r))
                        | None => usable r -> blocked2 G' h' stack r
                        end).
    Proof.
      intros Hu. pose proof (Forall2_length Hu) as Hlen. unfold r_match_flatten, r_match_rule.
      destruct (Nat.ltb_spec (length stack) (length (sr_args r))) as [Hlt|Hge].
      { intros Hi. cbn. exists G. split; [apply pre_refl|]. split; [apply wext_refl|]. split; [assumption|]. intros _. left. exact Hlt. }
      assert (Hsb0 : sb_ok G (repeat [] (sr_vars r))).
      { intros ls l Hls Hl. apply repeat_spec in Hls. subst. destruct Hl. }
      eapply cz_bind with (P := fun G' h' o =>
        (matches_post sg (sr_args r) (firstn (length (sr_args r)) us) (repeat [] (sr_vars r)) G' o /\
         entries (fun m l1 => binds h' stack (sr_args r) m l1) (repeat [] (sr_vars r)) o) /\
        (usable r -> mout (flat_map pat_vars (sr_args r)) (repeat [] (sr_vars r)) (mism_some stack (sr_args r)) o h')).
      { apply cz_wx with (Q := fun o h' => usable r -> mout (flat_map pat_vars (sr_args r)) (repeat [] (sr_vars r)) (mism_some stack (sr_args r)) o h');
          [apply cz_match_pats; [lia|assumption|assumption]|].
        intros Hh.
        pose proof (wx_match_pats_any rw Hrwx (sr_args r) stack (repeat [] (sr_vars r)) h Hh) as H1.
        pose proof (wx_match_pats rw Hrwx (sr_args r) stack (repeat [] (sr_vars r)) h Hge) as H2.
        unfold wx in H2. destruct (r_match_pats _ _ _ _ h) as [[o h']| | |]; auto. destruct H1 as (H3 & H4 & _).
        split; [assumption|]. split; [assumption|]. intros Hus. apply H2; [|assumption].
        intros m Hm. rewrite repeat_length. apply Hus. exact Hm. }
      intros G1 h1 [sb|] Hp1 He1 [[Hm Hen] Hmo].
      2:{ apply cz_ret. intros Hus. right; left. exact (Hmo Hus). }
      destruct Hm as (Hext & Hsb & Hinst).
      eapply cz_post; [|apply cz_flatten; exact Hsb].
      intros G2 h2 [ctx|] Hp2 He2 [Hf Hno].
      - destruct Hf as (Hne & ts & Hts & Hlen2 & Hc).
        destruct Hext as (L & I1 & V & N). rewrite repeat_length in *.
        split; [left; reflexivity|]. split; [|split; [lia|]].
        + intros m. split; [|apply V]. intros Hm.
          destruct (nth_error sb m) as [ls|] eqn:Em.
          * destruct (N _ _ Em (Hne _ (nth_error_In _ _ Em))) as [Hv|(ls0 & H0 & H1)]; [exact Hv|].
            apply nth_error_repeat_nil in H0. contradiction.
          * apply nth_error_None in Em. lia.
        + destruct (Hinst (slist ts)) as (vs & Hv1 & Hv2); [eapply compat_pre; eassumption|].
          exists ts, vs. repeat split; auto. congruence.
      - intros Hus. right; right. destruct (Hno eq_refl) as (ls & Hin & Hls).
        destruct (Hmo Hus) as [Hl Hp]. rewrite repeat_length in Hl.
        destruct Hls as [->|(l1 & l2 & g1 & g2 & H1 & H2 & H3 & H4 & H5)].
        + exfalso. destruct (pushes_in _ _ Hin) as (m & Hm & Hpm). rewrite Hp, pushes_repeat in Hpm. cbn in Hpm.
          rewrite Hl in Hm. apply Hus in Hm. apply (count_occ_In Nat.eq_dec) in Hm. lia.
        + destruct (In_nth_error _ _ Hin) as [m Hm].
          assert (Hb : forall l, In l ls -> binds h2 stack (sr_args r) m l).
          { intros l Hl'. eapply binds_ext; [exact He2|].
            destruct (Hen _ _ _ Hm Hl') as [(ls0 & H0 & Hx)|]; [|assumption]. apply nth_error_repeat_nil in H0. subst. destruct Hx. }
          exists m, l1, l2, g1, g2. auto 10.
    Qed.

    Lemma cz_first_match stack us rules : forall G h, Forall2 (look G) stack us ->
      cz G h (r_first_match rw cv n stack rules)
        (fun G' h' o => fire_post sg rules us G' o /\ (o = None -> forall r, In r rules -> usable r -> blocked2 G' h' stack r)).
    Proof.
      induction rules as [|r rules IH]; intros G h Hu; cbn [r_first_match]; [apply cz_ret; split; [exact I|intros _ r []]|].
      eapply cz_bind; [apply cz_match_flatten; exact Hu|]. intros G1 h1 [ctx|] Hp1 He1 H; cbn beta in H.
      - apply cz_ret. split; [|discriminate]. destruct H as (_ & H). split; [left; reflexivity|exact H].
      - eapply cz_post; [|apply IH; eapply looks_pre; eassumption]. intros G2 h2 o Hp2 He2 [Ho Hno]. split.
        + destruct o as [[ctx r']|]; [|exact I]. destruct Ho as (H1 & H2). split; [right; exact H1|exact H2].
        + intros -> r' [<-|Hin]; [|apply Hno; auto]. intros Hus. eapply blocked2_ext; [exact Hp2|exact He2|auto].
    Qed.
  End Match.

  (** ** The machine *)
  Lemma cz_unwind ctx g : forall t stack G h, st_sem G (RState ctx t stack) g ->
    cz G h (r_unwind ctx t stack) (fun G' _ '(t', stack') => st_sem G' (RState ctx t' stack') g /\ not_app t').
  Proof.
    induction t; intros stack G h Hst; cbn [r_unwind]; try (apply cz_ret; split; [exact Hst|exact I]).
    destruct Hst as (ts & us & Hc & Hs & Hg). cbn in *.
    eapply cz_bind.
    { apply cz_alloc with (g := sub (slist ts) t2); [|exact I]. cbn. exists ts, []. split; [exact Hc|]. split; [constructor|]. apply conv_refl. }
    intros G1 h1 l Hp He Hl. apply IHt1. exists ts, (sub (slist ts) t2 :: us). cbn.
    split; [eapply looks_pre; eassumption|]. split; [constructor; [assumption|eapply looks_pre; eassumption]|exact Hg].
  Qed.

  Definition evals2 (w : rstate -> RM rstate) : Prop :=
    forall G h st g, st_sem G st g -> cz G h (w st) (fun G' h' st' => st_sem G' st' g /\ wst2 G' h' st').

  Lemma cz_rwhnf w : evals2 w -> forall G h l g, look G l g ->
    cz G h (r_rwhnf w l) (fun _ h' _ => exists st, nth_error h' l = Some (RCState st true false)).
  Proof.
    intros Hw G h l g Hl. unfold r_rwhnf.
    eapply cz_bind; [apply cz_lift; [apply tr_read; exact Hl|apply wx_read|apply nn_read]|].
    intros G1 h1 c Hp1 _ [Hc [-> Hc']].
    destruct c as [st [|] [|]|th]; try apply cz_panic; [apply cz_ret; eauto|].
    intros Hi. unfold bind at 1, r_write at 1.
    set (h1 := list_set h l (RCState st false true)).
    assert (Hl1 : look G1 l g) by (eapply look_pre; eassumption).
    assert (He1 : wext h h1) by (eapply wext_set; [exact Hc'|reflexivity|intros [|]; discriminate]).
    assert (Hi1 : inv G1 h1).
    { split.
      - pose proof (tr_write sg G1 l g (RCState st false true) Hl1 Hc h (proj1 Hi)) as H. cbn in H.
        destruct Hi as [Hok _]. unfold RefSound.heap_ok in *. eapply Forall2_list_set; [exact Hok|exact Hl1|exact Hc].
      - intros l' st' b Hl'. eapply wst2_ext; [apply pre_refl|exact He1|]. eapply (proj2 Hi l').
        pose proof (nn_write l (RCState st false true) I h) as Hn. cbn in Hn. eapply Hn. exact Hl'. }
    specialize (Hw G1 h1 st g Hc Hi1). unfold bind. destruct (w st h1) as [[st' h2]| | |]; auto.
    destruct Hw as (G2 & Hp2 & He2 & Hi2 & Hsem & Hwst). cbn.
    assert (Hlb : nth_error h1 l = Some (RCState st false true)) by (apply nth_error_list_set_eq; eapply nth_error_lt; eassumption).
    destruct (He2 _ _ Hlb) as (c2 & Hl2 & _ & Hf). rewrite Hf in Hl2 by (right; reflexivity). clear Hf c2.
    assert (He : wext h (list_set h2 l (RCState st' true false))).
    { intros l' c Hcl. destruct (Nat.eq_dec l l') as [<-|Hn].
      + assert (c = RCState st false false) by congruence. subst c. exists (RCState st' true false).
        rewrite nth_error_list_set_eq by (eapply nth_error_lt; eassumption).
        split; [reflexivity|]. split; [reflexivity|]. intros [|]; discriminate.
      + destruct (He1 _ _ Hcl) as (c1 & Hc1 & Hk1 & Hf1). destruct (He2 _ _ Hc1) as (c2 & Hc2 & Hk2 & Hf2).
        exists c2. rewrite nth_error_list_set_neq by assumption. split; [assumption|]. split; [congruence|].
        intros Hfr. specialize (Hf1 Hfr). subst c1. auto. }
    (* evaluated cells of [h2] other than [l] *)
    assert (He3 : forall l' st0 b, nth_error h2 l' = Some (RCState st0 true b) -> l' <> l) by (intros l' st0 b Hx ->; congruence).
    exists G2. split; [assumption|]. split; [exact He|]. split.
    - split.
      + destruct Hi2 as [Hok _]. unfold RefSound.heap_ok in *. eapply Forall2_list_set; [exact Hok|eapply look_pre; [exact Hp2|exact Hl1]|exact Hsem].
      + assert (Hmm : forall l' p, mism h2 l' p -> mism (list_set h2 l (RCState st' true false)) l' p).
        { induction 1 as [l0 st0 sp ps Hx Hy|l0 st0 sp ps i l' p' Hx Ht Hlen Hx1 Hx2 Hm IHm].
          - eapply mism_head; [|exact Hy]. rewrite nth_error_list_set_neq; [exact Hx|]. intros <-. congruence.
          - eapply mism_arg; [|exact Ht|exact Hlen|exact Hx1|exact Hx2|exact IHm]. rewrite nth_error_list_set_neq; [exact Hx|]. intros <-. congruence. }
        assert (Hbb : forall l' p m l1, bnd h2 l' p m l1 -> bnd (list_set h2 l (RCState st' true false)) l' p m l1).
        { induction 1 as [l0 m|l0 st0 sp ps i l' p' m l1 Hx Ht Hlen Hx1 Hx2 Hm IHm]; [constructor|].
          eapply bnd_arg; [|exact Ht|exact Hlen|exact Hx1|exact Hx2|exact IHm]. rewrite nth_error_list_set_neq; [exact Hx|]. intros <-. congruence. }
        assert (Hbl : forall stack r, blocked2 G2 h2 stack r -> blocked2 G2 (list_set h2 l (RCState st' true false)) stack r).
        { intros stack r [H|[(i & l' & p & H1 & H2 & H3)|(m & l1 & l2 & g1 & g2 & (i1 & x1 & p1 & B1 & B2 & B3) & (i2 & x2 & p2 & C1 & C2 & C3) & H3 & H4 & H5)]]; [left; assumption| |].
          - right; left. exists i, l', p. auto.
          - right; right. exists m, l1, l2, g1, g2. split; [exists i1, x1, p1; auto|]. split; [exists i2, x2, p2; auto|]. auto. }
        intros l' st0 b Hl'. destruct (Nat.eq_dec l l') as [<-|Hn].
        * rewrite nth_error_list_set_eq in Hl' by (eapply nth_error_lt; eassumption). injection Hl' as <- _.
          destruct Hwst as [Hf Hb]. split; [assumption|]. eauto.
        * rewrite nth_error_list_set_neq in Hl' by assumption. destruct (proj2 Hi2 _ _ _ Hl') as [Hf Hb]. split; [assumption|]. eauto.
    - exists st'. apply nth_error_list_set_eq. eapply nth_error_lt; eassumption.
  Qed.

  Lemma cz_head n w cv : evals2 w -> (forall st h, wx (w st) h (wst sg)) ->
    (forall G h t u, cz G h (cv t u) (fun _ _ b => if b : bool then conv t u else ~ conv t u)) ->
    forall ctx t stack G h g, st_sem G (RState ctx t stack) g ->
      cz G h (r_head sg n w cv ctx t stack) (fun G' h' st' => st_sem G' st' g /\ wst2 G' h' st').
  Proof.
    intros Hw Hwx Hcv ctx t stack G h g Hst.
    assert (Hstop : match t with Kind | Typ | Pi _ _ => True | _ => False end ->
      cz G h (ret (RState ctx t stack)) (fun G' h' st' => st_sem G' st' g /\ wst2 G' h' st')).
    { intros Ht. apply cz_ret. split; [exact Hst|]. split; [destruct t; try contradiction; exact I|]. cbn. intros c r ->. contradiction. }
    assert (Hlam : forall b, lam_body t = Some b -> cz G h (match stack with
        | [] => ret (RState ctx t stack)
        | l :: stack => th <- r_thunk_new l ;; w (RState (th :: ctx) b stack)
        end) (fun G' h' st' => st_sem G' st' g /\ wst2 G' h' st')).
    { intros b Hb. destruct stack as [|l stack].
      - apply cz_ret. split; [exact Hst|]. split; [destruct t; try discriminate; reflexivity|]. cbn. intros c r ->. discriminate.
      - destruct Hst as (ts & us & Hc & Hs & Hg). cbn in *. inversion Hs as [|? u ? us' Hl Hs']; subst.
        eapply cz_bind; [apply cz_alloc with (g := u); [cbn; eauto using conv_refl|exact I]|]. intros G1 h1 th Hp1 He1 Hth. apply Hw.
        exists (u :: ts), us'. cbn [rs_ctx rs_stack rs_term]. split; [constructor; [assumption|eapply looks_pre; eassumption]|].
        split; [eapply looks_pre; eassumption|]. eapply conv_trans; [|exact Hg]. cbn [apps]. apply conv_apps_head.
        rewrite <- subst1_slist. apply conv_sym. destruct t; try discriminate; injection Hb as <-; cbn [sub];
          [apply conv_beta_lam|apply conv_beta]. }
    destruct t as [| |c|x|t1 t2|a b|b|a b]; cbn [r_head]; try (apply Hstop; exact I).
    - destruct (sg_rules sg c) as [rules|] eqn:Er.
      + pose proof Hst as (ts & us & Hc & Hs & Hg). cbn in *.
        eapply cz_bind; [apply cz_first_match with (us := us)|].
        * apply cz_rwhnf; assumption.
        * apply (wx_rwhnf sg). exact Hwx.
        * exact Hcv.
        * exact Hs.
        * intros G1 h1 [[ctx' r]|] Hp1 He1 [Hf Hno].
          -- destruct Hf as (Hin & Hus & Hle & ts' & vs & Hts' & Hlen & Hinst & Hvs).
             eapply cz_bind; [apply cz_usub|]. intros G2 h2 _ Hp2 _ _. apply Hw.
             exists ts', (skipn (length (sr_args r)) us). cbn.
             split; [eapply looks_pre; eassumption|].
             split; [apply firstn_skipn_looks; eauto using looks_pre, pre_trans|].
             eapply conv_trans; [|exact Hg].
             rewrite <- (firstn_skipn (length (sr_args r)) us) at 2. rewrite apps_app. apply conv_apps_head.
             eapply conv_trans; [apply conv_sym; eapply conv_rule; eassumption|]. apply conv_apps; auto using conv_refl.
          -- apply cz_ret. split; [eapply st_sem_pre; eassumption|]. split; [exact I|]. cbn.
             intros c' r [= <-] (rs & Hrs & Hin & Hus). rewrite Er in Hrs. injection Hrs as <-. apply Hno; auto.
      + apply cz_ret. split; [exact Hst|]. split; [exact I|]. cbn. intros c' r [= <-] (rs & Hrs & _). congruence.
    - destruct Hst as (ts & us & Hc & Hs & Hg). cbn in *. destruct (nth_error ctx x) as [l|] eqn:El.
      + destruct (Forall2_nth_l _ _ _ _ _ Hc El) as (t & Et & Hl).
        eapply cz_bind; [apply cz_force; eassumption|]. intros G1 h1 t' Hp1 He1 Ht'. apply Hw.
        exists [], us. cbn. split; [constructor|]. split; [eapply looks_pre; eassumption|].
        eapply conv_trans; [|exact Hg]. apply conv_apps_head. rewrite (slist_lt _ _ _ Et).
        rewrite sub_id_ext by reflexivity. exact Ht'.
      + apply nth_error_None in El. eapply cz_bind; [apply cz_usub|]. intros G1 h1 m Hp1 He1 [_ ->]. apply cz_ret. split.
        * exists [], us. cbn. split; [constructor|]. split; [eapply looks_pre; eassumption|].
          rewrite slist_ge in Hg by (rewrite <- (Forall2_length Hc); assumption).
          rewrite (Forall2_length Hc). exact Hg.
        * split; [reflexivity|]. cbn. discriminate.
    - apply cz_panic.
    - apply (Hlam b). reflexivity.
    - apply (Hlam b). reflexivity.
  Qed.

  Lemma inv_nil : inv [] [].
  Proof. split; [constructor|]. intros [|l]; discriminate. Qed.

  (** the result of evaluation is convertible and stuck *)
  Lemma whnf_stuck n w t h t' h' : evals2 w -> r_whnf_ n w t h = Ok (t', h') -> conv t' t /\ stuck sg t'.
  Proof.
    intros Hw H.
    assert (Hc : cz [] [] (st <- w (RState [] t []) ;; r_of_state (r_force n) (r_of_rstate n) st) (fun _ _ t' => conv t' t /\ stuck sg t')).
    { eapply cz_bind; [apply Hw with (g := t)|].
      - exists [], []. cbn. split; [constructor|]. split; [constructor|]. rewrite sub_id_ext by reflexivity. apply conv_refl.
      - intros G1 h1 st Hp1 He1 [Hst Hwst]. apply cz_inv. intros Hinv.
        assert (A : cz G1 h1 (r_of_state (r_force n) (r_of_rstate n) st) (fun _ _ t' => conv t' t)).
        { apply cz_lift1; [apply r_of_state_sound; [apply r_force_sound|apply r_force_sound|exact Hst]| |].
          - eapply wx_post; [|apply wx_of_state with (Q := fun _ _ => True); [apply wx_force|]].
            + intros; exact I.
            + intros l h2 _ _. eapply wx_post; [|apply wx_force]. intros; exact I.
          - unfold r_of_state. apply nn_bind.
            + destruct (rs_ctx st); [apply nn_ret|]. apply nn_rsub. intros. apply nn_psubst. apply nn_force.
            + intros t0. apply nn_bind; [apply nn_mapM; apply nn_force|]. intros. apply nn_ret. }
        assert (B : cz G1 h1 (r_of_state (r_force n) (r_of_rstate n) st) (fun _ _ t' => stuck sg t')).
        { eapply cz_post; [|eapply cz_of_state with (g := t) (Q := rb G1 h1); [exact Hst|]].
          - cbn beta. intros G2 h2 t0 _ _ (t1 & us & -> & Hh & Hus). eapply wst2_stuck; eassumption.
          - intros l G2 h2 Hin Hp2 He2. destruct Hst as (ts & us & Hc & Hs & _).
            assert (exists g, look G1 l g) as [g2 Hg2].
            { clear - Hs Hin. induction Hs as [|x y l1 l2 Hxy Hs IHs]; [destruct Hin|]. destruct Hin as [->|Hin]; [eauto|auto]. }
            assert (Hin' : l < length h1).
            { destruct Hinv as [Hok _]. unfold RefSound.heap_ok in Hok. rewrite (Forall2_length Hok). apply nth_error_Some. unfold look in Hg2. congruence. }
            assert (Hlt' : l < length h2).
            { destruct (nth_error h1 l) as [c|] eqn:E; [|apply nth_error_None in E; lia]. destruct (He2 _ _ E) as (c' & E' & _).
              apply nth_error_Some. congruence. }
            eapply cz_post; [|apply cz_readback; exact Hlt']. cbn beta. intros _ _ t0 _ _ Hrb.
            eapply rb_ext; [exact Hp2|exact He2|eauto| |exact Hrb].
            intros p m l1 Hb. clear - Hb Hinv Hg2. revert g2 Hg2. induction Hb as [l m|l st' sp ps i l' p' m l1 Hl' Ht Hlen Hi1 Hi2 Hb IHb]; intros g2 Hg2; [eauto|].
            destruct (inv_look _ _ _ _ Hinv Hl') as (g' & Hg' & (ts & us0 & Hc & Hs & _)).
            destruct (Forall2_nth_l _ _ _ _ _ Hs Hi1) as (g3 & _ & Hg3). eapply IHb; exact Hg3. }
        intros Hi0. specialize (A Hi0). specialize (B Hi0). destruct (r_of_state _ _ st h1) as [[t0 h2]| | |]; auto.
        destruct A as (G2 & ? & ? & ? & ?). destruct B as (G3 & ? & ? & ? & ?). exists G2. auto. }
    specialize (Hc inv_nil). unfold r_whnf_, r_fresh in H. revert H Hc.
    match goal with |- context [match ?m [] with _ => _ end] => destruct (m []) as [[a s]| | |] end; try discriminate.
    intros H Hc. injection H as <- _. destruct Hc as (G' & _ & _ & _ & Hc). exact Hc.
  Qed.

  (** ** Convertibility *)
  Hypothesis Hcr : church_rosser sg.
  Hypothesis Hsafe : eta_safe sg.

  Lemma stuck_cases t : stuck sg t -> (exists b, lam_body t = Some b /\ conv t (ULam b)) \/
    (lam_body t = None /\ exists h us, t = apps h us /\ rigid sg (strip h) (map strip us)).
  Proof.
    intros [h us Hr|a b|b].
    - right. split; [|eauto]. destruct us as [|u us _] using rev_ind; [destruct h; cbn in *; try reflexivity; destruct Hr|].
      rewrite apps_snoc. reflexivity.
    - left. exists b. split; [reflexivity|apply conv_annot].
    - left. exists b. split; [reflexivity|apply conv_refl].
  Qed.
  Lemma rigid_strip_not_app h us : rigid sg (strip h) us -> not_app h.
  Proof. destruct h; cbn; auto. Qed.
  Lemma spine_rigid h us : not_app h -> spine (apps h us) [] = (h, us).
  Proof.
    intros Hn. rewrite spine_apps, app_nil_r. apply (spine_not_app (fun _ => true) h us). destruct h; cbn in *; auto.
  Qed.

  Lemma r_step_complete t u : stuck sg t -> stuck sg u -> conv t u ->
    exists ps, r_step (sg_eta sg) t u = Some ps /\ Forall (fun p => conv (fst p) (snd p)) ps.
  Proof.
    intros Ht Hu Hc. unfold r_step.
    destruct (stuck_cases _ Ht) as [(b1 & E1 & C1)|(E1 & h & us & -> & Hr)];
    destruct (stuck_cases _ Hu) as [(b2 & E2 & C2)|(E2 & k & ws & -> & Hk)]; rewrite E1, E2.
    - eexists. split; [reflexivity|]. constructor; [|constructor]. cbn. apply conv_bodies.
      eapply conv_trans; [apply conv_sym; exact C1|]. eapply conv_trans; [exact Hc|exact C2].
    - assert (Hc' : conv (ULam b1) (apps k ws)) by (eapply conv_trans; [apply conv_sym; exact C1|exact Hc]).
      destruct (sg_eta sg) eqn:He; [|destruct (conv_stuck_lam sg Hcr _ _ _ He Hk Hc')].
      eexists. split; [reflexivity|]. constructor; [|constructor]. apply conv_stuck_body. exact Hc'.
    - assert (Hc' : conv (ULam b2) (apps h us)) by (eapply conv_trans; [apply conv_sym; exact C2|apply conv_sym; exact Hc]).
      destruct (sg_eta sg) eqn:He; [|destruct (conv_stuck_lam sg Hcr _ _ _ He Hr Hc')].
      eexists. split; [reflexivity|]. constructor; [|constructor]. apply conv_stuck_body. exact Hc'.
    - destruct (conv_stuck sg Hsafe Hcr _ _ _ _ Hr Hk Hc) as [Hh Hus].
      pose proof (rigid_strip_not_app _ _ Hr) as Hn1. pose proof (rigid_strip_not_app _ _ Hk) as Hn2.
      assert (Hhc : conv h k).
      { destruct h, k; cbn [heads] in Hh; try contradiction; try discriminate;
          first [apply conv_refl | rewrite Hh; apply conv_refl | destruct Hh; apply conv_pi; assumption]. }
      pose proof (Forall2_length Hus) as Hlen.
      destruct us as [|u us _] using rev_ind; [|destruct ws as [|w ws _] using rev_ind]; [|rewrite app_length in Hlen; cbn in Hlen; lia|].
      + destruct ws as [|w ws]; [|discriminate]. cbn [apps] in *.
        destruct h, k; cbn in Hr, Hk; try contradiction; cbn in Hh; try discriminate; try contradiction.
        * exists []. auto.
        * exists []. auto.
        * injection Hh as ->. rewrite Nat.eqb_refl. exists []. auto.
        * injection Hh as ->. rewrite Nat.eqb_refl. exists []. auto.
        * eexists. split; [reflexivity|]. destruct Hh. constructor; [assumption|]. constructor; [assumption|constructor].
      + pose proof (spine_rigid h (us ++ [u]) Hn1) as S1. pose proof (spine_rigid k (ws ++ [w]) Hn2) as S2.
        rewrite apps_snoc in S1, S2 |- *. rewrite apps_snoc. rewrite S1, S2.
        rewrite Hlen, Nat.eqb_refl. eexists. split; [reflexivity|]. apply Forall_rev. constructor; [assumption|].
        clear - Hus. revert Hus. generalize (us ++ [u]) (ws ++ [w]). intros l l' H. induction H; cbn; constructor; auto.
  Qed.

  Lemma machine_stuck n :
    evals2 (r_state_whnf sg n) /\
    (forall cns h b h', r_conv_loop sg n cns h = Ok (b, h') -> b = false -> ~ Forall (fun p => conv (fst p) (snd p)) cns).
  Proof.
    induction n as [|n [IH1 IH2]]; [split; [intros G h st g H; apply cz_nofuel|discriminate]|]. split.
    - intros G h [ctx t stack] g Hst. cbn [r_state_whnf rs_ctx rs_term rs_stack].
      eapply cz_bind; [apply cz_unwind; eassumption|]. intros G1 h1 [t' stack'] Hp He [Hst' _].
      apply cz_head; auto; [apply wx_machine|].
      intros G2 h2 t1 t2.
      change (cz G2 h2 (r_conv_loop sg n [(t1, t2)]) (fun _ _ b => if b : bool then conv t1 t2 else ~ conv t1 t2)). intros Hi.
      pose proof (wx_machine sg n) as [_ Hwx]. specialize (Hwx [(t1, t2)] h2 (inv_hfi _ _ Hi)).
      pose proof (r_machine_sound sg n) as [_ Hs]. specialize (Hs G2 [(t1, t2)] h2 (proj1 Hi)).
      pose proof (IH2 [(t1, t2)] h2) as Hno.
      assert (Hheap : forall b h', r_conv_loop sg n [(t1, t2)] h2 = Ok (b, h') -> h' = h2).
      { intros b h' Hx. rewrite heapless_conv_loop in Hx. destruct (r_conv_loop sg n [(t1, t2)] []) as [[? ?]| | |]; congruence. }
      destruct (r_conv_loop sg n [(t1, t2)] h2) as [[b h3]| | |]; auto.
      specialize (Hheap b h3 eq_refl). subst h3.
      exists G2. split; [apply pre_refl|]. split; [apply wext_refl|]. split; [assumption|].
      destruct b.
      + destruct Hs as (G3 & _ & _ & Hs). specialize (Hs eq_refl). inversion Hs; subst. assumption.
      + specialize (Hno false h2 eq_refl eq_refl). intros Hc. apply Hno. constructor; [exact Hc|constructor].
    - intros cns h b h'. destruct cns as [|[t u] cns]; [cbn [r_conv_loop]; intros [= <- _]; discriminate|].
      change (r_conv_loop sg (S n) ((t, u) :: cns)) with
        (if tm_eq_dec t u then r_conv_loop sg n cns
         else cn1 <- r_whnf_ n (r_state_whnf sg n) t ;; cn2 <- r_whnf_ n (r_state_whnf sg n) u ;;
              match r_step (sg_eta sg) cn1 cn2 with None => ret false | Some new => r_conv_loop sg n (new ++ cns) end).
      destruct (tm_eq_dec t u) as [<-|Hne].
      + intros H Hb Hall. inversion Hall; subst. eapply IH2; try eassumption. reflexivity.
      + unfold bind at 1. destruct (r_whnf_ n (r_state_whnf sg n) t h) as [[t' h1]| | |] eqn:E1; try discriminate.
        unfold bind at 1. destruct (r_whnf_ n (r_state_whnf sg n) u h1) as [[u' h2]| | |] eqn:E2; try discriminate.
        destruct (whnf_stuck _ _ _ _ _ _ IH1 E1) as [C1 S1]. destruct (whnf_stuck _ _ _ _ _ _ IH1 E2) as [C2 S2].
        intros H Hb Hall. inversion Hall as [|? ? Htu Hrest]; subst. cbn in Htu.
        assert (Hc : conv t' u').
        { eapply conv_trans; [exact C1|]. eapply conv_trans; [exact Htu|]. apply conv_sym. exact C2. }
        destruct (r_step_complete _ _ S1 S2 Hc) as (ps & Eps & Hps). rewrite Eps in H.
        eapply IH2; [exact H|reflexivity|]. apply Forall_app. auto.
  Qed.

  Lemma r_conv_complete n t u h h' : r_convertible sg n t u h = Ok (false, h') -> ~ conv t u.
  Proof.
    intros H Hc. pose proof (proj2 (machine_stuck n) _ _ _ _ H eq_refl) as Hno. apply Hno. constructor; [exact Hc|constructor].
  Qed.
  Lemma r_whnf_stuck n t h t' h' : r_whnf sg n t h = Ok (t', h') -> stuck sg t'.
  Proof. intros H. eapply whnf_stuck; [apply (machine_stuck n)|exact H]. Qed.
End Stuck.
