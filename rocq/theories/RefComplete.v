(** * Terms that are typable in two modes are rejected only for want of a sort *)

From Coq Require Import List Arith Lia Bool.
From Verif Require Import Base ModelTerm ModelGctx ModelCommand ModelSubst ModelReduce ModelInfer
  SpecTerm SpecConv SpecConvFacts SpecBidir SpecWhnf SpecRed RedConfl EtaConfl RedStuck RefMachine RefSound RefStuck RefInfer.
Import ListNotations.
Open Scope sm_scope.

(** ** Evaluation and convertibility never return errors *)
Definition ne {A} (m : RM A) : Prop := forall h e, m h <> Err e.
Lemma ne_ret {A} (a : A) : ne (ret a).
Proof. intros h e. discriminate. Qed.
Lemma ne_panic {A} : ne (@panic heap kerror A).
Proof. intros h e. discriminate. Qed.
Lemma ne_nofuel {A} : ne (@nofuel heap kerror A).
Proof. intros h e. discriminate. Qed.
Lemma ne_bind {A B} (m : RM A) (k : A -> RM B) : ne m -> (forall a, ne (k a)) -> ne (bind m k).
Proof. intros Hm Hk h e. unfold bind. specialize (Hm h). destruct (m h) as [[a h']| | |]; try discriminate; [apply Hk|destruct (Hm _ eq_refl)]. Qed.
Lemma ne_alloc c : ne (r_alloc c).
Proof. intros h e. discriminate. Qed.
Lemma ne_read l : ne (r_read l).
Proof. intros h e. unfold r_read. destruct (nth_error h l); discriminate. Qed.
Lemma ne_write l c : ne (r_write l c).
Proof. intros h e. discriminate. Qed.
Lemma ne_usub n k : ne (r_usub n k).
Proof. unfold r_usub. destruct (k <=? n); [apply ne_ret|apply ne_panic]. Qed.
Lemma ne_fresh {A} (m : RM A) : ne m -> ne (r_fresh m).
Proof. intros H h e. unfold r_fresh. specialize (H []). destruct (m []) as [[? ?]| | |]; try discriminate; destruct (H _ eq_refl). Qed.
Create HintDb ne.
Global Hint Resolve ne_ret ne_panic ne_nofuel ne_alloc ne_read ne_write ne_usub : ne.
Ltac ne_auto :=
  repeat first
    [ solve [eauto with ne]
    | apply ne_bind; [|intros ?]
    | match goal with |- ne (match ?x with _ => _ end) => destruct x end
    | match goal with |- ne (let '_ := ?x in _) => destruct x end ].

Lemma ne_borrow l : ne (r_borrow l).
Proof. unfold r_borrow. ne_auto. Qed.
Lemma ne_mapM {A B} (f : A -> RM B) l : (forall a, ne (f a)) -> ne (mapM f l).
Proof. intros H. induction l as [|a l IH]; cbn [mapM]; ne_auto. Qed.
Lemma ne_rsub f t : (forall n k, ne (f n k)) -> forall k, ne (rsub f t k).
Proof. intros H. induction t; intros k; cbn [rsub]; ne_auto. Qed.
Lemma ne_force n : (forall l, ne (r_force n l)) /\ (forall l, ne (r_of_rstate n l)).
Proof.
  induction n as [|n [IH1 IH2]]; [split; intros; apply ne_nofuel|]. split; intros l; cbn [r_force r_of_rstate].
  - ne_auto.
  - apply ne_bind; [apply ne_borrow|]. intros st. unfold r_of_state. apply ne_bind.
    + destruct (rs_ctx st); [apply ne_ret|]. apply ne_rsub. intros. unfold r_psubst. ne_auto.
    + intros t. apply ne_bind; [apply ne_mapM; apply IH2|]. intros. apply ne_ret.
Qed.
Lemma ne_of_state n st : ne (r_of_state (r_force n) (r_of_rstate n) st).
Proof.
  unfold r_of_state. apply ne_bind.
  - destruct (rs_ctx st); [apply ne_ret|]. apply ne_rsub. intros. unfold r_psubst. pose proof (proj1 (ne_force n)). ne_auto.
  - intros t. apply ne_bind; [apply ne_mapM; apply ne_force|]. intros. apply ne_ret.
Qed.
Section Match.
  Variable rw : loc -> RM unit.
  Hypothesis Hrw : forall l, ne (rw l).
  Lemma ne_match_pat p : forall l sb, ne (r_match_pat rw l p sb).
  Proof.
    induction p as [c ps IH|m|] using pat_ind'; intros l sb; cbn [r_match_pat]; [|apply ne_ret|apply ne_ret].
    apply ne_bind; [apply Hrw|]. intros _. apply ne_bind; [apply ne_borrow|]. intros st. destruct (rs_term st); try apply ne_ret.
    destruct (_ && _); [|apply ne_ret]. generalize (rs_stack st). revert sb.
    induction IH as [|p ps Hp Hps IHps]; intros sb [|l1 stack]; try apply ne_ret.
    apply ne_bind; [apply Hp|]. intros [sb'|]; [apply IHps|apply ne_ret].
  Qed.
  Lemma ne_match_pats ps : forall stack sb, ne (r_match_pats rw stack ps sb).
  Proof.
    induction ps as [|p ps IH]; intros [|l stack] sb; cbn [r_match_pats]; try apply ne_ret.
    apply ne_bind; [apply ne_match_pat|]. intros [sb'|]; [apply IH|apply ne_ret].
  Qed.
  Variable cv : tm -> tm -> RM bool.
  Hypothesis Hcv : forall t u, ne (cv t u).
  Variable n : nat.
  Lemma ne_all_conv_loop ls : forall th, ne (r_all_conv_loop cv n th ls).
  Proof. pose proof (ne_force n) as [? ?]. induction ls as [|l ls IH]; intros th; cbn [r_all_conv_loop]; ne_auto. Qed.
  Lemma ne_flatten sb : ne (r_flatten cv n sb).
  Proof.
    induction sb as [|ls sb IH]; cbn [r_flatten]; [apply ne_ret|]. apply ne_bind; [exact IH|]. intros [ctx|]; [|apply ne_ret].
    apply ne_bind; [|intros [th|]; apply ne_ret]. destruct ls; cbn [r_all_conv]; [apply ne_ret|].
    apply ne_bind; [apply ne_alloc|]. intros. apply ne_all_conv_loop.
  Qed.
  Lemma ne_first_match stack rules : ne (r_first_match rw cv n stack rules).
  Proof.
    induction rules as [|r rules IH]; cbn [r_first_match]; [apply ne_ret|]. apply ne_bind.
    - unfold r_match_flatten, r_match_rule. apply ne_bind; [destruct (_ <? _); [apply ne_ret|apply ne_match_pats]|].
      intros [sb|]; [apply ne_flatten|apply ne_ret].
    - intros [ctx|]; [apply ne_ret|exact IH].
  Qed.
End Match.
Lemma ne_unwind ctx t : forall stack, ne (r_unwind ctx t stack).
Proof. induction t; intros stack; cbn [r_unwind]; try apply ne_ret. apply ne_bind; [apply ne_alloc|]. intros. apply IHt1. Qed.
Lemma ne_rwhnf w l : (forall st, ne (w st)) -> ne (r_rwhnf w l).
Proof. intros H. unfold r_rwhnf. ne_auto. Qed.
Lemma ne_machine sg n : (forall st, ne (r_state_whnf sg n st)) /\ (forall cns, ne (r_conv_loop sg n cns)).
Proof.
  induction n as [|n [IH1 IH2]]; [split; intros; apply ne_nofuel|]. split.
  - intros [ctx t stack]. cbn [r_state_whnf rs_ctx rs_term rs_stack]. apply ne_bind; [apply ne_unwind|]. intros [t' stack'].
    unfold r_head. destruct t'; try apply ne_ret; try apply ne_panic.
    + destruct (sg_rules sg c) as [rs|]; [|apply ne_ret]. apply ne_bind; [|intros [[ctx' r]|]; ne_auto].
      apply ne_first_match; [intros; apply ne_rwhnf; exact IH1|]. intros. apply (IH2 [(t0, u)]).
    + pose proof (proj1 (ne_force n)). ne_auto.
    + unfold r_thunk_new. ne_auto.
    + unfold r_thunk_new. ne_auto.
  - intros [|[t u] cns]; [apply ne_ret|].
    change (ne (if tm_eq_dec t u then r_conv_loop sg n cns
         else cn1 <- r_whnf_ n (r_state_whnf sg n) t ;; cn2 <- r_whnf_ n (r_state_whnf sg n) u ;;
              match r_step (sg_eta sg) cn1 cn2 with None => ret false | Some new => r_conv_loop sg n (new ++ cns) end)).
    assert (Hw : forall t, ne (r_whnf_ n (r_state_whnf sg n) t)).
    { intros t0. apply ne_fresh. apply ne_bind; [apply IH1|]. intros. apply ne_of_state. }
    destruct (tm_eq_dec t u); [apply IH2|]. apply ne_bind; [apply Hw|]. intros t'. apply ne_bind; [apply Hw|]. intros u'.
    destruct (r_step _ _ _); [apply IH2|apply ne_ret].
Qed.
Lemma ne_whnf sg n t : ne (r_whnf sg n t).
Proof. apply ne_fresh. apply ne_bind; [apply ne_machine|]. intros. apply ne_of_state. Qed.
Lemma ne_convertible sg n t u : ne (r_convertible sg n t u).
Proof. apply ne_machine. Qed.

(** ** Completeness *)
Section Complete.
  Variable sg : sig.
  Hypothesis Hcr : church_rosser sg.
  Hypothesis Heta : sg_eta sg = false.
  Notation conv := (conv sg).

  Definition sort_error (e : kerror) : Prop := e = BindNoType \/ e = SortExpected \/ e = UnexpectedKind.

  (** results of computations that start with an arbitrary heap *)
  Definition okc {A} (m : RM A) (P : A -> Prop) : Prop :=
    forall h, match m h with
              | Ok (a, _) => P a
              | Err e => sort_error e
              | _ => True
              end.
  Lemma okc_ret {A} (a : A) (P : A -> Prop) : P a -> okc (ret a) P.
  Proof. intros H h. exact H. Qed.
  Lemma okc_fail {A} e (P : A -> Prop) : sort_error e -> okc (fail e) P.
  Proof. intros H h. exact H. Qed.
  Lemma okc_nofuel {A} (P : A -> Prop) : okc nofuel P.
  Proof. intros h. exact I. Qed.
  Lemma okc_bind {A B} (m : RM A) (k : A -> RM B) P Q : okc m P -> (forall a, P a -> okc (k a) Q) -> okc (bind m k) Q.
  Proof. intros Hm Hk h. unfold bind. specialize (Hm h). destruct (m h) as [[a h']| | |]; auto. apply Hk. exact Hm. Qed.
  Lemma okc_post {A} (m : RM A) (P Q : A -> Prop) : okc m P -> (forall a, P a -> Q a) -> okc m Q.
  Proof. intros Hm Hk h. specialize (Hm h). destruct (m h) as [[a h']| | |]; auto. Qed.

  Lemma okc_whnf n T A B : conv T (Pi A B) -> okc (r_whnf sg n T) (fun t => exists A' B', t = Pi A' B' /\ conv A A' /\ conv B B').
  Proof.
    intros Hc h. pose proof (ne_whnf sg n T h) as He. destruct (r_whnf sg n T h) as [[t' h']|e| |] eqn:E; auto; [|destruct (He e eq_refl)].
    pose proof (r_whnf_stuck sg Hcr (eta_off_safe sg Heta) _ _ _ _ _ E) as Hs. pose proof (r_whnf_sound _ _ _ _ _ _ E) as Hw.
    assert (Hc' : conv t' (Pi A B)) by (eapply conv_trans; [apply conv_sym; exact Hw|exact Hc]).
    assert (Hh : heads sg t' (Pi A B)).
    { clear - Hcr Heta Hs Hc'. destruct Hs as [k us Hk|a b|b].
      - change (Pi A B) with (apps (Pi A B) []) in Hc'. destruct (conv_stuck sg (eta_off_safe sg Heta) Hcr k us (Pi A B) [] Hk I Hc') as [H1 H2].
        inversion H2; subst. exact H1.
      - exfalso. eapply (conv_stuck_lam sg Hcr b (Pi A B) [] Heta); [exact I|]. eapply conv_trans; [apply conv_sym; apply conv_annot|exact Hc'].
      - exfalso. eapply (conv_stuck_lam sg Hcr b (Pi A B) [] Heta); [exact I|exact Hc']. }
    destruct t'; cbn in Hh; try contradiction. destruct Hh. eexists _, _. split; [reflexivity|]. split; apply conv_sym; assumption.
  Qed.
  Lemma okc_convertible n t u : eta_safe sg -> conv t u -> okc (r_convertible sg n t u) (fun b => b = true).
  Proof.
    intros Hsafe Hc h. pose proof (ne_convertible sg n t u h) as He. destruct (r_convertible sg n t u h) as [[[|] h']|e| |] eqn:E; auto; [|destruct (He e eq_refl)].
    destruct (r_conv_complete sg Hcr Hsafe _ _ _ _ _ E Hc).
  Qed.

  Lemma Forall2_nth_ex {A B} (R : A -> B -> Prop) l l' : Forall2 R l l' -> forall n a, nth_error l n = Some a ->
    exists b, nth_error l' n = Some b /\ R a b.
  Proof. induction 1; intros [|n] a; cbn; try discriminate; [intros [= <-]; eauto|auto]. Qed.

  Lemma checks_lam_inv G A t T : checks sg G (Lam A t) T ->
    exists A' B K, conv T (Pi A' B) /\ infers sg G A K /\ conv A A' /\ checks sg (A' :: G) t B.
  Proof.
    intros H. inversion H as [? ? K ? ? A' B H1 H2 H3 H4| |? ? A0 ? H1 H2]; subst; [eauto 10|].
    inversion H1; subst. exists A, B, Typ. split; [apply conv_sym; assumption|]. split; [assumption|]. split; [apply conv_refl|].
    eapply chk_infer; [eassumption|apply conv_refl].
  Qed.
  Lemma checks_ulam_inv G t T : checks sg G (ULam t) T -> exists A B, conv T (Pi A B) /\ checks sg (A :: G) t B.
  Proof. intros H. inversion H as [|? ? ? A B H1 H2|? ? A0 ? H1 H2]; subst; [eauto|inversion H1]. Qed.
  Lemma checks_other_inv G t T : checks sg G t T -> match t with Lam _ _ | ULam _ => False | _ => True end ->
    exists A, infers sg G t A /\ conv A T.
  Proof. intros H Ht. inversion H; subst; try contradiction. eauto. Qed.

  Lemma complete n :
    (forall G G' t A, Forall2 conv G G' -> infers sg G t A -> okc (r_infer sg n G' t) (fun B => conv A B)) /\
    (forall G G' t A A', Forall2 conv G G' -> checks sg G t A -> conv A A' -> okc (r_check sg n G' t A') (fun b => b = true)).
  Proof.
    induction n as [|n [IH1 IH2]]; [split; intros; apply okc_nofuel|]. split.
    - intros G G' t A HG Ht. rewrite r_infer_unfold. revert G G' A HG Ht.
      induction t as [| |c|x|t IHt u IHu|a IHa t IHt|t IHt|a IHa b IHb]; intros G G' A HG Ht; cbn [r_infer_s].
      + inversion Ht.
      + inversion Ht; subst. apply okc_ret. apply conv_refl.
      + inversion Ht as [|? ? ? Hc| | | |]; subst. rewrite Hc. apply okc_ret. apply conv_refl.
      + inversion Ht as [| |? ? A0 Hx| | |]; subst. destruct (Forall2_nth_ex _ _ _ HG _ _ Hx) as (A' & Hx' & Hc).
        rewrite Hx'. apply okc_ret. apply conv_lift. exact Hc.
      + inversion Ht as [| | |? ? ? T A0 B H1 H2 H3| |]; subst.
        eapply okc_bind; [eapply IHt; eassumption|]. intros T' HT. cbn beta in HT. unfold r_infer_arg.
        eapply okc_bind; [apply okc_whnf with (A := A0) (B := B); eapply conv_trans; [apply conv_sym; exact HT|exact H2]|].
        intros ? (A' & B' & -> & HA & HB).
        eapply okc_bind; [eapply IH2; eassumption|]. intros ? ->. apply okc_ret. apply conv_subst1; [apply conv_refl|exact HB].
      + inversion Ht as [| | | |? ? ? B H1 H2 H3|]; subst.
        eapply okc_bind; [eapply IHa; eassumption|]. intros k Hk.
        destruct k; try (apply okc_fail; left; reflexivity).
        eapply okc_bind; [eapply IHt; [|exact H2]; constructor; [apply conv_refl|exact HG]|]. intros B' HB. cbn beta in HB.
        destruct B'; try (apply okc_fail; right; right; reflexivity); apply okc_ret; (apply conv_pi; [apply conv_refl|exact HB]).
      + inversion Ht.
      + inversion Ht as [| | | | |? ? B s H1 H2 H3]; subst.
        eapply okc_bind; [eapply IHa; eassumption|]. intros k Hk.
        destruct k; try (apply okc_fail; left; reflexivity).
        eapply okc_bind; [eapply IHb; [|exact H2]; constructor; [apply conv_refl|exact HG]|]. intros B' HB. cbn beta in HB.
        destruct B'; try (apply okc_fail; right; left; reflexivity); apply okc_ret; exact HB.
    - intros G G' t A A' HG Ht HA.
      assert (Hother : match t with Lam _ _ | ULam _ => False | _ => True end ->
        okc (ty' <- r_infer sg n G' t ;; r_convertible sg n ty' A') (fun b => b = true)).
      { intros Hne. destruct (checks_other_inv _ _ _ Ht Hne) as (T & HT & Hc).
        eapply okc_bind; [eapply IH1; eassumption|]. intros T' HT'. cbn beta in HT'. apply okc_convertible; [apply eta_off_safe; exact Heta|].
        eapply conv_trans; [apply conv_sym; exact HT'|]. eapply conv_trans; [exact Hc|exact HA]. }
      destruct t as [| |c|x|t u|a t|t|a b]; try (apply Hother; exact I); clear Hother.
      + destruct (checks_lam_inv _ _ _ _ Ht) as (A1 & B1 & K & H1 & H2 & H3 & H4).
        change (okc (ty <- r_whnf sg n A' ;;
          match ty with
          | Pi ta tb => r_infer sg n G' a ;;; ok <- r_convertible sg n a ta ;; if ok : bool then r_check sg n (ta :: G') t tb else ret false
          | _ => fail ProductExpected
          end) (fun b => b = true)).
        eapply okc_bind; [apply okc_whnf with (A := A1) (B := B1); eapply conv_trans; [apply conv_sym; exact HA|exact H1]|].
        intros ? (A2 & B2 & -> & HA2 & HB2).
        eapply okc_bind; [eapply IH1; eassumption|]. intros _ _.
        eapply okc_bind; [apply okc_convertible; [apply eta_off_safe; exact Heta|eapply conv_trans; [exact H3|exact HA2]]|]. intros ? ->.
        eapply IH2; [|exact H4|exact HB2]. constructor; assumption.
      + destruct (checks_ulam_inv _ _ _ Ht) as (A1 & B1 & H1 & H2).
        change (okc (ty <- r_whnf sg n A' ;;
          match ty with Pi ta tb => r_check sg n (ta :: G') t tb | _ => fail ProductExpected end) (fun b => b = true)).
        eapply okc_bind; [apply okc_whnf with (A := A1) (B := B1); eapply conv_trans; [apply conv_sym; exact HA|exact H1]|].
        intros ? (A2 & B2 & -> & HA2 & HB2).
        eapply IH2; [|exact H2|exact HB2]. constructor; assumption.
  Qed.
End Complete.
