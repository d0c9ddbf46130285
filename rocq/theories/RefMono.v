(** * Fuel monotonicity of the reference machine *)

From Verif Require Import Base LibMono ModelSubst ModelReduce SpecTerm SpecConv RefMachine.

Lemma rsub_mono f1 f2 : (forall n k, le_m (f1 n k) (f2 n k)) -> forall t k, le_m (rsub f1 t k) (rsub f2 t k).
Proof. intros H t. induction t; intros k; cbn [rsub]; le_auto. Qed.

Lemma r_psubst_mono f1 f2 args n k : (forall l, le_m (f1 l) (f2 l)) -> le_m (r_psubst f1 args n k) (r_psubst f2 args n k).
Proof. intros H. unfold r_psubst. le_auto. Qed.

Lemma r_of_state_mono f1 f2 g1 g2 st :
  (forall l, le_m (f1 l) (f2 l)) -> (forall l, le_m (g1 l) (g2 l)) ->
  le_m (r_of_state f1 g1 st) (r_of_state f2 g2 st).
Proof.
  intros Hf Hg. unfold r_of_state. le_auto. apply rsub_mono. intros. now apply r_psubst_mono.
Qed.

Lemma r_force_mono_S n : (forall l, le_m (r_force n l) (r_force (S n) l)) /\
  (forall l, le_m (r_of_rstate n l) (r_of_rstate (S n) l)).
Proof.
  induction n as [|n [IH1 IH2]].
  - split; intros l; apply le_m_nofuel.
  - split; intros l.
    + change (r_force (S n) l) with
        (bind (r_read l) (fun c => match c with
           | RCThunk (RDone t) => ret t
           | RCThunk (RTodo l') =>
             bind (r_write l (RCThunk RBusy)) (fun _ => bind (r_of_rstate n l') (fun t =>
             bind (r_write l (RCThunk (RDone t))) (fun _ => ret t)))
           | _ => panic end)).
      cbn [r_force]. le_auto.
    + cbn [r_of_rstate]. apply le_m_bind; [apply le_m_refl|]. intros st. apply r_of_state_mono; assumption.
Qed.

Lemma r_force_mono n m l : n <= m -> le_m (r_force n l) (r_force m l).
Proof.
  induction 1; [apply le_m_refl|]. eapply le_m_trans; [eassumption|]. apply r_force_mono_S.
Qed.
Lemma r_of_rstate_mono n m l : n <= m -> le_m (r_of_rstate n l) (r_of_rstate m l).
Proof.
  induction 1; [apply le_m_refl|]. eapply le_m_trans; [eassumption|]. apply r_force_mono_S.
Qed.

Section Match.
  Variables w1 w2 : loc -> RM unit.
  Hypothesis Hw : forall l, le_m (w1 l) (w2 l).

  Lemma r_match_pat_mono : forall p l sb, le_m (r_match_pat w1 l p sb) (r_match_pat w2 l p sb).
  Proof.
    fix IH 1. intros [c ps|m|] l sb; cbn [r_match_pat]; try apply le_m_refl.
    apply le_m_bind; auto. intros _. apply le_m_bind; [apply le_m_refl|]. intros st.
    destruct (rs_term st); try apply le_m_refl.
    destruct (_ && _); try apply le_m_refl.
    generalize (rs_stack st) as stack, sb as sb0. clear sb st.
    induction ps as [|p ps IHps]; intros stack sb; [apply le_m_refl|].
    destruct stack as [|l' stack]; [apply le_m_refl|].
    apply le_m_bind; [apply IH|]. intros [sb'|]; [apply IHps|apply le_m_refl].
  Qed.

  Lemma r_match_pats_mono : forall ps stack sb, le_m (r_match_pats w1 stack ps sb) (r_match_pats w2 stack ps sb).
  Proof.
    induction ps as [|p ps IH]; intros stack sb; cbn; [apply le_m_refl|].
    destruct stack; [apply le_m_refl|]. apply le_m_bind; [apply r_match_pat_mono|].
    intros [sb'|]; [apply IH|apply le_m_refl].
  Qed.

  Variables c1 c2 : tm -> tm -> RM bool.
  Hypothesis Hc : forall t u, le_m (c1 t u) (c2 t u).
  Variables n1 n2 : nat.
  Hypothesis Hn : n1 <= n2.

  Lemma r_all_conv_loop_mono t ls : le_m (r_all_conv_loop c1 n1 t ls) (r_all_conv_loop c2 n2 t ls).
  Proof.
    induction ls as [|l ls IH]; cbn; [apply le_m_refl|].
    apply le_m_bind; [now apply r_force_mono|]. intros.
    apply le_m_bind; [now apply r_of_rstate_mono|]. intros. le_auto.
  Qed.

  Lemma r_flatten_mono sb : le_m (r_flatten c1 n1 sb) (r_flatten c2 n2 sb).
  Proof.
    induction sb as [|ls sb IH]; cbn; [apply le_m_refl|].
    apply le_m_bind; auto. intros [ctx|]; [|apply le_m_refl].
    apply le_m_bind; [|intros; apply le_m_refl].
    destruct ls; cbn; [apply le_m_refl|]. le_auto. apply r_all_conv_loop_mono.
  Qed.

  Lemma r_first_match_mono stack rules :
    le_m (r_first_match w1 c1 n1 stack rules) (r_first_match w2 c2 n2 stack rules).
  Proof.
    induction rules as [|r rules IH]; cbn; [apply le_m_refl|].
    apply le_m_bind; [|intros [ctx|]; [apply le_m_refl|assumption]].
    unfold r_match_flatten. apply le_m_bind.
    - unfold r_match_rule. destruct (_ <? _); [apply le_m_refl|apply r_match_pats_mono].
    - intros [sb|]; [apply r_flatten_mono|apply le_m_refl].
  Qed.
End Match.

Lemma r_fresh_mono {A} (m1 m2 : RM A) : le_m m1 m2 -> le_m (r_fresh m1) (r_fresh m2).
Proof. intros H s. unfold r_fresh. destruct (H []) as [ -> | -> ]; auto. Qed.

Lemma r_whnf__mono n1 n2 w1 w2 t : n1 <= n2 -> (forall st, le_m (w1 st) (w2 st)) ->
  le_m (r_whnf_ n1 w1 t) (r_whnf_ n2 w2 t).
Proof.
  intros Hn Hw. apply r_fresh_mono. apply le_m_bind; auto. intros st.
  apply r_of_state_mono; intros; [apply r_force_mono|apply r_of_rstate_mono]; auto.
Qed.

Lemma r_head_mono sg n1 n2 w1 w2 c1 c2 ctx t stack :
  n1 <= n2 -> (forall st, le_m (w1 st) (w2 st)) -> (forall t u, le_m (c1 t u) (c2 t u)) ->
  le_m (r_head sg n1 w1 c1 ctx t stack) (r_head sg n2 w2 c2 ctx t stack).
Proof.
  intros Hn Hw Hc. unfold r_head. destruct t; try apply le_m_refl.
  - destruct (sg_rules sg c); [|apply le_m_refl].
    apply le_m_bind.
    + apply r_first_match_mono; auto. intros x. unfold r_rwhnf. le_auto.
    + intros [[ctx' r]|]; le_auto.
  - destruct (nth_error ctx n); [|apply le_m_refl].
    apply le_m_bind; [now apply r_force_mono|]. auto.
  - destruct stack; le_auto.
  - destruct stack; le_auto.
Qed.

Lemma r_state_whnf_mono_S sg n :
  (forall st, le_m (r_state_whnf sg n st) (r_state_whnf sg (S n) st)) /\
  (forall cns, le_m (r_conv_loop sg n cns) (r_conv_loop sg (S n) cns)).
Proof.
  induction n as [|n [IH1 IH2]].
  - split; intros; apply le_m_nofuel.
  - split.
    + intros st.
      change (le_m
        (bind (r_unwind (rs_ctx st) (rs_term st) (rs_stack st)) (fun x => let '(t, stack) := x in
           r_head sg n (r_state_whnf sg n) (fun t1 t2 => r_conv_loop sg n [(t1, t2)]) (rs_ctx st) t stack))
        (bind (r_unwind (rs_ctx st) (rs_term st) (rs_stack st)) (fun x => let '(t, stack) := x in
           r_head sg (S n) (r_state_whnf sg (S n)) (fun t1 t2 => r_conv_loop sg (S n) [(t1, t2)]) (rs_ctx st) t stack))).
      apply le_m_bind; [apply le_m_refl|]. intros [t stack]. apply r_head_mono; auto.
    + intros cns.
      change (le_m
        (match cns with
         | [] => ret true
         | (cn1, cn2) :: cns =>
           if tm_eq_dec cn1 cn2 then r_conv_loop sg n cns
           else bind (r_whnf_ n (r_state_whnf sg n) cn1) (fun cn1 =>
                bind (r_whnf_ n (r_state_whnf sg n) cn2) (fun cn2 =>
                match r_step (sg_eta sg) cn1 cn2 with
                | None => ret false
                | Some new => r_conv_loop sg n (new ++ cns)
                end))
         end)
        (match cns with
         | [] => ret true
         | (cn1, cn2) :: cns =>
           if tm_eq_dec cn1 cn2 then r_conv_loop sg (S n) cns
           else bind (r_whnf_ (S n) (r_state_whnf sg (S n)) cn1) (fun cn1 =>
                bind (r_whnf_ (S n) (r_state_whnf sg (S n)) cn2) (fun cn2 =>
                match r_step (sg_eta sg) cn1 cn2 with
                | None => ret false
                | Some new => r_conv_loop sg (S n) (new ++ cns)
                end))
         end)).
      destruct cns as [|[cn1 cn2] cns]; [apply le_m_refl|].
      destruct (tm_eq_dec cn1 cn2); auto.
      apply le_m_bind; [apply r_whnf__mono; auto|]. intros w1.
      apply le_m_bind; [apply r_whnf__mono; auto|]. intros w2.
      destruct (r_step _ _ _); [auto|apply le_m_refl].
Qed.

Lemma r_state_whnf_mono sg n m st : n <= m -> le_m (r_state_whnf sg n st) (r_state_whnf sg m st).
Proof.
  induction 1; [apply le_m_refl|]. eapply le_m_trans; [eassumption|]. apply r_state_whnf_mono_S.
Qed.
Lemma r_conv_loop_mono sg n m cns : n <= m -> le_m (r_conv_loop sg n cns) (r_conv_loop sg m cns).
Proof.
  induction 1; [apply le_m_refl|]. eapply le_m_trans; [eassumption|]. apply r_state_whnf_mono_S.
Qed.
Lemma r_whnf_mono sg n m t : n <= m -> le_m (r_whnf sg n t) (r_whnf sg m t).
Proof. intros H. apply r_whnf__mono; auto. intros. now apply r_state_whnf_mono. Qed.
