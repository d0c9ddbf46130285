(** * The reference machine depends only on the types and rules that the signature gives *)

From Verif Require Import Base LibMono ModelSubst ModelReduce SpecTerm SpecConv RefMachine RefMono RefInfer.

Open Scope sm_scope.

Section Ext.
  Variables sg1 sg2 : sig.
  Hypothesis Ht : forall c, sg_type sg1 c = sg_type sg2 c.
  Hypothesis Hr : forall c, sg_rules sg1 c = sg_rules sg2 c.
  Hypothesis He : sg_eta sg1 = sg_eta sg2.

  Lemma r_head_ext n w1 w2 c1 c2 ctx t stack :
    (forall st, le_m (w1 st) (w2 st)) -> (forall t u, le_m (c1 t u) (c2 t u)) ->
    le_m (r_head sg1 n w1 c1 ctx t stack) (r_head sg2 n w2 c2 ctx t stack).
  Proof.
    intros Hw Hc.
    assert (E : r_head sg2 n w2 c2 ctx t stack = r_head sg1 n w2 c2 ctx t stack) by (unfold r_head; destruct t; try reflexivity; rewrite Hr; reflexivity).
    rewrite E. apply r_head_mono; auto.
  Qed.
  Lemma r_state_whnf_ext n :
    (forall st, le_m (r_state_whnf sg1 n st) (r_state_whnf sg2 n st)) /\
    (forall cns, le_m (r_conv_loop sg1 n cns) (r_conv_loop sg2 n cns)).
  Proof.
    induction n as [|n [IH1 IH2]]; [split; intros; apply le_m_nofuel|]. split.
    - intros st. cbn [r_state_whnf]. apply le_m_bind; [apply le_m_refl|]. intros [t stack]. apply r_head_ext; auto.
    - intros cns. cbn [r_conv_loop]. destruct cns as [|[cn1 cn2] cns]; [apply le_m_refl|].
      destruct (tm_eq_dec cn1 cn2); auto.
      apply le_m_bind; [apply r_whnf__mono; auto|]. intros w1.
      apply le_m_bind; [apply r_whnf__mono; auto|]. intros w2. rewrite He.
      destruct (r_step _ _ _); [auto|apply le_m_refl].
  Qed.
  Lemma r_whnf_ext n t : le_m (r_whnf sg1 n t) (r_whnf sg2 n t).
  Proof. apply r_whnf__mono; auto. apply r_state_whnf_ext. Qed.
  Lemma r_convertible_ext n t u : le_m (r_convertible sg1 n t u) (r_convertible sg2 n t u).
  Proof. apply r_state_whnf_ext. Qed.
  Lemma r_infer_s_ext w1 w2 c1 c2 : (forall t, le_m (w1 t) (w2 t)) -> (forall lc t u, le_m (c1 lc t u) (c2 lc t u)) ->
    forall t lc, le_m (r_infer_s sg1 w1 c1 t lc) (r_infer_s sg2 w2 c2 t lc).
  Proof.
    intros Hw Hc t. induction t; intros lc; cbn [r_infer_s]; unfold r_infer_arg; rewrite ?Ht; le_auto.
  Qed.
  Lemma r_infer_ext n :
    (forall lc t, le_m (r_infer sg1 n lc t) (r_infer sg2 n lc t)) /\
    (forall lc t ty, le_m (r_check sg1 n lc t ty) (r_check sg2 n lc t ty)).
  Proof.
    pose proof r_whnf_ext as Hw. pose proof r_convertible_ext as Hc.
    induction n as [|n [IH1 IH2]]; [split; intros; apply le_m_nofuel|]. split.
    - intros lc t. rewrite !r_infer_unfold. apply r_infer_s_ext; auto.
    - intros lc t ty. cbn [r_check]. destruct t; le_auto.
  Qed.
End Ext.
