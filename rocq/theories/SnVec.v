(** * All well-typed terms over numbers with addition and vectors are strongly normalising

    By reducibility, where a type is interpreted according to its shape. *)

From Coq Require Import List Arith Lia Bool.
From Verif Require Import SpecTerm SpecConv SpecConvFacts SpecWhnf SpecRed SpecSN SpecType SpecDomain RedConfl EtaConfl RedStuck RedSN TypeFacts DomFacts.
Import ListNotations.

Section Vec.
  Variable sg : sig.
  Notation conv := (conv sg).
  Notation red := (red sg).
  Notation reds := (reds sg).
  Notation sn := (sn sg).
  Notation wt := (well_typed sg).
  Notation nat_t := (Const 0).
  Notation zero_t := (Const 1).
  Notation succ_t t := (App (Const 2) t).
  Notation plus_t t u := (App (App (Const 3) t) u).
  Notation vec_t t := (App (Const 4) t).

  Hypothesis Hcr : church_rosser sg.
  Hypothesis Hpi : pi_injective sg.
  Hypothesis Hrules : forall c rs r s ts, sg_rules sg c = Some rs -> In r rs -> usable r -> Forall2 (inst s) (sr_args r) ts ->
    c = 3 /\ ((exists v, ts = [zero_t; v] /\ sub s (strip (sr_rhs r)) = v) \/
              (exists u v, ts = [succ_t u; v] /\ sub s (strip (sr_rhs r)) = succ_t (plus_t u v))).

  (** ** Steps *)
  Lemma red_inv t u : red t u ->
    match t with
    | App t1 t2 => (exists b, t1 = ULam b /\ u = subst1 t2 b) \/ (exists t', red t1 t' /\ u = App t' t2) \/ (exists t', red t2 t' /\ u = App t1 t') \/
        (t1 = App (Const 3) zero_t /\ u = t2) \/ (exists x, t1 = App (Const 3) (succ_t x) /\ u = succ_t (plus_t x t2))
    | ULam b => exists b', red b b' /\ u = ULam b'
    | Pi a b => (exists a', red a a' /\ u = Pi a' b) \/ (exists b', red b b' /\ u = Pi a b')
    | Lam _ _ => True
    | _ => False
    end.
  Proof.
    intros H. destruct H; eauto 8.
    destruct (Hrules _ _ _ _ _ H H0 H1 H2) as [-> [(v & -> & ->)|(x & v & -> & ->)]]; cbn [apps]; eauto 10.
  Qed.
  (** the head of the term is a symbol with rules *)
  Definition active (t : tm) : Prop := head t = Const 3.
  Definition neutral (t : tm) : Prop := (forall b, t <> ULam b) /\ ~ active t.

  Lemma sn_step t u : sn t -> red t u -> sn u.
  Proof. intros [H]. apply H. Qed.
  Lemma sn_app_l t u : sn (App t u) -> sn t.
  Proof. intros H. eapply sn_below; [exact H|]. apply below_sub. constructor. Qed.
  Lemma red_sub s t t' : red t t' -> red (sub s t) (sub s t').
  Proof.
    intros H. revert s. induction H; intros q; cbn [sub].
    - rewrite sub_subst1. apply red_beta.
    - rewrite sub_apps. cbn [sub]. rewrite sub_sub. eapply red_rule; try eassumption.
      clear - H2. induction H2; cbn; constructor; [apply inst_sub; assumption|assumption].
    - apply red_appl. auto.
    - apply red_appr. auto.
    - apply red_ulam. auto.
    - apply red_lama. auto.
    - apply red_lamb. auto.
    - apply red_pil. auto.
    - apply red_pir. auto.
  Qed.
  Lemma sn_unsub s t : sn (sub s t) -> sn t.
  Proof.
    intros H. remember (sub s t) as v eqn:E. revert t E. induction H as [v _ IH]. intros t ->. constructor. intros u Hu.
    eapply IH; [apply red_sub; exact Hu|reflexivity].
  Qed.
  Lemma sn_ulam t : sn t -> sn (ULam t).
  Proof. induction 1 as [t _ IH]. constructor. intros u Hu. apply red_inv in Hu. destruct Hu as (b' & Hb & ->). auto. Qed.
  Lemma sn_pi a : sn a -> forall b, sn b -> sn (Pi a b).
  Proof.
    induction 1 as [a Ha IHa]. intros b Hb. induction Hb as [b Hb IHb]. constructor. intros u Hu.
    apply red_inv in Hu. destruct Hu as [(a' & H & ->)|(b' & H & ->)]; [apply IHa; [exact H|constructor; exact Hb]|auto].
  Qed.

  (** ** Types and their shapes *)
  Inductive ty := o | star | box | arr (a b : ty).
  Inductive shape : tm -> ty -> Prop :=
  | sh_nat : shape nat_t o
  | sh_vec t : shape (vec_t t) o
  | sh_typ : shape Typ star
  | sh_kind : shape Kind box
  | sh_pi A B a b : shape A a -> shape B b -> shape (Pi A B) (arr a b).
  Fixpoint small (a : ty) : Prop := match a with o => True | arr a b => small a /\ small b | _ => False end.
  Definition isty (T : tm) (a : ty) : Prop := exists T', conv T T' /\ shape T' a.

  Lemma shape_fun T a : shape T a -> forall b, shape T b -> a = b.
  Proof. induction 1; intros c Hc; inversion Hc; subst; f_equal; auto. Qed.
  Lemma shape_strip T a : shape T a -> shape (strip T) a.
  Proof. induction 1; cbn; constructor; assumption. Qed.
  Lemma shape_sub T a : shape T a -> forall s, shape (sub s T) a.
  Proof. induction 1; intros s; cbn; constructor; auto. Qed.
  Lemma shape_red T a : shape T a -> forall U, red T U -> shape U a.
  Proof.
    induction 1; intros U HU; apply red_inv in HU; try contradiction.
    - destruct HU as [(b & E & _)|[(t' & H & ->)|[(t' & H & ->)|[(E & _)|(x & E & _)]]]]; try discriminate; [apply red_inv in H; contradiction|constructor].
    - destruct HU as [(a' & H1 & ->)|(b' & H1 & ->)]; constructor; auto.
  Qed.
  Lemma shape_reds T U a : shape T a -> reds T U -> shape U a.
  Proof. intros H Hr. induction Hr; eauto using shape_red. Qed.
  Lemma shape_eta T a : shape T a -> forall U, eta_red T U -> shape U a.
  Proof.
    induction 1; intros U HU; inversion HU; subst; try (constructor; auto; fail).
    match goal with H : eta_red (Const _) _ |- _ => inversion H end.
  Qed.
  Lemma shape_redxs T U a : shape T a -> redxs sg T U -> shape U a.
  Proof. intros H Hr. induction Hr; eauto using shape_red, shape_eta. Qed.
  Lemma isty_shape T a : shape T a -> isty T a.
  Proof. intros H. exists T. split; [apply conv_refl|exact H]. Qed.
  Lemma isty_conv T U a : isty T a -> conv T U -> isty U a.
  Proof. intros (T' & H1 & H2) H. exists T'. split; [eapply conv_trans; [apply conv_sym; exact H|exact H1]|exact H2]. Qed.
  Lemma isty_fun T a b : isty T a -> isty T b -> a = b.
  Proof.
    intros (T1 & C1 & S1) (T2 & C2 & S2). assert (C : conv T1 T2) by (eapply conv_trans; [apply conv_sym; exact C1|exact C2]).
    destruct (Hcr _ _ C) as (v & R1 & R2). apply (shape_fun v); [apply (shape_redxs (strip T1))|apply (shape_redxs (strip T2))]; try assumption; apply shape_strip; assumption.
  Qed.
  Lemma isty_sub s T a : isty T a -> isty (sub s T) a.
  Proof. intros (T' & H1 & H2). exists (sub s T'). split; [apply conv_sub; exact H1|apply shape_sub; exact H2]. Qed.
  Lemma isty_ren r T a : isty T a -> isty (ren r T) a.
  Proof. rewrite ren_as_sub. apply isty_sub. Qed.
  Lemma isty_pi A B a b : isty A a -> isty B b -> isty (Pi A B) (arr a b).
  Proof. intros (A' & H1 & H2) (B' & H3 & H4). exists (Pi A' B'). split; [apply conv_pi; assumption|constructor; assumption]. Qed.
  Lemma isty_pi_inv A B c : isty (Pi A B) c -> exists a b, c = arr a b /\ isty A a /\ isty B b.
  Proof.
    intros (T & C & S). destruct (Hcr _ _ C) as (v & R1 & R2). apply shape_strip in S. pose proof (shape_redxs _ _ _ S R2) as Sv.
    assert (exists A' B', v = Pi A' B') as (A' & B' & ->).
    { cbn [strip] in R1. apply redxs_pi_inv in R1. destruct R1 as (A' & B' & -> & _). eauto. }
    inversion Sv; subst. exists a, b. split; [reflexivity|].
    apply redxs_conv in R1. assert (C' : conv (Pi A B) (Pi A' B')) by (eapply conv_trans; [apply conv_strip|exact R1]).
    destruct (Hpi _ _ _ _ C') as [CA CB]. split; [exists A'|exists B']; split; assumption.
  Qed.

  (** ** Reducible terms *)
  Fixpoint RED (a : ty) (t : tm) : Prop :=
    match a with
    | o => sn t
    | star => sn t /\ exists b, isty t b /\ small b
    | box => sn t /\ exists b, isty t b
    | arr a b => sn t /\ forall u, RED a u -> RED b (App t u)
    end.
  Lemma RED_sn a t : RED a t -> sn t.
  Proof. destruct a; cbn; tauto. Qed.
  Lemma RED_red a : forall t u, RED a t -> red t u -> RED a u.
  Proof.
    induction a as [| | |a _ b IHb]; intros t u Ht Hu; cbn in *.
    - eapply sn_step; eassumption.
    - destruct Ht as (H1 & c & H2 & H3). split; [eapply sn_step; eassumption|]. exists c. split; [|exact H3]. eapply isty_conv; [exact H2|apply red_conv; exact Hu].
    - destruct Ht as (H1 & c & H2). split; [eapply sn_step; eassumption|]. exists c. eapply isty_conv; [exact H2|apply red_conv; exact Hu].
    - destruct Ht as [H1 H2]. split; [eapply sn_step; eassumption|]. intros v Hv. eapply IHb; [apply H2; exact Hv|apply red_appl; exact Hu].
  Qed.
  Lemma neutral_app t u : neutral t -> neutral (App t u).
  Proof. intros [_ H]. split; [discriminate|exact H]. Qed.
  Lemma neutral_red t u v : neutral t -> red (App t u) v -> (exists t', red t t' /\ v = App t' u) \/ (exists u', red u u' /\ v = App t u').
  Proof.
    intros [H1 H2] H. apply red_inv in H. destruct H as [(b & -> & _)|[H|[H|[(-> & _)|(x & -> & _)]]]]; auto.
    - destruct (H1 b). reflexivity.
    - destruct H2. reflexivity.
    - destruct H2. reflexivity.
  Qed.
  (** a neutral term is reducible if its reducts are and it has a reduct or a small type *)
  Lemma RED_neutral a : forall t, neutral t -> (forall u, red t u -> RED a u) -> (small a \/ exists u, red t u) -> RED a t.
  Proof.
    induction a as [| | |a _ b IHb]; intros t Hn Hr Hs; cbn [RED] in *.
    - constructor. exact Hr.
    - destruct Hs as [[]|[u Hu]]. split; [constructor; intros v Hv; apply Hr; exact Hv|].
      destruct (Hr _ Hu) as (_ & c & H2 & H3). exists c. split; [|exact H3]. eapply isty_conv; [exact H2|apply conv_sym, red_conv; exact Hu].
    - destruct Hs as [[]|[u Hu]]. split; [constructor; intros v Hv; apply Hr; exact Hv|].
      destruct (Hr _ Hu) as (_ & c & H2). exists c. eapply isty_conv; [exact H2|apply conv_sym, red_conv; exact Hu].
    - split; [constructor; intros v Hv; apply Hr; exact Hv|]. intros u Hu. pose proof (RED_sn _ _ Hu) as Hsn.
      induction Hsn as [u _ IHu]. apply IHb.
      + apply neutral_app. exact Hn.
      + intros v Hv. destruct (neutral_red _ _ _ Hn Hv) as [(t' & H & ->)|(u' & H & ->)].
        * apply (Hr _ H). exact Hu.
        * apply IHu; [exact H|]. eapply RED_red; eassumption.
      + destruct Hs as [[_ Hs]|[v Hv]]; [left; exact Hs|right]. exists (App v u). apply red_appl. exact Hv.
  Qed.
  Lemma RED_beta b t u : sn t -> sn u -> RED b (subst1 u t) -> RED b (App (ULam t) u).
  Proof.
    intros Ht. revert u. induction Ht as [t Ht IHt]. intros u Hu. induction Hu as [u Hu IHu]. intros Hb.
    apply RED_neutral.
    - split; [discriminate|]. intros H. discriminate.
    - intros v Hv. apply red_inv in Hv. destruct Hv as [(b' & E & ->)|[(t' & H & ->)|[(u' & H & ->)|[(E & _)|(x & E & _)]]]]; try discriminate.
      + injection E as <-. exact Hb.
      + apply red_inv in H. destruct H as (b' & H & ->). apply IHt; [exact H|constructor; exact Hu|]. eapply RED_red; [exact Hb|]. apply red_sub. exact H.
      + apply IHu; [exact H|].
        assert (Hrs : reds (subst1 u t) (subst1 u' t)).
        { apply par_reds, par_subst1; [apply par_refl|apply red_par; exact H]. }
        clear - Hb Hrs Hrules. induction Hrs; eauto using RED_red.
    - right. eexists. apply red_beta.
  Qed.

  (** ** Symbols *)
  Lemma RED_inactive c a : c <> 3 -> small a -> RED a (Const c).
  Proof.
    intros Hc Ha. apply RED_neutral; [|intros u Hu; apply red_inv in Hu; contradiction|left; exact Ha].
    split; [discriminate|]. intros [= E]. congruence.
  Qed.
  Lemma RED_var n a : small a -> RED a (Var n).
  Proof.
    intros Ha. apply RED_neutral; [|intros u Hu; apply red_inv in Hu; contradiction|left; exact Ha]. split; [discriminate|]. intros E; discriminate.
  Qed.
  Lemma sn_const c : sn (Const c).
  Proof. constructor. intros u Hu. apply red_inv in Hu. contradiction. Qed.
  Lemma sn_capp c t : c <> 3 -> sn t -> sn (App (Const c) t).
  Proof.
    intros Hc. induction 1 as [t _ IH]. constructor. intros u Hu. apply red_inv in Hu.
    destruct Hu as [(b & E & _)|[(t' & H & ->)|[(t' & H & ->)|[(E & _)|(x & E & _)]]]]; try discriminate; [apply red_inv in H; contradiction|auto].
  Qed.
  Lemma sn_plus1 t : sn t -> sn (App (Const 3) t).
  Proof.
    induction 1 as [t _ IH]. constructor. intros u Hu. apply red_inv in Hu.
    destruct Hu as [(b & E & _)|[(t' & H & ->)|[(t' & H & ->)|[(E & _)|(x & E & _)]]]]; try discriminate; [apply red_inv in H; contradiction|auto].
  Qed.
  Lemma sn_plus t : Acc (below sg) t -> forall u, sn u -> sn (plus_t t u).
  Proof.
    induction 1 as [t Ht IHt]. intros u Hu. assert (Hut := Hu). induction Hu as [u Hu IHu]. constructor. intros v Hv. apply red_inv in Hv.
    destruct Hv as [(b & E & _)|[(t' & H & ->)|[(u' & H & ->)|[(E & ->)|(x & E & ->)]]]]; try discriminate.
    - apply red_inv in H. destruct H as [(b & E & _)|[(t1 & H & ->)|[(t1 & H & ->)|[(E & _)|(x & E & _)]]]]; try discriminate; [apply red_inv in H; contradiction|].
      apply IHt; [apply below_red; exact H|exact Hut].
    - apply IHu; [exact H|apply Hu; exact H].
    - exact Hut.
    - injection E as ->. apply sn_capp; [discriminate|]. apply IHt; [apply below_sub; constructor|exact Hut].
  Qed.
  Lemma RED_plus : RED (arr o (arr o o)) (Const 3).
  Proof.
    split; [apply sn_const|]. intros u Hu. split; [apply sn_plus1; exact Hu|]. intros v Hv. apply sn_plus; [apply sn_acc; exact Hu|exact Hv].
  Qed.
  Lemma RED_vec : RED (arr o star) (Const 4).
  Proof.
    split; [apply sn_const|]. intros u Hu. split; [apply sn_capp; [discriminate|exact Hu]|]. exists o. split; [apply isty_shape; constructor|exact I].
  Qed.
  Lemma RED_nat : RED star nat_t.
  Proof. split; [apply sn_const|]. exists o. split; [apply isty_shape; constructor|exact I]. Qed.

  (** ** Well-typed terms *)
  Hypothesis Hconst : forall c A, sg_type sg c = Some A -> exists a, isty (strip A) a /\ RED a (Const c).

  Definition small_ctx (G : list tm) : Prop := Forall (fun A => exists a, isty A a /\ small a) G.
  Definition RED_ctx (G : list tm) (s : nat -> tm) : Prop := forall n A a, nth_error G n = Some A -> isty A a -> RED a (s n).
  Lemma RED_ctx_id G : small_ctx G -> RED_ctx G Var.
  Proof.
    intros H n A a HA Ha. apply nth_error_In in HA. unfold small_ctx in H. rewrite Forall_forall in H. destruct (H _ HA) as (b & Hb & Hs).
    rewrite (isty_fun _ _ _ Ha Hb). apply RED_var. exact Hs.
  Qed.
  Lemma RED_ctx_cons G s A u a : RED_ctx G s -> isty A a -> RED a u -> RED_ctx (A :: G) (scons u s).
  Proof.
    intros H HA Hu [|n] B b; cbn.
    - intros [= <-] HB. rewrite (isty_fun _ _ _ HB HA). exact Hu.
    - apply H.
  Qed.

  Lemma sub_scons_up u s t : sub (scons u s) t = subst1 u (sub (up s) t).
  Proof.
    unfold subst1. rewrite sub_sub. apply sub_ext. intros [|n]; [reflexivity|]. cbn. rewrite sub_ren. cbn. symmetry. apply sub_id_ext. reflexivity.
  Qed.
  Lemma wt_RED G t A : wt G t A -> small_ctx G -> exists a, isty A a /\ forall s, RED_ctx G s -> RED a (sub s t).
  Proof.
    induction 1 as [G|G c A HA|G n A HA|G t u A B _ IHt _ IHu|G A t B k0 _ IHA _ IHt _ _ _|G A B k _ IHA _ IHB Hk|G t A B _ IH HAB]; intros HG.
    - exists box. split; [apply isty_shape; constructor|]. intros s _. cbn. split; [constructor; intros u Hu; apply red_inv in Hu; contradiction|].
      exists star. apply isty_shape. constructor.
    - destruct (Hconst _ _ HA) as (a & H1 & H2). exists a. split; [exact H1|]. intros s _. exact H2.
    - assert (HG' := HG). unfold small_ctx in HG'. rewrite Forall_forall in HG'. destruct (HG' _ (nth_error_In _ _ HA)) as (a & H1 & H2). exists a. split; [apply isty_ren; exact H1|].
      intros s Hs. cbn. eapply Hs; eassumption.
    - destruct (IHt HG) as (c & Hc & Ht). destruct (IHu HG) as (a & Ha & Hu). destruct (isty_pi_inv _ _ _ Hc) as (a' & b & -> & HA & HB).
      rewrite (isty_fun _ _ _ HA Ha) in *. exists b. split; [apply isty_sub; exact HB|]. intros s Hs. cbn [sub]. apply Ht; [exact Hs|]. apply Hu. exact Hs.
    - destruct (IHA HG) as (k & Hk & HA). rewrite (isty_fun _ _ _ Hk (isty_shape _ _ sh_typ)) in HA.
      destruct (HA _ (RED_ctx_id _ HG)) as (_ & a & Ha & Hsm). rewrite sub_id_ext in Ha by reflexivity.
      assert (HG' : small_ctx (A :: G)) by (constructor; [eauto|exact HG]).
      destruct (IHt HG') as (b & Hb & Ht). exists (arr a b). split; [apply isty_pi; assumption|]. intros s Hs. cbn [sub].
      assert (Hall : forall u, RED a u -> RED b (subst1 u (sub (up s) t))).
      { intros u Hu. rewrite <- sub_scons_up. apply Ht. eapply RED_ctx_cons; eassumption. }
      assert (Hsn : sn (sub (up s) t)) by (eapply sn_unsub, RED_sn, Hall, (RED_var 0); exact Hsm).
      split; [apply sn_ulam; exact Hsn|]. intros u Hu. apply RED_beta; [exact Hsn|eapply RED_sn; exact Hu|apply Hall; exact Hu].
    - destruct (IHA HG) as (k' & Hk' & HA). rewrite (isty_fun _ _ _ Hk' (isty_shape _ _ sh_typ)) in HA.
      destruct (HA _ (RED_ctx_id _ HG)) as (_ & a & Ha & Hsm). rewrite sub_id_ext in Ha by reflexivity.
      assert (HG' : small_ctx (A :: G)) by (constructor; [eauto|exact HG]).
      destruct (IHB HG') as (b & Hb & HB).
      assert (Hsn : forall s, RED_ctx G s -> sn (sub s (Pi A B))).
      { intros s Hs. cbn [sub]. apply sn_pi; [apply (HA _ Hs)|]. apply (sn_unsub (scons (Var 0) Var)), (RED_sn b).
        change (RED b (subst1 (Var 0) (sub (up s) B))). rewrite <- sub_scons_up. apply HB. eapply RED_ctx_cons; [exact Hs|exact Ha|apply RED_var; exact Hsm]. }
      pose proof (HB _ (RED_ctx_id _ HG')) as HBi. rewrite sub_id_ext in HBi by reflexivity.
      destruct Hk as [-> | ->].
      + rewrite (isty_fun _ _ _ Hb (isty_shape _ _ sh_typ)) in *. exists star. split; [apply isty_shape; constructor|].
        destruct HBi as (_ & b' & Hb' & Hsb). intros s Hs. split; [apply Hsn; exact Hs|].
        exists (arr a b'). split; [apply isty_sub, isty_pi; assumption|split; assumption].
      + rewrite (isty_fun _ _ _ Hb (isty_shape _ _ sh_kind)) in *. exists box. split; [apply isty_shape; constructor|].
        destruct HBi as (_ & b' & Hb'). intros s Hs. split; [apply Hsn; exact Hs|].
        exists (arr a b'). apply isty_sub, isty_pi; assumption.
    - destruct (IH HG) as (a & Ha & Ht). exists a. split; [eapply isty_conv; eassumption|exact Ht].
  Qed.

  Lemma ctx_small G : type_ctx sg G -> small_ctx G.
  Proof.
    induction 1 as [|G A HG IH HA]; [constructor|]. constructor; [|exact IH].
    destruct (wt_RED _ _ _ HA IH) as (k & Hk & H). rewrite (isty_fun _ _ _ Hk (isty_shape _ _ sh_typ)) in H.
    destruct (H _ (RED_ctx_id _ IH)) as (_ & a & Ha & Hs). rewrite sub_id_ext in Ha by reflexivity. eauto.
  Qed.
  Theorem vec_normalising : normalising sg.
  Proof.
    intros G t A HG Ht. pose proof (ctx_small _ HG) as HG'. destruct (wt_RED _ _ _ Ht HG') as (a & _ & H).
    eapply (sn_unsub Var), RED_sn, H, RED_ctx_id. exact HG'.
  Qed.
End Vec.
