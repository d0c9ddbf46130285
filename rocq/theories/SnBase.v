(** * Reducibility for well-typed terms

    If all symbols are reducible, then all well-typed terms are, and thus they are strongly normalising.
    A type is interpreted according to its shape: the products in it, where a type whose head is a
    symbol without rules is a base type. *)

From Coq Require Import List Arith Lia Bool.
From Verif Require Import SpecTerm SpecConv SpecConvFacts SpecWhnf SpecRed SpecSN SpecType SpecDomain RedConfl EtaConfl RedStuck RedSN TypeFacts DomFacts MainTyped.
Import ListNotations.

Lemma head_apps us : forall t, head (apps t us) = head t.
Proof. induction us as [|u us IH]; intros t; [reflexivity|]. cbn [apps]. rewrite IH. reflexivity. Qed.
Lemma nargs_apps us : forall t, nargs (apps t us) = nargs t + length us.
Proof. induction us as [|u us IH]; intros t; cbn [apps length]; [lia|]. rewrite IH. cbn. lia. Qed.
Lemma head_sub c s t : head t = Const c -> head (sub s t) = Const c.
Proof. induction t; cbn; intros H; try discriminate; auto. Qed.
Lemma head_strip c t : head t = Const c -> head (strip t) = Const c.
Proof. induction t; cbn; intros H; try discriminate; auto. Qed.

Section Base.
  Variable sg : sig.
  Notation conv := (conv sg).
  Notation red := (red sg).
  Notation reds := (reds sg).
  Notation sn := (sn sg).

  Hypothesis Hcr : church_rosser sg.
  Hypothesis Hpi : pi_injective sg.

  (** symbols without rules *)
  Definition inert (c : nat) : Prop := forall r, ~ rule_of sg c r.

  (** ** Steps *)
  Definition root_step (t u : tm) : Prop :=
    exists c r s ts, rule_of sg c r /\ Forall2 (inst s) (sr_args r) ts /\ t = apps (Const c) ts /\ u = sub s (strip (sr_rhs r)).
  Lemma red_inv t u : red t u ->
    match t with
    | App t1 t2 => (exists b, t1 = ULam b /\ u = subst1 t2 b) \/ (exists t', red t1 t' /\ u = App t' t2) \/ (exists t', red t2 t' /\ u = App t1 t') \/ root_step t u
    | ULam b => exists b', red b b' /\ u = ULam b'
    | Pi a b => (exists a', red a a' /\ u = Pi a' b) \/ (exists b', red b b' /\ u = Pi a b')
    | Lam _ _ => True
    | Const _ => root_step t u
    | _ => False
    end.
  Proof.
    intros H. destruct H; eauto 8.
    assert (Hs : root_step (apps (Const c) ts) (sub s (strip (sr_rhs r)))).
    { exists c, r, s, ts. split; [exists rs; auto|]. auto. }
    destruct (apps_const_cases c ts) as [[-> E]|(t1 & t2 & _ & E)]; rewrite E in *; auto.
  Qed.
  Lemma root_head t u : root_step t u -> exists c r, head t = Const c /\ rule_of sg c r /\ nargs t = length (sr_args r).
  Proof.
    intros (c & r & s & ts & Hr & Hi & -> & _). exists c, r. rewrite head_apps, nargs_apps. cbn.
    split; [reflexivity|]. split; [exact Hr|]. symmetry. eapply Forall2_len. exact Hi.
  Qed.
  (** a term to whose head no rule can be applied, also if it is given further arguments *)
  Definition neutral (t : tm) : Prop :=
    (forall b, t <> ULam b) /\ forall c r, head t = Const c -> rule_of sg c r -> length (sr_args r) <= nargs t.
  Lemma neutral_app t u : neutral t -> neutral (App t u).
  Proof. intros [_ H]. split; [discriminate|]. cbn. intros c r Hc Hr. specialize (H c r Hc Hr). lia. Qed.
  Lemma neutral_red t u v : neutral t -> red (App t u) v -> (exists t', red t t' /\ v = App t' u) \/ (exists u', red u u' /\ v = App t u').
  Proof.
    intros [H1 H2] H. apply red_inv in H. destruct H as [(b & -> & _)|[H|[H|H]]]; auto.
    - destruct (H1 b). reflexivity.
    - apply root_head in H as (c & r & Hh & Hr & Hn). cbn in Hh, Hn. specialize (H2 _ _ Hh Hr). lia.
  Qed.

  Lemma sn_step t u : sn t -> red t u -> sn u.
  Proof. intros [H]. apply H. Qed.
  Lemma red_sub s t t' : red t t' -> red (sub s t) (sub s t').
  Proof.
    intros H. revert s. induction H; intros q; cbn [sub].
    - rewrite sub_subst1. apply red_beta.
    - rewrite sub_apps. cbn [sub]. rewrite sub_sub. eapply red_rule; try eassumption.
      clear - H2. induction H2; cbn; constructor; [apply inst_sub; assumption|assumption].
    - apply red_appl. auto.
    - apply red_appr. auto.
    - apply red_ulam. auto.
    - apply red_lama. auto.
    - apply red_lamb. auto.
    - apply red_pil. auto.
    - apply red_pir. auto.
  Qed.
  Lemma sn_unsub s t : sn (sub s t) -> sn t.
  Proof.
    intros H. remember (sub s t) as v eqn:E. revert t E. induction H as [v _ IH]. intros t ->. constructor. intros u Hu.
    eapply IH; [apply red_sub; exact Hu|reflexivity].
  Qed.
  Lemma sn_ulam t : sn t -> sn (ULam t).
  Proof. induction 1 as [t _ IH]. constructor. intros u Hu. apply red_inv in Hu. destruct Hu as (b' & Hb & ->). auto. Qed.
  Lemma sn_pi a : sn a -> forall b, sn b -> sn (Pi a b).
  Proof.
    induction 1 as [a Ha IHa]. intros b Hb. induction Hb as [b Hb IHb]. constructor. intros u Hu.
    apply red_inv in Hu. destruct Hu as [(a' & H & ->)|(b' & H & ->)]; [apply IHa; [exact H|constructor; exact Hb]|auto].
  Qed.
  Lemma sn_neutral_app t u : sn t -> sn u -> (forall t', reds t t' -> neutral t') -> sn (App t u).
  Proof.
    intros Ht. revert u. induction Ht as [t Ht IHt]. intros u Hu Hn. induction Hu as [u Hu IHu]. constructor. intros v Hv.
    destruct (neutral_red _ _ _ (Hn _ (reds_refl _ _)) Hv) as [(t' & H & ->)|(u' & H & ->)].
    - apply IHt; [exact H|constructor; exact Hu|]. intros t2 H2. apply Hn. eapply reds_step; eassumption.
    - apply IHu. exact H.
  Qed.
  Lemma inert_head t u c : red t u -> head t = Const c -> inert c -> head u = Const c.
  Proof.
    intros H. induction H; cbn; intros Hh Hc; try discriminate; auto.
    rewrite head_apps in Hh. cbn in Hh. injection Hh as ->. destruct (Hc r). exists rs. auto.
  Qed.
  Lemma inert_heads t u c : reds t u -> head t = Const c -> inert c -> head u = Const c.
  Proof. induction 1 as [|t u v H _ IH]; intros Hh Hc; [exact Hh|]. apply IH; [eapply inert_head; eassumption|exact Hc]. Qed.
  Lemma inert_neutral t c : head t = Const c -> inert c -> neutral t.
  Proof.
    intros Hh Hc. split; [intros b ->; discriminate|]. intros d r Hd Hr. rewrite Hh in Hd. injection Hd as <-. destruct (Hc _ Hr).
  Qed.

  (** ** Types and their shapes *)
  Inductive ty := o | star | box | arr (a b : ty).
  Inductive shape : tm -> ty -> Prop :=
  | sh_base t c : head t = Const c -> inert c -> shape t o
  | sh_typ : shape Typ star
  | sh_kind : shape Kind box
  | sh_pi A B a b : shape A a -> shape B b -> shape (Pi A B) (arr a b).
  (** shapes of types, and of kinds *)
  Fixpoint small (a : ty) : Prop := match a with o => True | arr a b => small a /\ small b | _ => False end.
  Fixpoint big (a : ty) : Prop := match a with star => True | arr a b => small a /\ big b | _ => False end.
  Definition isty (T : tm) (a : ty) : Prop := exists T', conv T T' /\ shape T' a.

  Lemma shape_fun T a : shape T a -> forall b, shape T b -> a = b.
  Proof.
    induction 1 as [t c Hh Hc| | |A B a b _ IHA _ IHB]; intros d Hd; inversion Hd; subst; cbn in *; try discriminate; try reflexivity.
    f_equal; auto.
  Qed.
  Lemma shape_strip T a : shape T a -> shape (strip T) a.
  Proof. induction 1; cbn; try (econstructor; eassumption). econstructor; [apply head_strip; eassumption|assumption]. Qed.
  Lemma shape_sub T a : shape T a -> forall s, shape (sub s T) a.
  Proof. induction 1; intros s; cbn; try (econstructor; eauto; fail). econstructor; [apply head_sub; eassumption|assumption]. Qed.
  Lemma shape_red T a : shape T a -> forall U, red T U -> shape U a.
  Proof.
    induction 1 as [t c Hh Hc| | |A B a b HA IHA HB IHB]; intros U HU.
    - exact (sh_base U c (inert_head t U c HU Hh Hc) Hc).
    - apply red_inv in HU. contradiction.
    - apply red_inv in HU. contradiction.
    - apply red_inv in HU. destruct HU as [(a' & H1 & ->)|(b' & H1 & ->)]; constructor; auto.
  Qed.
  Lemma shape_reds T U a : shape T a -> reds T U -> shape U a.
  Proof. intros H Hr. induction Hr; eauto using shape_red. Qed.
  Lemma shape_eta T a : shape T a -> forall U, eta_red T U -> shape U a.
  Proof.
    induction 1 as [t c Hh Hc| | |A B a b HA IHA HB IHB]; intros U HU; try (inversion HU; subst; constructor; auto; fail).
    apply (sh_base U c); [|exact Hc]. clear Hc. induction HU; cbn in Hh |- *; try discriminate; auto.
  Qed.
  Lemma shape_redxs T U a : shape T a -> redxs sg T U -> shape U a.
  Proof. intros H Hr. induction Hr; eauto using shape_red, shape_eta. Qed.
  Lemma isty_shape T a : shape T a -> isty T a.
  Proof. intros H. exists T. split; [apply conv_refl|exact H]. Qed.
  Lemma isty_conv T U a : isty T a -> conv T U -> isty U a.
  Proof. intros (T' & H1 & H2) H. exists T'. split; [eapply conv_trans; [apply conv_sym; exact H|exact H1]|exact H2]. Qed.
  Lemma isty_fun T a b : isty T a -> isty T b -> a = b.
  Proof.
    intros (T1 & C1 & S1) (T2 & C2 & S2). assert (C : conv T1 T2) by (eapply conv_trans; [apply conv_sym; exact C1|exact C2]).
    destruct (Hcr _ _ C) as (v & R1 & R2). apply (shape_fun v); [apply (shape_redxs (strip T1))|apply (shape_redxs (strip T2))]; try assumption; apply shape_strip; assumption.
  Qed.
  Lemma isty_sub s T a : isty T a -> isty (sub s T) a.
  Proof. intros (T' & H1 & H2). exists (sub s T'). split; [apply conv_sub; exact H1|apply shape_sub; exact H2]. Qed.
  Lemma isty_ren r T a : isty T a -> isty (ren r T) a.
  Proof. rewrite ren_as_sub. apply isty_sub. Qed.
  Lemma isty_pi A B a b : isty A a -> isty B b -> isty (Pi A B) (arr a b).
  Proof. intros (A' & H1 & H2) (B' & H3 & H4). exists (Pi A' B'). split; [apply conv_pi; assumption|constructor; assumption]. Qed.
  Lemma isty_pi_inv A B c : isty (Pi A B) c -> exists a b, c = arr a b /\ isty A a /\ isty B b.
  Proof.
    intros (T & C & S). destruct (Hcr _ _ C) as (v & R1 & R2). apply shape_strip in S. pose proof (shape_redxs _ _ _ S R2) as Sv.
    assert (exists A' B', v = Pi A' B') as (A' & B' & ->).
    { cbn [strip] in R1. apply redxs_pi_inv in R1. destruct R1 as (A' & B' & -> & _). eauto. }
    inversion Sv as [? ? Hh| | |? ? a b SA SB]; subst; [discriminate|]. exists a, b. split; [reflexivity|].
    apply redxs_conv in R1. assert (C' : conv (Pi A B) (Pi A' B')) by (eapply conv_trans; [apply conv_strip|exact R1]).
    destruct (Hpi _ _ _ _ C') as [CA CB]. split; [exists A'|exists B']; split; assumption.
  Qed.

  (** ** Reducible terms *)
  Fixpoint RED (a : ty) (t : tm) : Prop :=
    match a with
    | o => sn t
    | star => sn t /\ exists b, isty t b /\ small b
    | box => sn t /\ exists b, isty t b /\ big b
    | arr a b => sn t /\ forall u, RED a u -> RED b (App t u)
    end.
  Lemma RED_sn a t : RED a t -> sn t.
  Proof. destruct a; cbn; tauto. Qed.
  Lemma RED_red a : forall t u, RED a t -> red t u -> RED a u.
  Proof.
    induction a as [| | |a _ b IHb]; intros t u Ht Hu; cbn in *.
    - eapply sn_step; eassumption.
    - destruct Ht as (H1 & c & H2 & H3). split; [eapply sn_step; eassumption|]. exists c. split; [|exact H3]. eapply isty_conv; [exact H2|apply red_conv; exact Hu].
    - destruct Ht as (H1 & c & H2 & H3). split; [eapply sn_step; eassumption|]. exists c. split; [|exact H3]. eapply isty_conv; [exact H2|apply red_conv; exact Hu].
    - destruct Ht as [H1 H2]. split; [eapply sn_step; eassumption|]. intros v Hv. eapply IHb; [apply H2; exact Hv|apply red_appl; exact Hu].
  Qed.
  Lemma RED_reds a t u : RED a t -> reds t u -> RED a u.
  Proof. intros H Hr. induction Hr; eauto using RED_red. Qed.
  (** a neutral term is reducible if its reducts are and it has a reduct or a small type *)
  Lemma RED_neutral a : forall t, neutral t -> (forall u, red t u -> RED a u) -> (small a \/ exists u, red t u) -> RED a t.
  Proof.
    induction a as [| | |a _ b IHb]; intros t Hn Hr Hs; cbn [RED] in *.
    - constructor. exact Hr.
    - destruct Hs as [[]|[u Hu]]. split; [constructor; intros v Hv; apply Hr; exact Hv|].
      destruct (Hr _ Hu) as (_ & c & H2 & H3). exists c. split; [|exact H3]. eapply isty_conv; [exact H2|apply conv_sym, red_conv; exact Hu].
    - destruct Hs as [[]|[u Hu]]. split; [constructor; intros v Hv; apply Hr; exact Hv|].
      destruct (Hr _ Hu) as (_ & c & H2 & H3). exists c. split; [|exact H3]. eapply isty_conv; [exact H2|apply conv_sym, red_conv; exact Hu].
    - split; [constructor; intros v Hv; apply Hr; exact Hv|]. intros u Hu. pose proof (RED_sn _ _ Hu) as Hsn.
      induction Hsn as [u _ IHu]. apply IHb.
      + apply neutral_app. exact Hn.
      + intros v Hv. destruct (neutral_red _ _ _ Hn Hv) as [(t' & H & ->)|(u' & H & ->)].
        * apply (Hr _ H). exact Hu.
        * apply IHu; [exact H|]. eapply RED_red; eassumption.
      + destruct Hs as [[_ Hs]|[v Hv]]; [left; exact Hs|right]. exists (App v u). apply red_appl. exact Hv.
  Qed.
  Lemma RED_beta b t u : sn t -> sn u -> RED b (subst1 u t) -> RED b (App (ULam t) u).
  Proof.
    intros Ht. revert u. induction Ht as [t Ht IHt]. intros u Hu. induction Hu as [u Hu IHu]. intros Hb.
    apply RED_neutral.
    - split; [discriminate|]. cbn. discriminate.
    - intros v Hv. apply red_inv in Hv. destruct Hv as [(b' & E & ->)|[(t' & H & ->)|[(u' & H & ->)|H]]].
      + injection E as <-. exact Hb.
      + apply red_inv in H. destruct H as (b' & H & ->). apply IHt; [exact H|constructor; exact Hu|]. eapply RED_red; [exact Hb|]. apply red_sub. exact H.
      + apply IHu; [exact H|].
        assert (Hrs : reds (subst1 u t) (subst1 u' t)).
        { apply par_reds, par_subst1; [apply par_refl|apply red_par; exact H]. }
        eapply RED_reds; eassumption.
      + apply root_head in H as (c & r & Hh & _). discriminate.
    - right. eexists. apply red_beta.
  Qed.

  (** ** Symbols *)
  Lemma RED_var n a : small a -> RED a (Var n).
  Proof.
    intros Ha. apply RED_neutral; [|intros u Hu; apply red_inv in Hu; contradiction|left; exact Ha]. split; discriminate.
  Qed.
  Lemma RED_inert c : inert c -> forall a t, small a \/ big a -> head t = Const c -> sn t -> RED a t.
  Proof.
    intros Hc. induction a as [| | |a _ b IHb]; intros t Ha Hh Ht; cbn [RED].
    - exact Ht.
    - split; [exact Ht|]. exists o. split; [apply isty_shape; econstructor; eassumption|exact I].
    - destruct Ha as [[]|[]].
    - split; [exact Ht|]. intros u Hu. apply IHb; [destruct Ha as [[_ H]|[_ H]]; auto|exact Hh|].
      apply sn_neutral_app; [exact Ht|eapply RED_sn; exact Hu|].
      intros t' H'. eapply inert_neutral; [eapply inert_heads; eassumption|exact Hc].
  Qed.
  Lemma RED_const c a : inert c -> small a \/ big a -> RED a (Const c).
  Proof.
    intros Hc Ha. apply (RED_inert c); [exact Hc|exact Ha|reflexivity|]. constructor. intros u Hu. apply red_inv in Hu.
    apply root_head in Hu as (d & r & Hh & Hr & _). cbn in Hh. injection Hh as <-. destruct (Hc _ Hr).
  Qed.
  (** a symbol with rules without arguments *)
  Lemma RED_delta c a : (exists r, rule_of sg c r) -> (forall r, rule_of sg c r -> sr_args r = [] /\ forall s, RED a (sub s (strip (sr_rhs r)))) -> RED a (Const c).
  Proof.
    intros [r0 Hr0] Hr. apply RED_neutral.
    - split; [discriminate|]. cbn. intros d r [= <-] H. apply Hr in H as [-> _]. apply Nat.le_0_l.
    - intros u Hu. apply red_inv in Hu. destruct Hu as (d & r & s & ts & H & _ & E & ->).
      destruct (apps_const_inj c [] d ts E) as [<- _]. apply Hr. exact H.
    - right. destruct (Hr _ Hr0) as [E _]. destruct Hr0 as (rs & H1 & H2 & H3). exists (sub Var (strip (sr_rhs r0))).
      apply (red_rule sg c rs r0 Var []); try assumption. rewrite E. constructor.
  Qed.

  (** ** Well-typed terms, in a smaller signature *)
  Section Sub.
  Variable sg0 : sig.
  Hypothesis Hmono : sig_mono sg0 sg.
  Hypothesis Hconst : forall c A, sg_type sg0 c = Some A -> exists a, isty (strip A) a /\ RED a (Const c).

  Definition small_ctx (G : list tm) : Prop := Forall (fun A => exists a, isty A a /\ small a) G.
  Definition RED_ctx (G : list tm) (s : nat -> tm) : Prop := forall n A a, nth_error G n = Some A -> isty A a -> RED a (s n).
  Lemma RED_ctx_id G : small_ctx G -> RED_ctx G Var.
  Proof.
    intros H n A a HA Ha. apply nth_error_In in HA. unfold small_ctx in H. rewrite Forall_forall in H. destruct (H _ HA) as (b & Hb & Hs).
    rewrite (isty_fun _ _ _ Ha Hb). apply RED_var. exact Hs.
  Qed.
  Lemma RED_ctx_cons G s A u a : RED_ctx G s -> isty A a -> RED a u -> RED_ctx (A :: G) (scons u s).
  Proof.
    intros H HA Hu [|n] B b; cbn.
    - intros [= <-] HB. rewrite (isty_fun _ _ _ HB HA). exact Hu.
    - apply H.
  Qed.

  Lemma sub_scons_up u s t : sub (scons u s) t = subst1 u (sub (up s) t).
  Proof.
    unfold subst1. rewrite sub_sub. apply sub_ext. intros [|n]; [reflexivity|]. cbn. rewrite sub_ren. cbn. symmetry. apply sub_id_ext. reflexivity.
  Qed.
  Lemma wt_RED G t A : well_typed sg0 G t A -> small_ctx G -> exists a, isty A a /\ forall s, RED_ctx G s -> RED a (sub s t).
  Proof.
    induction 1 as [G|G c A HA|G n A HA|G t u A B _ IHt _ IHu|G A t B k0 _ IHA _ IHt _ _ _|G A B k _ IHA _ IHB Hk|G t A B _ IH HAB]; intros HG.
    - exists box. split; [apply isty_shape; constructor|]. intros s _. cbn. split; [constructor; intros u Hu; apply red_inv in Hu; contradiction|].
      exists star. split; [apply isty_shape; constructor|exact I].
    - destruct (Hconst _ _ HA) as (a & H1 & H2). exists a. split; [exact H1|]. intros s _. exact H2.
    - assert (HG' := HG). unfold small_ctx in HG'. rewrite Forall_forall in HG'. destruct (HG' _ (nth_error_In _ _ HA)) as (a & H1 & H2). exists a. split; [apply isty_ren; exact H1|].
      intros s Hs. cbn. eapply Hs; eassumption.
    - destruct (IHt HG) as (c & Hc & Ht). destruct (IHu HG) as (a & Ha & Hu). destruct (isty_pi_inv _ _ _ Hc) as (a' & b & -> & HA & HB).
      rewrite (isty_fun _ _ _ HA Ha) in *. exists b. split; [apply isty_sub; exact HB|]. intros s Hs. cbn [sub]. apply Ht; [exact Hs|]. apply Hu. exact Hs.
    - destruct (IHA HG) as (k & Hk & HA). rewrite (isty_fun _ _ _ Hk (isty_shape _ _ sh_typ)) in HA.
      destruct (HA _ (RED_ctx_id _ HG)) as (_ & a & Ha & Hsm). rewrite sub_id_ext in Ha by reflexivity.
      assert (HG' : small_ctx (A :: G)) by (constructor; [eauto|exact HG]).
      destruct (IHt HG') as (b & Hb & Ht). exists (arr a b). split; [apply isty_pi; assumption|]. intros s Hs. cbn [sub].
      assert (Hall : forall u, RED a u -> RED b (subst1 u (sub (up s) t))).
      { intros u Hu. rewrite <- sub_scons_up. apply Ht. eapply RED_ctx_cons; eassumption. }
      assert (Hsn : sn (sub (up s) t)) by (eapply sn_unsub, RED_sn, Hall, (RED_var 0); exact Hsm).
      split; [apply sn_ulam; exact Hsn|]. intros u Hu. apply RED_beta; [exact Hsn|eapply RED_sn; exact Hu|apply Hall; exact Hu].
    - destruct (IHA HG) as (k' & Hk' & HA). rewrite (isty_fun _ _ _ Hk' (isty_shape _ _ sh_typ)) in HA.
      destruct (HA _ (RED_ctx_id _ HG)) as (_ & a & Ha & Hsm). rewrite sub_id_ext in Ha by reflexivity.
      assert (HG' : small_ctx (A :: G)) by (constructor; [eauto|exact HG]).
      destruct (IHB HG') as (b & Hb & HB).
      assert (Hsn : forall s, RED_ctx G s -> sn (sub s (Pi A B))).
      { intros s Hs. cbn [sub]. apply sn_pi; [apply (HA _ Hs)|]. apply (sn_unsub (scons (Var 0) Var)), (RED_sn b).
        change (RED b (subst1 (Var 0) (sub (up s) B))). rewrite <- sub_scons_up. apply HB. eapply RED_ctx_cons; [exact Hs|exact Ha|apply RED_var; exact Hsm]. }
      pose proof (HB _ (RED_ctx_id _ HG')) as HBi. rewrite sub_id_ext in HBi by reflexivity.
      destruct Hk as [-> | ->].
      + rewrite (isty_fun _ _ _ Hb (isty_shape _ _ sh_typ)) in *. exists star. split; [apply isty_shape; constructor|].
        destruct HBi as (_ & b' & Hb' & Hsb). intros s Hs. split; [apply Hsn; exact Hs|].
        exists (arr a b'). split; [apply isty_sub, isty_pi; assumption|split; assumption].
      + rewrite (isty_fun _ _ _ Hb (isty_shape _ _ sh_kind)) in *. exists box. split; [apply isty_shape; constructor|].
        destruct HBi as (_ & b' & Hb' & Hsb). intros s Hs. split; [apply Hsn; exact Hs|].
        exists (arr a b'). split; [apply isty_sub, isty_pi; assumption|split; assumption].
    - destruct (IH HG) as (a & Ha & Ht). exists a. split; [eapply isty_conv; [exact Ha|eapply sig_mono_conv; eassumption]|exact Ht].
  Qed.

  Lemma ctx_small G : type_ctx sg0 G -> small_ctx G.
  Proof.
    induction 1 as [|G A HG IH HA]; [constructor|]. constructor; [|exact IH].
    destruct (wt_RED _ _ _ HA IH) as (k & Hk & H). rewrite (isty_fun _ _ _ Hk (isty_shape _ _ sh_typ)) in H.
    destruct (H _ (RED_ctx_id _ IH)) as (_ & a & Ha & Hs). rewrite sub_id_ext in Ha by reflexivity. eauto.
  Qed.
  (** the shapes of types of the smaller signature *)
  Lemma type_shape A s : s = Typ \/ s = Kind -> well_typed sg0 [] A s -> exists a, isty A a /\ (small a \/ big a).
  Proof.
    intros Hs H. destruct (wt_RED [] A s H ltac:(constructor)) as (k & Hk & HA).
    specialize (HA Var (RED_ctx_id [] ltac:(constructor))). rewrite sub_id_ext in HA by reflexivity. destruct Hs as [-> | ->].
    - rewrite (isty_fun _ _ _ Hk (isty_shape _ _ sh_typ)) in HA. destruct HA as (_ & a & H1 & H2). eauto.
    - rewrite (isty_fun _ _ _ Hk (isty_shape _ _ sh_kind)) in HA. destruct HA as (_ & a & H1 & H2). eauto.
  Qed.
  Lemma base_sn G t A : type_ctx sg0 G -> well_typed sg0 G t A -> sn t.
  Proof.
    intros HG Ht. pose proof (ctx_small _ HG) as HG'. destruct (wt_RED _ _ _ Ht HG') as (a & _ & H).
    eapply (sn_unsub Var), RED_sn, H, RED_ctx_id. exact HG'.
  Qed.
  End Sub.
End Base.
