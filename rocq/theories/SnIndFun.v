(** * Well-typed terms over recursive functions on inductive types are strongly normalising *)

From Coq Require Import List Arith Lia Bool Relation_Operators Transitive_Closure.
From Verif Require Import SpecTerm SpecConv SpecConvFacts SpecWhnf SpecRed SpecSN SpecType SpecProcess SpecDomain SpecRec SpecInd RedConfl EtaConfl RedStuck RedSN TypeFacts DomFacts MainTyped
  MainProgTotal EtaTyped SnBase SnRec IndRed SnInd.
Import ListNotations.

Scheme rhs_ok_ind2 := Induction for rhs_ok Sort Prop
  with rhs_ne_ind2 := Induction for rhs_ne Sort Prop
  with rhs_part_ind2 := Induction for rhs_part Sort Prop.
Combined Scheme rhs_mutind from rhs_ok_ind2, rhs_ne_ind2, rhs_part_ind2.

Fixpoint args (t : tm) : list tm := match t with App t u => args t ++ [u] | _ => [] end.
Lemma args_apps us : forall t, args (apps t us) = args t ++ us.
Proof. induction us as [|u us IH]; intros t; cbn; [rewrite app_nil_r; reflexivity|]. rewrite IH. cbn. rewrite <- app_assoc. reflexivity. Qed.
Lemma lstep_snoc_inv (R : tm -> tm -> Prop) l x l' : lstep R (l ++ [x]) l' ->
  (exists l1, lstep R l l1 /\ l' = l1 ++ [x]) \/ exists y, R x y /\ l' = l ++ [y].
Proof.
  revert l'. induction l as [|z l IH]; intros l' H; cbn in H; inversion H as [? u ? Hr|? ? l2 Hr]; subst.
  - right. exists u. auto.
  - inversion Hr.
  - left. exists (u :: l). split; [constructor; exact Hr|reflexivity].
  - destruct (IH _ Hr) as [(l1 & H1 & ->)|(y & H1 & ->)]; [left; exists (z :: l1); split; [constructor; exact H1|reflexivity]|right; exists y; auto].
Qed.
Lemma Forall2_nth {A B} (P : A -> B -> Prop) l : forall l', length l = length l' ->
  (forall i a b, nth_error l i = Some a -> nth_error l' i = Some b -> P a b) -> Forall2 P l l'.
Proof.
  induction l as [|a l IH]; intros [|b l'] E H; try discriminate; constructor.
  - apply (H 0); reflexivity.
  - apply IH; [cbn in E; lia|]. intros i x y. apply (H (S i)).
Qed.
Lemma Forall2_nth_l {A B} (P : A -> B -> Prop) l l' i a : Forall2 P l l' -> nth_error l i = Some a -> exists b, nth_error l' i = Some b /\ P a b.
Proof. intros H. revert i. induction H as [|x y l l' Hxy _ IH]; intros [|i]; cbn; try discriminate; [intros [= ->]; eauto|apply IH]. Qed.

Lemma part_head f k X j t : rhs_part f k X j t -> head t = Const f.
Proof. revert j. induction t as [| |c|x|t IHt u _|a _ t _|t _|a _ b _]; intros j H; inversion H; subst; cbn; [reflexivity|eauto]. Qed.

Section Fun.
  Variable sg : sig.
  Notation conv := (conv sg).
  Notation red := (red sg).
  Notation reds := (reds sg).
  Notation sn := (sn sg).
  Notation wt := (well_typed sg).
  Hypothesis Ho : complete sg.
  Hypothesis He : sg_eta sg = false.
  Variable fl : nat -> bool.
  Variable rank : nat -> list (option nat).
  Hypothesis Hrank : forall c, rank c <> [] -> constructor sg fl rank c.
  Hypothesis Hclosed : forall c A, sg_type sg c = Some A -> forall s, sub s (strip A) = strip A.
  Notation good := (good sg).
  Notation W := (W sg rank).
  Notation ity := (ity sg fl rank).
  Notation ikd := (ikd sg fl rank).
  Notation ity_kd := (ity_kd sg fl rank).
  Notation isem := (isem sg fl rank).
  Notation sem_ctx := (sem_ctx sg fl rank).
  Notation base_of := (base_of sg fl).
  Notation Hpi := (SnInd.Hpi sg Ho He).
  Notation ity_fun := (ity_fun sg Ho He fl rank).
  Notation kd_fun := (kd_fun sg Ho He fl rank Hrank).
  Notation isem_fun := (isem_fun sg Ho He fl rank Hrank).
  Notation ity_cand := (ity_cand sg Ho fl rank Hrank).
  Notation kd_cand := (kd_cand sg Ho He fl rank Hrank).
  Notation kd_pi := (kd_pi sg Ho He fl rank).
  Notation isem_pi := (isem_pi sg Ho He fl rank).
  Notation isem_good := (isem_good sg Ho He fl rank Hrank).

  (** ** Types of applications to reducible arguments *)
  Inductive spine (A : tm) : list tm -> tm -> Prop :=
  | sp_nil T : conv A T -> spine A [] T
  | sp_snoc us T B C RB u T' : spine A us T -> conv T (Pi B C) -> ity B RB -> RB u -> conv (subst1 u C) T' -> spine A (us ++ [u]) T'.
  Lemma spine_conv A us T T' : spine A us T -> conv T T' -> spine A us T'.
  Proof. intros H C. destruct H; [apply sp_nil|eapply sp_snoc; try eassumption]; eapply conv_trans; eassumption. Qed.
  Lemma spine_nil A T : spine A [] T -> conv A T.
  Proof. intros H. inversion H as [|us]; subst; [assumption|]. destruct us; discriminate. Qed.
  Lemma spine_last A us u T' : spine A (us ++ [u]) T' -> exists T B C RB, spine A us T /\ conv T (Pi B C) /\ ity B RB /\ RB u /\ conv (subst1 u C) T'.
  Proof.
    intros H. inversion H as [T C E|us0 T B C RB u0 T0 H1 H2 H3 H4 H5 E]; subst; [destruct us; discriminate|].
    apply app_inj_tail in E as [-> ->]. exists T, B, C, RB. auto.
  Qed.
  Lemma spine_kd A R us T : ity_kd A R -> spine A us T -> exists R', ity_kd T R'.
  Proof.
    intros HA. induction 1 as [T C|us T B C RB u T' _ IH C1 HB Hu C2].
    - exists R. eapply kd_conv; eassumption.
    - destruct IH as (R' & HR'). destruct (kd_pi _ _ _ _ HR' C1) as (RB' & RC & K1 & K2 & _). exists (RC u). eapply kd_conv; [apply K2|exact C2].
      apply (ity_fun _ _ HB _ _ (conv_refl _ _) K1). exact Hu.
  Qed.
  Lemma spine_fun A us T : spine A us T -> forall T', spine A us T' -> conv T T'.
  Proof.
    induction 1 as [T C|us T B C RB u T1 _ IH C1 HB Hu C2]; intros T' H'.
    - apply spine_nil in H'. eapply conv_trans; [apply conv_sym; exact C|exact H'].
    - apply spine_last in H' as (T0 & B' & C' & RB' & H1 & H2 & H3 & H4 & H5).
      assert (P : conv (Pi B C) (Pi B' C')) by (eapply conv_trans; [apply conv_sym; exact C1|eapply conv_trans; [apply IH; exact H1|exact H2]]).
      destruct (Hpi _ _ _ _ P) as [PB PC]. eapply conv_trans; [apply conv_sym; exact C2|]. eapply conv_trans; [|exact H5]. apply conv_subst1; [apply conv_refl|exact PC].
  Qed.
  Lemma spine_step A us T : spine A us T -> forall us', lstep red us us' -> spine A us' T.
  Proof.
    induction 1 as [T C|us T B C RB u T1 H IH C1 HB Hu C2]; intros us' Hs; [inversion Hs|].
    apply lstep_snoc_inv in Hs as [(l1 & H1 & ->)|(y & H1 & ->)].
    - eapply sp_snoc; [apply IH; exact H1|exact C1|exact HB|exact Hu|exact C2].
    - eapply sp_snoc; [exact H|exact C1|exact HB| |].
      + eapply cand_red; [eapply ity_cand; exact HB|exact Hu|exact H1].
      + eapply conv_trans; [|exact C2]. apply conv_subst1; [apply conv_sym, red_conv; exact H1|apply conv_refl].
  Qed.
  Lemma spine_good A us T : spine A us T -> Forall good us.
  Proof.
    induction 1 as [|us T B C RB u T1 H IH C1 HB Hu C2]; [constructor|]. apply Forall_app. split; [exact IH|].
    constructor; [eapply cand_good; [eapply ity_cand; exact HB|exact Hu]|constructor].
  Qed.

  (** ** Right-hand sides *)
  Lemma wgen_typ G T : wt G Typ T -> conv Kind T.
  Proof. remember Typ as t eqn:E. induction 1; try discriminate; [apply conv_refl|]. eapply conv_trans; [apply IHwell_typed; exact E|eassumption]. Qed.

  Section Guarded.
    Variables (f k : nat) (Af : tm) (Sm : tm -> Prop).
    Hypothesis HAf : sg_type sg f = Some Af.
    Hypothesis Hkd : exists R, ity_kd (strip Af) R.
    Hypothesis Hlt : forall d A, d < f -> sg_type sg d = Some A -> exists R, isem (strip A) R /\ R (Const d).
    Hypothesis Hcall : forall us v T R, length us = k -> spine (strip Af) (us ++ [v]) T -> Sm v -> ity_kd T R -> R (apps (Const f) (us ++ [v])).

    Definition env (X : nat -> nat -> Prop) (G : list tm) (s : nat -> tm) : Prop :=
      sem_ctx G s /\ forall x m, X x m -> forall vs, length vs = m -> Forall good vs -> Sm (apps (s x) vs).
    Lemma env_cons X G s A R u : env X G s -> ity (sub s A) R -> R u -> env (shifted X) (A :: G) (scons u s).
    Proof. intros [H1 H2] HA Hu. split; [eapply sem_ctx_cons; eassumption|]. intros [|x] m; cbn; [tauto|apply H2]. Qed.

    Lemma rhs_sem :
      (forall X t, rhs_ok f k X t -> forall G T s R, wt G t T -> env X G s -> isem (sub s T) R -> R (sub s t)) /\
      (forall X t, rhs_ne f k X t -> forall G T s, wt G t T -> env X G s ->
        (exists R, isem (sub s T) R /\ R (sub s t)) /\ forall x, head t = Var x -> Forall good (map (sub s) (args t))) /\
      (forall X j t, rhs_part f k X j t -> forall G T s, wt G t T -> env X G s ->
        exists us, length us = j /\ sub s t = apps (Const f) us /\ spine (strip Af) us (sub s T)).
    Proof.
      apply rhs_mutind.
      - (* Typ *) intros X G T s R H _ HR. apply wgen_typ in H.
        assert (HK : isem Kind R) by (eapply isem_conv; [exact HR|]; apply conv_sym; exact (conv_sub _ _ _ H s)).
        apply (isem_fun _ _ _ _ (isem_Kind sg fl rank) (conv_refl _ _) HK). split; [split; [constructor; intros u Hu; apply red_inv in Hu; contradiction|reflexivity]|].
        exists (typ_sem sg fl rank). apply ikd_typ; [apply conv_refl|reflexivity].
      - (* ULam *) intros X t _ IH G T s R H Hs HR. apply wgen_ulam in H as (A & B & _ & Ht & _ & C).
        assert (HP : isem (Pi (sub s A) (sub (up s) B)) R) by (eapply isem_conv; [exact HR|]; apply conv_sym; exact (conv_sub _ _ _ C s)).
        destruct (isem_pi _ _ _ _ HP (conv_refl _ _)) as (RA & RC & HA & HB & E). apply E.
        assert (Hall : forall u, RA u -> RC u (subst1 u (sub (up s) t))).
        { intros u Hu. rewrite <- sub_scons_up. apply (IH (A :: G) B); [exact Ht|eapply env_cons; eassumption|]. rewrite sub_scons_up. left. apply HB. exact Hu. }
        pose proof (cand_var sg RA 0 (ity_cand _ _ HA)) as Hv.
        assert (Hg : good (sub s (ULam t))) by (apply (good_ulam sg), (cand_good _ _ (kd_cand _ _ (HB _ Hv))), Hall, Hv).
        split; [exact Hg|]. intros u Hu. change (sub s (ULam t)) with (ULam (sub (up s) t)).
        apply (beta_sem sg Ho); [eapply kd_cand; apply HB; exact Hu|exact Hg|eapply cand_good; [eapply ity_cand; exact HA|exact Hu]|apply Hall; exact Hu].
      - (* Pi *) intros X A B _ IHA _ IHB G T s R H Hs HR. apply wgen_pi in H as (q & HA & HB & Hq & C).
        assert (HQ : isem q R) by (eapply isem_conv; [exact HR|]; apply conv_sym; replace q with (sub s q) by (destruct Hq; subst; reflexivity); exact (conv_sub _ _ _ C s)).
        pose proof (IHA G Typ s _ HA Hs (isem_Typ sg fl rank)) as (HgA & RA & HRA).
        assert (HallB : forall u, RA u -> R (subst1 u (sub (up s) B))).
        { intros u Hu. rewrite <- sub_scons_up. apply (IHB (A :: G) q); [exact HB|eapply env_cons; eassumption|]. replace (sub (scons u s) q) with q by (destruct Hq; subst; reflexivity). exact HQ. }
        assert (Hg : good (sub s (Pi A B))).
        { apply (good_pi sg); [exact HgA|]. eapply isem_good; [exact HQ|]. apply HallB, (cand_var sg RA 0 (ity_cand _ _ HRA)). }
        destruct Hq as [-> | ->].
        + apply (isem_fun _ _ _ _ (isem_Typ sg fl rank) (conv_refl _ _) HQ). split; [exact Hg|]. eexists. apply (ity_pi_intro sg Ho He fl rank Hrank); [exact HRA|].
          intros u Hu. exact (proj2 (isem_typ sg Ho He fl rank Hrank _ _ HQ (HallB u Hu))).
        + apply (isem_fun _ _ _ _ (isem_Kind sg fl rank) (conv_refl _ _) HQ). split; [exact Hg|]. eexists. apply (ikd_pi_intro sg Ho He fl rank Hrank); [exact HRA|].
          intros u Hu. pose proof (HallB u Hu) as K. apply (isem_fun _ _ _ _ (isem_Kind sg fl rank) (conv_refl _ _) HQ) in K as (_ & K). exact K.
      - (* ne *) intros X t _ IH G T s R H Hs HR. destruct (IH G T s H Hs) as ((R' & H1 & H2) & _). apply (isem_fun _ _ _ _ H1 (conv_refl _ _) HR). exact H2.
      - (* Const *) intros X c Hc G T s H _. split; [|discriminate]. apply wgen_const in H as (A & HA & C). destruct (Hlt _ _ Hc HA) as (R & H1 & H2). exists R. split; [|exact H2].
        eapply isem_conv; [exact H1|]. rewrite <- (Hclosed _ _ HA s). apply conv_sub. exact C.
      - (* Var *) intros X n G T s H [Hs _]. split; [|constructor]. apply wgen_var in H as (A & HA & C). destruct (Hs _ _ HA) as (R & H1 & H2). exists R. split; [|exact H2].
        eapply isem_conv; [left; left; exact H1|]. apply conv_sub. exact C.
      - (* App *) intros X t u _ IHt _ IHu G T s H Hs. apply wgen_app in H as (A & B & Ht & Hu & C). destruct (IHt _ _ _ Ht Hs) as ((R & H1 & H2) & Hargs).
        destruct (isem_pi _ _ _ _ H1 (conv_refl _ _)) as (RA & RC & HA & HB & E). apply E in H2 as [_ H2].
        assert (Hv : RA (sub s u)) by (apply (IHu G A s RA Hu Hs); left; left; exact HA). split.
        + exists (RC (sub s u)). split; [|apply H2; exact Hv]. eapply isem_conv; [left; apply HB; exact Hv|]. rewrite <- sub_subst1. apply conv_sub. exact C.
        + intros x Hx. cbn [args]. rewrite map_app. apply Forall_app. split; [apply (Hargs x); exact Hx|]. constructor; [|constructor]. eapply cand_good; [eapply ity_cand; exact HA|exact Hv].
      - (* call *) intros X t x vs Hp IHt _ IHu Hx G T s H Hs. apply wgen_app in H as (A & B & Ht & Hu & C).
        destruct (IHt _ _ _ Ht Hs) as (us & H1 & H2 & H3). destruct (IHu _ _ _ Hu Hs) as ((R & K1 & K2) & Hargs).
        destruct Hkd as (R0 & HR0). destruct (spine_kd _ _ _ _ HR0 H3) as (R1 & HR1). destruct (kd_pi _ _ _ _ HR1 (conv_refl _ _)) as (RA & RC & HA & HB & _).
        set (v := sub s (apps (Var x) vs)) in *.
        assert (Hv : RA v) by (apply (isem_fun _ _ _ _ K1 (conv_refl _ _) (or_introl (or_introl HA))); exact K2).
        assert (Hsp : spine (strip Af) (us ++ [v]) (sub s T)).
        { eapply sp_snoc; [exact H3|apply conv_refl|exact HA|exact Hv|]. unfold v. rewrite <- sub_subst1. apply conv_sub. exact C. }
        destruct (spine_kd _ _ _ _ HR0 Hsp) as (R2 & HR2). split.
        + exists R2. split; [left; exact HR2|]. cbn [sub]. fold v. rewrite H2, <- apps_snoc. apply (Hcall us v (sub s T) R2 H1 Hsp); [|exact HR2].
          unfold v. rewrite sub_apps. cbn [sub]. specialize (Hargs x ltac:(rewrite head_apps; reflexivity)). rewrite args_apps in Hargs. cbn in Hargs. apply (proj2 Hs x (length vs)); [exact Hx|apply map_length|exact Hargs].
        + intros y Hy. cbn in Hy. rewrite (part_head _ _ _ _ _ Hp) in Hy. discriminate.
      - intros X G T s H _. exists []. split; [reflexivity|]. split; [reflexivity|]. apply wgen_const in H as (A & HA & C). rewrite HAf in HA. injection HA as <-.
        apply sp_nil. rewrite <- (Hclosed _ _ HAf s). apply conv_sub. exact C.
      - intros X j t u _ IHt _ IHu G T s H Hs. apply wgen_app in H as (A & B & Ht & Hu & C). destruct (IHt _ _ _ Ht Hs) as (us & H1 & H2 & H3).
        destruct Hkd as (R0 & HR0). destruct (spine_kd _ _ _ _ HR0 H3) as (R1 & HR1). destruct (kd_pi _ _ _ _ HR1 (conv_refl _ _)) as (RA & RC & HA & HB & _).
        assert (Hv : RA (sub s u)) by (apply (IHu G A s RA Hu Hs); left; left; exact HA).
        exists (us ++ [sub s u]). split; [rewrite app_length; cbn; lia|]. split; [cbn [sub]; rewrite H2, apps_snoc; reflexivity|].
        eapply sp_snoc; [exact H3|apply conv_refl|exact HA|exact Hv|]. rewrite <- sub_subst1. apply conv_sub. exact C.
    Qed.
  End Guarded.

  (** ** Arguments of constructors *)
  Definition arg_type (o : option nat) (A : tm) : Prop := match o with None => base_of true A | Some m => fun_type sg fl m A end.
  Definition arg_sem (o : option nat) (t : tm) : Prop :=
    match o with None => good t | Some m => good t /\ forall vs, length vs = m -> Forall good vs -> W (apps t vs) end.
  Lemma fun_type_sub m : forall A s, fun_type sg fl m A -> fun_type sg fl m (sub s A).
  Proof.
    induction m as [|m IH]; intros A s; cbn; [apply base_sub|]. destruct A; try tauto. cbn. intros [H1 H2]. split; [apply base_sub; exact H1|apply IH; exact H2].
  Qed.
  Lemma arg_type_sub o A s : arg_type o A -> arg_type o (sub s A).
  Proof. destruct o; [apply fun_type_sub|apply base_sub]. Qed.
  Lemma cons_type_sub b l A : cons_type sg fl b l A -> forall s, cons_type sg fl b l (sub s A).
  Proof. induction 1; intros s; cbn; constructor; auto using base_sub, fun_type_sub. Qed.
  Lemma W_good t : W t -> good t.
  Proof. intros [H _]. exact H. Qed.
  Lemma arg_ity o : forall A X, arg_type o A -> conv A X -> ity X (arg_sem o).
  Proof.
    destruct o as [m|]; cbn [arg_type].
    - induction m as [|m IH]; intros A X H C.
      + apply ity_atom; [eapply atomic_conv; [apply (base_atomic sg Ho He); exact H|exact C]|]. intros t. cbn. split.
        * intros [_ K]. apply (K []); [reflexivity|constructor].
        * intros K. split; [apply W_good; exact K|]. intros [|]; [intros _ _; exact K|discriminate].
      + destruct A as [| | | | | | |Z B]; cbn in H; try contradiction. destruct H as [HZ HB].
        apply (ity_pi _ _ _ _ Z B good (fun _ => arg_sem (Some m))); [apply conv_sym; exact C| | |].
        * apply ity_flat; [exists Z; split; [apply conv_refl|exact HZ]|reflexivity].
        * intros u _. apply (IH (subst1 u B)); [apply fun_type_sub; exact HB|apply conv_refl].
        * intros t. cbn. split; intros [G K]; (split; [exact G|]).
          -- intros u Hu. assert (K' : forall vs, length vs = m -> Forall good vs -> W (apps (App t u) vs)) by (intros vs E HF; apply (K (u :: vs)); [cbn; lia|constructor; assumption]).
             split; [|exact K']. assert (HF : Forall good (repeat (Var 0) m)) by (apply Forall_forall; intros x Hx; apply repeat_spec in Hx; subst; apply good_var).
             pose proof (W_good _ (K' _ (repeat_length _ _) HF)) as Hg. apply good_apps in Hg. apply Hg.
          -- intros [|u vs] E HF; [discriminate|]. inversion HF; subst. cbn [apps]. apply (K u); [assumption|cbn in E; lia|assumption].
    - intros A X H C. apply ity_flat; [exists A; split; [apply conv_sym; exact C|exact H]|reflexivity].
  Qed.
  Definition base_sem (b : bool) : tm -> Prop := if b then good else W.
  Lemma base_ity b A X : base_of b A -> conv A X -> ity X (base_sem b).
  Proof.
    intros H C. destruct b.
    - apply ity_flat; [exists A; split; [apply conv_sym; exact C|exact H]|reflexivity].
    - apply ity_atom; [eapply atomic_conv; [apply (base_atomic sg Ho He); exact H|exact C]|reflexivity].
  Qed.
  Lemma flat_none l A : cons_type sg fl true l A -> Forall (eq None) l.
  Proof. remember true as b eqn:E. induction 1; try discriminate; constructor; auto. Qed.
  (** the arguments of a constructor can be taken from its values *)
  Lemma cons_parts b c A us : cons_type sg fl b (rank c) A -> length us = length (rank c) -> base_sem b (apps (Const c) us) -> Forall2 arg_sem (rank c) us.
  Proof.
    intros Hc El H. apply Forall2_nth; [congruence|]. intros i o u Hi Hu.
    assert (Hg : good u).
    { assert (G : good (apps (Const c) us)) by (destruct b; [exact H|apply W_good; exact H]). apply good_apps in G as [_ G]. rewrite Forall_forall in G. apply G. eapply nth_error_In; exact Hu. }
    destruct o as [m|]; [|exact Hg]. split; [exact Hg|]. intros vs E HF. destruct b.
    - apply flat_none in Hc. rewrite Forall_forall in Hc. specialize (Hc _ (nth_error_In _ _ Hi)). discriminate.
    - destruct H as [_ H]. eapply H; [constructor|exact Hi|exact Hu|exact E|exact HF].
  Qed.

  (** *** Constructors and other symbols without rules *)
  Lemma good_inert c us : no_rule sg c -> Forall good us -> good (apps (Const c) us).
  Proof.
    intros Hc H. split.
    - assert (Hs : Forall sn us) by (apply Forall_forall; intros u Hu; rewrite Forall_forall in H; apply H; exact Hu).
      pose proof (sn_lists sg us Hs) as Ha. clear H Hs. induction Ha as [us _ IH]. constructor. intros v Hv. apply red_call in Hv.
      destruct Hv as [(us' & Hst & ->)|(r & _ & _ & _ & _ & Hr & _)]; [apply IH; exact Hst|destruct (Hc _ Hr)].
    - apply dfree_apps_intro; [reflexivity|]. apply Forall_forall. intros u Hu. rewrite Forall_forall in H. apply H. exact Hu.
  Qed.
  Lemma cons_value b c A us : cons_type sg fl b (rank c) A -> no_rule sg c -> Forall2 arg_sem (rank c) us -> base_sem b (apps (Const c) us).
  Proof.
    intros Hc Hn HF. assert (Hg : Forall good us) by (clear - HF; induction HF as [|o u l us H _ IH]; constructor; [destruct o; [apply H|exact H]|exact IH]).
    destruct b; [apply good_inert; assumption|]. constructor; [apply good_inert; assumption|].
    intros c' us' i u' m vs Hr Hi Hu' E HFv. apply reds_inert_apps in Hr as (us2 & E2 & Hrs); [|exact Hn]. apply apps_const_inj in E2 as [-> ->].
    destruct (Forall2_nth_l _ _ _ _ _ HF Hi) as (u & Hu & Hsem). destruct (Forall2_nth_l _ _ _ _ _ Hrs Hu) as (u2 & Hu2 & Hred). rewrite Hu' in Hu2. injection Hu2 as <-.
    eapply cand_reds; [exact (cand_W sg Ho fl rank Hrank)|apply (proj2 Hsem vs E HFv)|]. apply reds_apps; [|exact Hred]. clear. induction vs; constructor; [constructor|assumption].
  Qed.
  Lemma cons_sem c b A0 : no_rule sg c -> cons_type sg fl b (rank c) A0 -> forall l A X R ts, cons_type sg fl b l A -> conv A X -> ity X R ->
    forall l0, rank c = l0 ++ l -> Forall2 arg_sem l0 ts -> R (apps (Const c) ts).
  Proof.
    intros Hn H0 l. induction l as [|o l IH]; intros A X R ts Hc C HX l0 E HF.
    - rewrite app_nil_r in E. subst l0. inversion Hc as [? ? Hb| |]; subst. apply (ity_fun _ _ (base_ity _ _ _ Hb C) _ _ (conv_refl _ _) HX).
      eapply cons_value; eassumption.
    - assert (exists A1 A2, A = Pi A1 A2 /\ arg_type o A1 /\ cons_type sg fl b l A2) as (A1 & A2 & -> & H1 & H2) by (inversion Hc; subst; eauto).
      destruct (kd_pi _ _ _ _ (or_introl HX) (conv_sym _ _ _ C)) as (RB & RC & HB & HC & ER). apply ER. split.
      + apply good_inert; [exact Hn|]. clear - HF. induction HF as [|o u l us H _ IH]; constructor; [destruct o; [apply H|exact H]|exact IH].
      + intros u Hu. rewrite <- apps_snoc.
        assert (Hu' : arg_sem o u) by (apply (ity_fun _ _ HB _ _ (conv_refl _ _) (arg_ity o A1 A1 H1 (conv_refl _ _))); exact Hu).
        destruct HX as [X R HX _|X R HX _|X B' C' RB' RC' R HX HB' HC' ER'].
        * exfalso. eapply flatty_not_pi; [exact Ho|exact He|exact HX|apply conv_sym; exact C].
        * exfalso. destruct HX as (_ & HX & _). eapply HX. apply conv_sym. exact C.
        * assert (P : conv (Pi A1 A2) (Pi B' C')) by (eapply conv_trans; eassumption). destruct (Hpi _ _ _ _ P) as [PB PC].
          assert (Hu2 : RB' u) by (apply (ity_fun _ _ HB _ _ PB HB'); exact Hu).
          assert (K : RC' u (apps (Const c) (ts ++ [u]))).
          { apply (IH (subst1 u A2) (subst1 u C') (RC' u) (ts ++ [u])) with (l0 := l0 ++ [o]).
            - apply cons_type_sub. exact H2.
            - apply conv_subst1; [apply conv_refl|exact PC].
            - apply HC'. exact Hu2.
            - rewrite <- app_assoc. exact E.
            - apply Forall2_app; [exact HF|]. constructor; [exact Hu'|constructor]. }
          apply (kd_fun _ _ _ _ (or_introl (HC' u Hu2)) (conv_subst1 sg u u C' A2 (conv_refl _ _) (conv_sym _ _ _ PC)) (HC u Hu)). exact K.
  Qed.
  (** symbols whose arguments are not taken by any rule *)
  Lemma inert_sem c : no_rule sg c -> rank c = [] ->
    (forall A R, ity A R -> forall us, Forall good us -> R (apps (Const c) us)) /\ (forall A R, ikd A R -> forall us, Forall good us -> R (apps (Const c) us)).
  Proof.
    intros Hn Hr.
    assert (HW : forall us, Forall good us -> W (apps (Const c) us)).
    { intros us HF. constructor; [apply good_inert; assumption|]. intros c' us' i u m vs Hrs Hi. apply reds_inert_apps in Hrs as (us2 & E & _); [|exact Hn].
      apply apps_const_inj in E as [-> _]. rewrite Hr in Hi. destruct i; discriminate. }
    assert (X : forall A R, ity A R -> forall us, Forall good us -> R (apps (Const c) us)).
    { induction 1 as [A R H1 E|A R H1 E|A B C RB RC R H1 HB IHB HC IHC E]; intros us HF; apply E.
      - apply good_inert; assumption.
      - apply HW. exact HF.
      - split; [apply good_inert; assumption|]. intros u Hu. rewrite <- apps_snoc. apply IHC; [exact Hu|]. apply Forall_app. split; [exact HF|]. constructor; [|constructor].
        eapply cand_good; [eapply ity_cand; exact HB|exact Hu]. }
    split; [exact X|].
    induction 1 as [A R H1 E|A B C RB RC R H1 HB HC IHC E]; intros us HF; apply E; (split; [apply good_inert; assumption|]).
    - exists (base_sem (fl c)). eapply base_ity; [|apply conv_refl]. exists c. rewrite head_apps. auto.
    - intros u Hu. rewrite <- apps_snoc. apply IHC; [exact Hu|]. apply Forall_app. split; [exact HF|]. constructor; [|constructor].
      eapply cand_good; [eapply ity_cand; exact HB|exact Hu].
  Qed.
  Lemma const_sem c A R : no_rule sg c -> sg_type sg c = Some A -> ity_kd (strip A) R -> R (Const c).
  Proof.
    intros Hn HA HR. destruct (rank c) as [|o l] eqn:E.
    - destruct (inert_sem c Hn E) as [H1 H2]. destruct HR as [HR|HR]; [apply (H1 _ _ HR [])|apply (H2 _ _ HR [])]; constructor.
    - destruct (Hrank c) as (_ & A' & b & HA' & Hc); [congruence|]. rewrite HA in HA'. injection HA' as <-.
      destruct HR as [HR|HR]; [apply (cons_sem c b _ Hn Hc _ _ _ R [] Hc (conv_refl _ _) HR []); [reflexivity|constructor]|].
      exfalso. assert (X : forall l A R, cons_type sg fl b l A -> ~ ikd A R).
      { clear - Ho He Hrank. induction l as [|o l IH]; intros A R Hc HK.
        - inversion Hc as [? ? Hb| |]; subst. destruct HK as [A R H _|A B C RB RC R H _ _ _]; [eapply base_not_sort; [exact Ho|exact He|exact Hb|left; reflexivity|exact H]|eapply base_not_pi; [exact Ho|exact He|exact Hb|exact H]].
        - assert (exists A1 A2, A = Pi A1 A2 /\ cons_type sg fl b l A2) as (A1 & A2 & -> & H2) by (inversion Hc; subst; eauto).
          remember (Pi A1 A2) as P eqn:EP. destruct HK as [A R H _|A B' C' RB' RC' R H HB' HC' _]; subst A; [eapply pi_not_sort; [exact Ho|exact He|apply conv_refl|left; reflexivity|exact H]|].
          destruct (Hpi _ _ _ _ H) as [PB PC]. pose proof (cand_var sg RB' 0 (ity_cand _ _ HB')) as Hv.
          apply (IH (subst1 (Var 0) A2) (RC' (Var 0))); [apply cons_type_sub; exact H2|]. eapply ikd_conv; [apply HC'; exact Hv|]. apply conv_subst1; [apply conv_refl|apply conv_sym; exact PC]. }
      exact (X _ _ _ Hc HR).
  Qed.

  (** *** Patterns *)
  Definition arg_typed (D : list tm) (l : tm) (o : option nat) : Prop := exists B A, wt D l B /\ conv A B /\ arg_type o A.
  Lemma wt_apps_head D us : forall t T, wt D (apps t us) T -> exists T', wt D t T'.
  Proof. induction us as [|u us IH]; intros t T H; [eauto|]. cbn in H. destruct (IH _ _ H) as (T' & H'). apply wgen_app in H' as (A & B & H1 & _). eauto. Qed.
  Lemma cons_args D b ls : forall l A t T, cons_type sg fl b l A -> length ls = length l -> (forall T0, wt D t T0 -> conv A T0) -> wt D (apps t ls) T ->
    Forall2 (arg_typed D) ls l /\ exists T', conv T' T /\ base_of b T'.
  Proof.
    induction ls as [|u ls IH]; intros l A t T Hc El Ht H.
    - destruct l; [|discriminate]. inversion Hc as [? ? Hb| |]; subst. split; [constructor|]. exists A. split; [apply Ht; exact H|exact Hb].
    - destruct l as [|o l]; [discriminate|]. assert (exists A1 A2, A = Pi A1 A2 /\ arg_type o A1 /\ cons_type sg fl b l A2) as (A1 & A2 & -> & H1 & H2) by (inversion Hc; subst; eauto).
      cbn [apps] in H. destruct (wt_apps_head _ _ _ _ H) as (T' & HT'). pose proof HT' as HT0. apply wgen_app in HT' as (B & C & K1 & K2 & K3). destruct (Hpi _ _ _ _ (Ht _ K1)) as [PB _].
      destruct (IH l (subst1 u A2) (App t u) T) as [L1 L2]; [apply cons_type_sub; exact H2|cbn in El; lia| |exact H|].
      + intros T0 H0. apply wgen_app in H0 as (B0 & C0 & M1 & M2 & M3). destruct (Hpi _ _ _ _ (Ht _ M1)) as [_ PC]. eapply conv_trans; [|exact M3]. apply conv_subst1; [apply conv_refl|exact PC].
      + split; [|exact L2]. constructor; [|exact L1]. exists B, A1. auto.
  Qed.
  Lemma pat_sem D s p : no_joker p -> idata sg fl rank p -> forall l B u R, inst Var p l -> wt D l B -> inst s p u -> ity (sub s B) R -> R u ->
    forall x A, In x (pat_vars p) -> nth_error D x = Some A -> exists R', ity (sub s (lift (S x) A)) R' /\ R' (s x).
  Proof.
    induction p as [c ps IH|m|] using pat_ind'; intros Hj Hd l B u R Hl Hwt Hu HB HR x A Hx HA.
    - inversion Hl as [| |? ? ls HLs]; subst. inversion Hu as [| |? ? us HUs]; subst. inversion Hj as [|? ? Hjs]; subst. inversion Hd as [| |? ? Hc Elen Hds]; subst.
      destruct Hc as (Hn & Ac & b & HAc & Hct).
      assert (El : length ls = length (rank c)) by (rewrite <- Elen; symmetry; eapply Forall2_len; exact HLs).
      assert (Eu : length us = length (rank c)) by (rewrite <- Elen; symmetry; eapply Forall2_len; exact HUs).
      destruct (cons_args D b ls (rank c) (strip Ac) (Const c) B Hct El) as [HT (T' & CT & HbT)]; [|exact Hwt|].
      { intros T0 H0. apply wgen_const in H0 as (A' & HA' & C). rewrite HAc in HA'. injection HA' as <-. exact C. }
      assert (Hv : base_sem b (apps (Const c) us)).
      { apply (ity_fun _ _ HB _ _ (conv_refl _ _) (base_ity b (sub s T') (sub s B) (base_sub _ _ _ _ _ HbT) (conv_sub _ _ _ CT s))). exact HR. }
      pose proof (cons_parts _ _ _ _ Hct Eu Hv) as HS. cbn in Hx.
      clear Hj Hd Hl Hu Hwt HB HR Hct Elen El Eu Hv CT HbT. revert ls us HLs HUs HT HS. generalize (rank c). intros o ls us HLs HUs HT HS.
      revert ls us o HLs HUs HT HS. induction ps as [|p ps IHps]; intros ls us o HLs HUs HT HS; [destruct Hx|].
      inversion HLs as [|? lp ? ls' HL HLs']; subst. inversion HUs as [|? up ? us' HU HUs']; subst. inversion HT as [|? o1 ? o' (B1 & A1 & W1 & W2 & W3) HT']; subst.
      inversion HS as [|? ? ? ? HS1 HS']; subst. inversion IH as [|? ? IHp IHr]; subst. inversion Hds as [|? ? Hd1 Hd2]; subst. inversion Hjs as [|? ? Hj1 Hj2]; subst.
      cbn in Hx. apply in_app_or in Hx. destruct Hx as [Hx|Hx].
      + eapply (IHp Hj1 Hd1 lp B1 up (arg_sem o1)); try eassumption. apply (arg_ity o1 (sub s A1)); [apply arg_type_sub; exact W3|apply conv_sub; exact W2].
      + eapply IHps; eassumption.
    - destruct Hx as [->|[]]. inversion Hl; subst. inversion Hu; subst. apply wgen_var in Hwt as (A' & HA' & C). rewrite HA in HA'. injection HA' as <-.
      exists R. split; [|exact HR]. eapply ity_conv; [exact HB|]. apply conv_sym, conv_sub. exact C.
    - destruct Hx.
  Qed.

  (** *** Parts of values *)
  Definition wpart (v u : tm) : Prop :=
    red u v \/ exists c us i w m vs, u = apps (Const c) us /\ nth_error (rank c) i = Some (Some m) /\ nth_error us i = Some w /\ length vs = m /\ Forall good vs /\ v = apps w vs.
  Lemma acc_wpart u : W u -> Acc wpart u.
  Proof.
    induction 1 as [u [Hs _] _ IH].
    assert (X : forall v, sn v -> reds u v -> Acc wpart v); [|apply X; [exact Hs|constructor]].
    induction 1 as [v _ IHv]. intros Hr. constructor. intros w [Hw|(c & us & i & x & m & vs & -> & H1 & H2 & H3 & H4 & ->)].
    - apply IHv; [exact Hw|]. eapply reds_trans; [exact Hr|apply reds_one; exact Hw].
    - eapply IH; eassumption.
  Qed.
  Definition lower (deep : bool) (v u : tm) : Prop := if deep then clos_trans tm wpart v u else smaller sg v u.
  Lemma lower_red deep u v : red u v -> lower deep v u.
  Proof. intros H. destruct deep; apply t_step; left; exact H. Qed.
  Lemma acc_lower deep u : good u -> (deep = true -> W u) -> Acc (lower deep) u.
  Proof. intros H1 H2. destruct deep; [apply Acc_clos_trans, acc_wpart, H2; reflexivity|]. apply (acc_smaller sg). apply H1. Qed.
  Lemma below_lower s p x m : below_at rank p x m -> forall u, inst s p u -> forall vs, length vs = m -> Forall good vs -> clos_trans tm wpart (apps (s x) vs) u.
  Proof.
    induction 1 as [c ps i x m H1 H2|c ps i q x m H1 H2 _ IH]; intros u Hu vs Hl HF; inversion Hu as [| |? ? us HUs]; subst;
      destruct (Forall2_nth_l _ _ _ _ _ HUs H2) as (w & Hw & Hi).
    - inversion Hi; subst. apply t_step. right. exists c, us, i, (s x), (length vs), vs. auto 8.
    - eapply t_trans; [apply (IH w Hi vs eq_refl HF)|]. apply t_step. right. exists c, us, i, w, 0, []. auto 8.
  Qed.
  Lemma dom_sub k : forall A B s, dom k A = Some B -> exists s', dom k (sub s A) = Some (sub s' B).
  Proof.
    induction k as [|k IH]; intros A B s; destruct A; cbn; try discriminate; [intros [= <-]; eauto|apply IH].
  Qed.
  Lemma spine_dom A us T : spine A us T -> forall k B, dom k A = Some B -> base_of false B ->
    (k < length us -> W (nth k us Typ)) /\
    (length us <= k -> exists T0 B0, conv T T0 /\ dom (k - length us) T0 = Some B0 /\ base_of false B0).
  Proof.
    induction 1 as [T C|us T B C RB u T1 H IH C1 HB Hu C2]; intros k X HX Hb.
    - split; [cbn; lia|]. intros _. exists A, X. rewrite Nat.sub_0_r. split; [apply conv_sym; exact C|auto].
    - destruct (IH k X HX Hb) as [I1 I2]. rewrite app_length. cbn [length]. split.
      + intros Hk. destruct (Nat.lt_ge_cases k (length us)) as [Hlt|Hge]; [rewrite app_nth1 by exact Hlt; apply I1; exact Hlt|].
        assert (k = length us) as -> by lia. rewrite app_nth2, Nat.sub_diag by lia. cbn. destruct I2 as (T0 & B0 & K1 & K2 & K3); [lia|].
        rewrite Nat.sub_diag in K2. destruct T0 as [| | | | | | |B1 C3]; try discriminate. injection K2 as ->.
        assert (P : conv (Pi B C) (Pi B0 C3)) by (eapply conv_trans; [apply conv_sym; exact C1|exact K1]). destruct (Hpi _ _ _ _ P) as [PB _].
        apply (ity_fun _ _ HB _ _ PB (base_ity false B0 B0 K3 (conv_refl _ _))). exact Hu.
      + intros Hk. destruct I2 as (T0 & B0 & K1 & K2 & K3); [lia|]. replace (k - length us) with (S (k - (length us + 1))) in K2 by lia.
        destruct T0 as [| | | | | | |B1 C3]; try discriminate. cbn in K2.
        assert (P : conv (Pi B C) (Pi B1 C3)) by (eapply conv_trans; [apply conv_sym; exact C1|exact K1]). destruct (Hpi _ _ _ _ P) as [_ PC].
        destruct (dom_sub _ C3 _ (scons u Var) K2) as (s' & Hs'). exists (subst1 u C3), (sub s' B0). split; [|split; [exact Hs'|apply base_sub; exact K3]].
        eapply conv_trans; [apply conv_sym; exact C2|]. apply conv_subst1; [apply conv_refl|exact PC].
  Qed.

  (** ** A symbol with rules *)
  Section Symbol.
    Variables (f n k : nat) (deep : bool) (Af : tm).
    Hypothesis HAf : sg_type sg f = Some Af.
    Hypothesis Hkd : exists R, ity_kd (strip Af) R.
    Hypothesis Hlt : forall d A, d < f -> sg_type sg d = Some A -> exists R, isem (strip A) R /\ R (Const d).
    Hypothesis Hrules : forall r0, rule_of sg f r0 -> length (sr_args r0) = n /\ exists r, common_type sg f r /\ usable r /\ length (sr_args r) = n /\ Forall (idata sg fl rank) (sr_args r) /\
      rhs_ok f k (calls rank deep (sr_args r) k) (strip (sr_rhs r)) /\
      forall s ts, Forall2 (inst s) (sr_args r0) ts -> exists s', Forall2 (inst s') (sr_args r) ts /\ sub s (strip (sr_rhs r0)) = sub s' (strip (sr_rhs r)).
    Hypothesis Hdeep : deep = true -> exists B, dom k (strip Af) = Some B /\ base_of false B.
    Hypothesis Hex : exists r, rule_of sg f r.

    Lemma under_applied us : length us < n -> Forall good us ->
      good (apps (Const f) us) /\ forall v, reds (apps (Const f) us) v -> exists us', v = apps (Const f) us'.
    Proof.
      intros Hlen HF.
      assert (St : forall us v, length us < n -> red (apps (Const f) us) v -> exists us', lstep red us us' /\ length us' = length us /\ v = apps (Const f) us').
      { clear us Hlen HF. intros us v Hlen Hv. apply red_call in Hv. destruct Hv as [(us' & Hst & ->)|(r & s & us1 & us2 & -> & Hr & Hi & _)].
        - exists us'. split; [exact Hst|]. split; [|reflexivity]. clear - Hst. induction Hst; cbn; congruence.
        - destruct (Hrules r Hr) as (Hl & _). apply Forall2_len in Hi. rewrite app_length in Hlen. lia. }
      split.
      - split.
        + assert (Hs : Forall sn us) by (apply Forall_forall; intros u Hu; rewrite Forall_forall in HF; apply HF; exact Hu).
          pose proof (sn_lists sg us Hs) as Ha. clear HF Hs. induction Ha as [us _ IH]. constructor. intros v Hv. destruct (St _ _ Hlen Hv) as (us' & H1 & H2 & ->). apply IH; [exact H1|lia].
        + apply dfree_apps_intro; [reflexivity|]. apply Forall_forall. intros u Hu. rewrite Forall_forall in HF. apply HF. exact Hu.
      - intros v Hv. remember (apps (Const f) us) as t eqn:E. revert us Hlen HF E. induction Hv as [t|t u v Ht _ IH]; intros us Hlen HF ->; [eauto|].
        destruct (St _ _ Hlen Ht) as (us' & H1 & H2 & ->). apply (IH us'); [lia| |reflexivity]. clear - HF H1 Ho. induction H1; inversion HF; subst; constructor; auto. eapply good_red; eassumption.
    Qed.

    (** the types of patterns and of what they match *)
    Lemma spine_typed D s ls : forall T T', wt D (apps (Const f) ls) T -> spine (strip Af) (map (sub s) ls) T' ->
      conv T' (sub s T) /\ Forall (fun l => exists B R, wt D l B /\ ity (sub s B) R /\ R (sub s l)) ls.
    Proof.
      induction ls as [|l ls IH] using rev_ind; intros T T' H Hs.
      - split; [|constructor]. apply spine_nil in Hs. apply wgen_const in H as (A & HA & C). rewrite HAf in HA. injection HA as <-.
        eapply conv_trans; [apply conv_sym; exact Hs|]. rewrite <- (Hclosed _ _ HAf s). apply conv_sub. exact C.
      - rewrite apps_snoc in H. apply wgen_app in H as (A & B & Ht & Hu & C). rewrite map_app in Hs. cbn in Hs. apply spine_last in Hs as (T0 & B' & C' & RB & H1 & H2 & H3 & H4 & H5).
        destruct (IH _ _ Ht H1) as [I1 I2]. assert (P : conv (Pi B' C') (Pi (sub s A) (sub (up s) B))) by (eapply conv_trans; [apply conv_sym; exact H2|exact I1]).
        destruct (Hpi _ _ _ _ P) as [PB PC]. split.
        + eapply conv_trans; [apply conv_sym; exact H5|]. eapply conv_trans; [apply (conv_subst1 sg _ (sub s l)); [apply conv_refl|exact PC]|]. rewrite <- sub_subst1. apply conv_sub. exact C.
        + apply Forall_app. split; [exact I2|]. constructor; [|constructor]. exists A, RB. split; [exact Hu|]. split; [eapply ity_conv; eassumption|exact H4].
    Qed.
    Lemma insts_sub s ps : Forall no_joker ps -> forall ls us, Forall2 (inst Var) ps ls -> Forall2 (inst s) ps us -> us = map (sub s) ls.
    Proof.
      induction 1 as [|p ps Hp _ IH]; intros ls us H1 H2; inversion H1; subst; inversion H2; subst; cbn; [reflexivity|]. f_equal; [|auto].
      symmetry. eapply winst_sub; eassumption.
    Qed.

    (** partial applications of [f] are reducible if all complete ones are *)
    Lemma partial_sem (P : list tm -> Prop) :
      (forall us u, P us -> P (us ++ [u])) ->
      (forall us T R, P us -> length us = n -> spine (strip Af) us T -> ity_kd T R -> R (apps (Const f) us)) ->
      forall j us T R, j + length us = n -> P us -> spine (strip Af) us T -> ity_kd T R -> R (apps (Const f) us).
    Proof.
      intros HP Hfull. induction j as [|j IH]; intros us T R Hj Hus Hs HR; [eapply Hfull; eassumption|].
      destruct (under_applied us) as [Hg Hred]; [lia|eapply spine_good; exact Hs|]. destruct Hex as (r0 & Hr0).
      assert (Hf : forall c vs, reds (apps (Const f) us) (apps (Const c) vs) -> c = f) by (intros c vs H; apply Hred in H as (us' & E); apply apps_const_inj in E as [E _]; exact E).
      assert (Hpi' : forall B C RB RC, ity B RB -> conv T (Pi B C) -> (forall u, RB u -> ity_kd (subst1 u C) (RC u)) ->
        forall u, RB u -> RC u (App (apps (Const f) us) u)).
      { intros B C RB RC HB HT HC u Hu. rewrite <- apps_snoc. apply (IH (us ++ [u]) (subst1 u C)); [rewrite app_length; cbn; lia|apply HP; exact Hus| |apply HC; exact Hu].
        eapply sp_snoc; [exact Hs|exact HT|exact HB|exact Hu|apply conv_refl]. }
      destruct HR as [HR|HR]; [destruct HR as [A R0 _ E|A R0 _ E|A B C RB RC R0 HA HB HC E]|destruct HR as [A R0 _ E|A B C RB RC R0 HA HB HC E]]; apply E.
      - exact Hg.
      - constructor; [exact Hg|]. intros c vs i u m ws H Hi. apply Hf in H. subst c. exfalso. destruct (rank_inert sg fl rank Hrank _ _ _ Hi) as [Hn _]. exact (Hn _ Hr0).
      - split; [exact Hg|]. eapply Hpi'; [exact HB|exact HA|]. intros u Hu. left. apply HC. exact Hu.
      - split; [exact Hg|]. exists W. apply ity_atom; [|reflexivity]. apply (stuck_atomic sg Ho He); [apply Hg|]. intros v Hv. apply Hred in Hv as (us' & ->). split.
        + destruct (apps_const_cases f us') as [[_ ->]|(t1 & t2 & _ & ->)]; exact I.
        + intros (c & Hc & Hn & _). rewrite head_apps in Hc. cbn in Hc. injection Hc as <-. exact (Hn _ Hr0).
      - split; [exact Hg|]. eapply Hpi'; [exact HB|exact HA|]. intros u Hu. right. apply HC. exact Hu.
    Qed.

    Lemma call_sem us T R : length us = n -> spine (strip Af) us T -> ity_kd T R -> R (apps (Const f) us).
    Proof.
      assert (X : forall m, Acc (lower deep) m -> forall us, Acc (fun l' l => lstep red l l') us -> nth k us Typ = m ->
        forall T R, length us = n -> spine (strip Af) us T -> ity_kd T R -> R (apps (Const f) us)).
      2:{ intros Hl Hs HR. pose proof (spine_good _ _ _ Hs) as Hg.
          apply (X (nth k us Typ)) with (T := T); try assumption; [|apply sn_lists; apply Forall_forall; intros u Hu; rewrite Forall_forall in Hg; apply Hg; exact Hu|reflexivity].
          assert (Hty : good Typ) by (split; [constructor; intros u Hu; apply red_inv in Hu; contradiction|reflexivity]).
          destruct (Nat.lt_ge_cases k (length us)) as [Hk|Hk].
          - apply acc_lower; [rewrite Forall_forall in Hg; apply Hg, nth_In, Hk|]. intros Hd. destruct (Hdeep Hd) as (B & H1 & H2). apply (spine_dom _ _ _ Hs _ _ H1 H2). exact Hk.
          - rewrite nth_overflow by exact Hk. apply acc_lower; [exact Hty|]. intros _. constructor; [exact Hty|]. intros c vs i u m ws H. apply reds_sort in H; [|auto].
            destruct (apps_const_cases c vs) as [[_ E]|(t1 & t2 & _ & E)]; rewrite E in H; discriminate. }
      clear us T R. intros m Hm. induction Hm as [m _ IHm]. intros us Hus. induction Hus as [us Hus IHus]. intros Em T R Hlen Hs HR.
      pose proof (spine_good _ _ _ Hs) as Hg. apply (cand_exp _ _ (kd_cand _ _ HR)).
      - split; [destruct (apps_const_cases f us) as [[_ ->]|(t1 & t2 & _ & ->)]; exact I|]. split; [split|].
        + intros b E. destruct (apps_const_cases f us) as [[_ E']|(t1 & t2 & _ & E')]; rewrite E' in E; discriminate.
        + intros c r Hc Hr. rewrite head_apps in Hc. cbn in Hc. injection Hc as <-. rewrite nargs_apps. cbn. destruct (Hrules r Hr) as (E & _). lia.
        + intros c Hc. rewrite head_apps in Hc. cbn in Hc. injection Hc as <-. exact Hex.
      - apply dfree_apps_intro; [reflexivity|]. apply Forall_forall. intros u Hu. rewrite Forall_forall in Hg. apply Hg. exact Hu.
      - intros v Hv. apply red_call in Hv. destruct Hv as [(us' & Hst & ->)|(r0 & s0 & us1 & us2 & -> & Hr & Hi0 & ->)].
        + pose proof (spine_step _ _ _ Hs _ Hst) as Hs'. assert (Hlen' : length us' = n) by (rewrite <- Hlen; clear - Hst; induction Hst; cbn; congruence).
          destruct (lstep_nth _ _ _ Hst k Typ) as [E|E].
          * apply (IHus us' Hst) with (T := T); try assumption. congruence.
          * apply (IHm (nth k us' Typ)) with (T := T); try assumption; [apply lower_red; rewrite <- Em; exact E|apply Hus; exact Hst|reflexivity].
        + destruct (Hrules r0 Hr) as (Hlr0 & r & Hty & Hus0 & Hlr & Hda & Hgd & Hinst).
          assert (us2 = []) as ->.
          { apply Forall2_len in Hi0. rewrite app_length in Hlen. destruct us2; [reflexivity|cbn in Hlen; lia]. }
          rewrite app_nil_r in *. cbn [apps]. destruct (Hinst s0 us1 Hi0) as (s & Hi & ->). clear Hinst Hi0 s0. pose proof Hty as (Hj & D & l0 & A & K1 & K2 & K3 & K4 & K5). inversion K3 as [| |c0 ps0 L HL]; subst l0 ps0 c0.
          pose proof (insts_sub s _ Hj _ _ HL Hi) as Eus. rewrite Eus in Hs. destruct (spine_typed D s L A T K4 Hs) as [CT HFL]. rewrite <- Eus in Hs.
          apply (proj1 (rhs_sem f k Af (fun v => lower deep v m /\ k < n) HAf Hkd Hlt
            ltac:(intros us v T0 R0 Eu Hs0 [Hv Hk] HR0;
                  apply (partial_sem (fun us0 => k < length us0 /\ nth k us0 Typ = v)
                    ltac:(intros us0 u0 [P1 P2]; rewrite app_length; split; [cbn; lia|]; rewrite app_nth1 by exact P1; exact P2)
                    ltac:(intros us0 T1 R1 [P1 P2] L0 S0 R0';
                          apply (IHm v) with (T := T1); try assumption; apply sn_lists; pose proof (spine_good _ _ _ S0) as G0; apply Forall_forall; intros u0 Hu0; rewrite Forall_forall in G0; apply G0; exact Hu0)
                    (n - length (us ++ [v])) (us ++ [v]) T0); try assumption;
                  rewrite app_length; cbn [length]; [lia|split; [lia|]; rewrite app_nth2, Eu, Nat.sub_diag by lia; reflexivity])) _ _ Hgd D A s R K5).
          2:{ left. eapply kd_conv; eassumption. }
          split.
          * (* the variables are reducible *)
            intros x B HB. assert (Hx : In x (flat_map pat_vars (sr_args r))).
            { apply Hus0. rewrite <- K1. apply nth_error_Some. congruence. }
            clear Hgd Hlr Hus0 K5 Em IHus Hus Hlen IHm Hty Hs K3 K4 Eus Hg. revert us1 L Hi HL HFL Hj Hda Hx.
            induction (sr_args r) as [|p ps IHp]; intros us1 L Hi HL HFL Hj Hda Hx; [destruct Hx|].
            inversion Hi as [|? u ? us Hu Hus']; subst. inversion HL as [|? w ? ws Hw Hws]; subst. inversion HFL as [|? ? (B0 & R0 & M1 & M2 & M3) Hfl]; subst.
            inversion Hj as [|? ? Hj1 Hj2]; subst. inversion Hda as [|? ? Hd1 Hd2]; subst. cbn in Hx. apply in_app_or in Hx. destruct Hx as [Hx|Hx]; [|eapply IHp; eassumption].
            rewrite (winst_sub s p Hj1 w u Hw Hu) in M3. eapply pat_sem; eassumption.
          * (* calls are for smaller arguments *)
            intros x j (c & qs & Hp & Hx) vs Hvs HFv. assert (Hk : k < n) by (rewrite <- Hlr; apply nth_error_Some; congruence). split; [|exact Hk].
            destruct (Forall2_nth_l _ _ _ _ _ Hi Hp) as (u & Hu & Hui). apply (nth_error_nth _ _ Typ) in Hu. rewrite Em in Hu. subst u. unfold lower. destruct deep.
            -- eapply below_lower; eassumption.
            -- destruct Hx as [Hx ->]. destruct vs; [|discriminate]. cbn [apps]. inversion Hui as [| |? ? ts Hts]; subst.
               apply in_flat_map in Hx as (q & Hq & Hx).
               assert (exists u, In u ts /\ inst s q u) as (u & Hin & Hqu).
               { clear - Hts Hq. induction Hts as [|p u ps us H _ IH]; [destruct Hq|]. destruct Hq as [->|Hq]; [exists u; split; [left; reflexivity|exact H]|].
                 destruct (IH Hq) as (v & ? & ?). exists v. split; [right; assumption|assumption]. }
               destruct (inst_part sg _ _ _ _ Hqu Hx) as [->|H']; [apply smaller_arg; exact Hin|eapply t_trans; [exact H'|apply smaller_arg; exact Hin]].
    Qed.
    Lemma fun_sem R : ity_kd (strip Af) R -> R (Const f).
    Proof.
      intros HR. apply (partial_sem (fun _ => True) (fun _ _ _ => I) (fun us T R _ => call_sem us T R) n [] (strip Af) R); [cbn; lia|exact I|apply sp_nil, conv_refl|exact HR].
    Qed.
  End Symbol.
End Fun.

(** ** Normalisation *)
Lemma built_symbol sg : built sg -> forall c A, sg_type sg c = Some A ->
  exists sg0 s, sig_mono sg0 sg /\ (forall d, sg_type sg0 d <> None -> d < c) /\ (s = Typ \/ s = Kind) /\ well_typed sg0 [] (strip A) s /\
    forall rs r, sg_rules sg c = Some rs -> In r rs -> (exists t, r = MkSRule 0 [] t /\ well_typed sg0 [] (strip t) (strip A)) \/ sr_args r <> [].
Proof.
  induction 1 as [sg HT HR HE|sg c A rs sg' s Hb IH Hc HK Hs HA Hrs Hx|sg c A t sg' s Hb IH Hc HK Hs HA Hsc Ht Hx|sg rs sg' Hb IH Hrs Hx]; intros d B.
  - rewrite HT. discriminate.
  - pose proof (built_extends _ _ _ _ _ Hb Hx) as M. destruct Hx as (_ & HT & HR & _). rewrite HT, HR. destruct (Nat.eqb_spec d c) as [->|].
    + intros [= <-]. exists sg, s. repeat split; try assumption; try apply M. intros l r E. destruct Hrs as [-> | ->]; [discriminate|]. injection E as <-. intros [].
    + intros HB. destruct (IH _ _ HB) as (sg0 & s0 & M0 & H). exists sg0, s0. split; [eapply sig_mono_trans; eassumption|exact H].
  - pose proof (built_extends _ _ _ _ _ Hb Hx) as M. destruct Hx as (_ & HT & HR & _). rewrite HT, HR. destruct (Nat.eqb_spec d c) as [->|].
    + intros [= <-]. exists sg, s. repeat split; try assumption; try apply M. intros l r [= <-] [<-|[]]. left. eauto.
    + intros HB. destruct (IH _ _ HB) as (sg0 & s0 & M0 & H). exists sg0, s0. split; [eapply sig_mono_trans; eassumption|exact H].
  - pose proof (rules_mono _ _ _ Hx) as M. destruct Hx as (_ & HT & HR & _). rewrite HT, HR. intros HB. destruct (IH _ _ HB) as (sg0 & s0 & M0 & H1 & H2 & H3 & H4).
    exists sg0, s0. split; [eapply sig_mono_trans; eassumption|]. repeat (split; [assumption|]). intros l r. destruct (sg_rules sg d) as [l0|]; [|discriminate]. intros [= <-] Hin.
    apply in_app_or in Hin as [Hin|Hin]; [apply (H4 _ _ eq_refl Hin)|]. right. apply rules_for_in in Hin as (v & Hv & <- & ->).
    rewrite Forall_forall in Hrs. apply (Hrs _ Hv).
Qed.

(** ** Variables for jokers *)
Lemma fill_idata sg fl rank f p : forall q, fill f p q -> idata sg fl rank p -> idata sg fl rank q.
Proof.
  induction p as [c ps IH|x|] using pat_ind'; intros q H Hd; inversion H as [| |? ? qs HF]; subst; try constructor; inversion Hd as [| |? ? H1 H2 H3]; subst.
  - assumption.
  - rewrite <- H2. symmetry. eapply Forall2_len. exact HF.
  - clear - IH HF H3. induction HF; inversion IH; inversion H3; subst; constructor; auto.
Qed.
Lemma fill_nth f ps qs i p : Forall2 (fill f) ps qs -> nth_error ps i = Some p -> exists q, nth_error qs i = Some q /\ fill f p q.
Proof. intros HF. revert i. induction HF as [|a b ps qs Hab _ IH]; intros [|i]; cbn; try discriminate; [intros [= ->]; eauto|apply IH]. Qed.
Lemma fill_below rank f p x m : below_at rank p x m -> forall q, fill f p q -> below_at rank q (f x) m.
Proof.
  induction 1 as [c ps i x m H1 H2|c ps i p x m H1 H2 _ IH]; intros q Hq; inversion Hq as [| |? ? qs HF]; subst.
  - destruct (fill_nth _ _ _ _ _ HF H2) as (q & Hq1 & Hq2). inversion Hq2; subst. eapply ba_here; eassumption.
  - destruct (fill_nth _ _ _ _ _ HF H2) as (q & Hq1 & Hq2). eapply ba_there; [exact H1|exact Hq1|]. apply IH. exact Hq2.
Qed.
Lemma fill_calls rank deep f ps qs k x m : Forall2 (fill f) ps qs -> calls rank deep ps k x m -> calls rank deep qs k (f x) m.
Proof.
  intros HF (c & ps' & H1 & H2). destruct (fill_nth _ _ _ _ _ HF H1) as (q & Hq1 & Hq2). inversion Hq2 as [| |? ? qs' HF']; subst.
  exists c, qs'. split; [exact Hq1|]. destruct deep; [eapply fill_below; eassumption|]. destruct H2 as [H2 ->]. split; [|reflexivity].
  exact (fill_vars f (PatSymb c ps') _ _ Hq2 H2).
Qed.
Lemma rhs_ren f k :
  (forall X t, rhs_ok f k X t -> forall (Y : nat -> nat -> Prop) g, (forall x m, X x m -> Y (g x) m) -> rhs_ok f k Y (ren g t)) /\
  (forall X t, rhs_ne f k X t -> forall (Y : nat -> nat -> Prop) g, (forall x m, X x m -> Y (g x) m) -> rhs_ne f k Y (ren g t)) /\
  (forall X j t, rhs_part f k X j t -> forall (Y : nat -> nat -> Prop) g, (forall x m, X x m -> Y (g x) m) -> rhs_part f k Y j (ren g t)).
Proof.
  assert (U : forall (X Y : nat -> nat -> Prop) g, (forall x m, X x m -> Y (g x) m) -> forall x m, shifted X x m -> shifted Y (up_ren g x) m).
  { intros X Y g H [|x] m; cbn; [tauto|]. apply H. }
  apply rhs_mutind; intros; cbn [ren]; try (constructor; auto; fail).
  - apply ro_ulam. apply H. apply U. exact H0.
  - apply ro_pi; [auto|]. apply H0. apply U. exact H1.
  - rewrite ren_apps. cbn [ren]. apply rn_call; [auto| |rewrite map_length; auto]. specialize (H0 Y g H1). rewrite ren_apps in H0. exact H0.
Qed.

Section Final.
  Variable sg : sig.
  Hypothesis Hb : built sg.
  Hypothesis Ho : complete sg.
  Variables (fl : nat -> bool) (rank : nat -> list (option nat)).
  Hypothesis Hrank : forall c, rank c <> [] -> constructor sg fl rank c.
  Variables (n k : nat -> nat) (deep : nat -> bool).
  Hypothesis Hind : forall c, (forall r, rule_of sg c r -> sr_args r = []) \/ forall r, rule_of sg c r -> inductive_rule sg fl rank c (n c) (k c) (deep c) r.
  Let He : sg_eta sg = false := built_eta sg Hb.

  Lemma ind_closed c A : sg_type sg c = Some A -> forall s, sub s (strip A) = strip A.
  Proof. intros HA s. destruct (built_symbol sg Hb c A HA) as (sg0 & q & _ & _ & _ & H & _). apply wt_scoped in H. rewrite (sub_scoped _ 0 s Var H); [apply sub_id|]. intros m Hm. lia. Qed.
  Lemma ind_const c : forall A, sg_type sg c = Some A -> exists R, isem sg fl rank (strip A) R /\ R (Const c).
  Proof.
    pattern c. apply lt_wf_ind. clear c. intros c IH A HA. destruct (built_symbol sg Hb c A HA) as (sg0 & s & M & Hd & Hs & Hwt & Hru).
    assert (Hconst : forall d B, sg_type sg0 d = Some B -> (forall s, sub s (strip B) = strip B) /\ exists R, isem sg fl rank (strip B) R /\ R (Const d)).
    { intros d B HB. assert (HB' : sg_type sg d = Some B) by (apply M; exact HB). split; [apply (ind_closed d B HB')|]. apply (IH d); [|exact HB']. apply Hd. congruence. }
    assert (Hnil : forall s, sem_ctx sg fl rank [] s) by (intros q x B HB; destruct x; discriminate).
    pose proof (wt_sem sg Ho He fl rank Hrank sg0 M Hconst _ _ _ Hwt Var (Hnil _)) as (R0 & H1 & H2). rewrite sub_id in H2.
    assert (E : sub Var s = s) by apply sub_id. rewrite E in H1. clear E.
    destruct (isem_sort sg Ho He fl rank Hrank _ _ _ Hs H1 H2) as (_ & R & HR). exists R. split; [left; exact HR|].
    destruct (rule_dec sg c) as [[r Hr]|Hc]; [|exact (const_sem sg Ho He fl rank Hrank c A R Hc HA HR)].
    assert (Hdef : (forall r, rule_of sg c r -> sr_args r = []) -> R (Const c)).
    { intros Hall. apply (cand_exp _ _ (kd_cand sg Ho He fl rank Hrank _ _ HR)).
      + split; [exact I|]. split; [split|].
        * discriminate.
        * intros d r' Hd' Hr'. injection Hd' as <-. rewrite (Hall _ Hr'). cbn. lia.
        * intros d Hd'. injection Hd' as <-. eauto.
      + reflexivity.
      + intros v Hv. change (Const c) with (apps (Const c) []) in Hv. apply red_call in Hv.
        destruct Hv as [(us' & Hst & _)|(r' & q & us1 & us2 & E & Hr' & Hi & ->)]; [inversion Hst|]. symmetry in E. apply app_eq_nil in E as [-> ->].
        pose proof (Hall _ Hr') as E0. destruct Hr' as (l & Hl & Hin & Hu). destruct (Hru l r' Hl Hin) as [(t & -> & Ht)|Hne]; [|destruct (Hne E0)]. cbn.
        destruct (wt_sem sg Ho He fl rank Hrank sg0 M Hconst _ _ _ Ht q (Hnil _)) as (R1 & K1 & K2). rewrite (ind_closed c A HA) in K1.
        apply (isem_fun sg Ho He fl rank Hrank _ _ _ _ K1 (conv_refl _ _) (or_introl HR)). exact K2. }
    destruct (Hind c) as [Hall|Hrec]; [exact (Hdef Hall)|]. destruct (Nat.eq_dec (n c) 0) as [En|En].
    { apply Hdef. intros r' Hr'. destruct (Hrec _ Hr') as (_ & El & _). rewrite En in El. destruct (sr_args r'); [reflexivity|discriminate]. }
    destruct (Hrec _ Hr) as (Hdeep & _).
    apply (fun_sem sg Ho He fl rank Hrank ind_closed c (n c) (k c) (deep c) A HA).
    - eauto.
    - intros d B Hlt HB. apply (IH d Hlt B HB).
    - intros r' Hr'. destruct (Hrec _ Hr') as (_ & El & Hda & Hgd). split; [exact El|]. pose proof Hr' as (l' & Hl' & Hin' & Hu').
      destruct (built_rule sg Hb c l' r' Hl' Hin') as [(t & B & -> & _)|[_ (r2 & Hn & Hty)]]; [cbn in El; congruence|].
      exists r2. split; [exact Hty|]. pose proof (named_inst _ _ Hn Hu') as Hinst.
      destruct Hn as [->|(_ & _ & Hu2 & _ & f & Hf & E)].
      + split; [exact Hu'|]. split; [exact El|]. split; [exact Hda|]. split; [exact Hgd|]. intros q ts Hi. exists q. auto.
      + split; [exact Hu2|]. split; [rewrite <- El; symmetry; eapply Forall2_len; exact Hf|]. split.
        { clear - Hf Hda. induction Hf; inversion Hda; subst; constructor; [eapply fill_idata; eassumption|auto]. }
        split; [rewrite E, strip_ren; apply (proj1 (rhs_ren c (k c)) _ _ Hgd); intros x m; apply fill_calls; exact Hf|].
        intros q ts Hi. destruct (Hinst q ts Hi) as (q' & _ & H3 & H4). eauto.
    - intros Hdp. destruct (Hdeep Hdp) as (A' & B & HA' & H). rewrite HA in HA'. injection HA' as <-. eauto.
    - eauto.
    - exact HR.
  Qed.
  Lemma ind_sn : normalising sg.
  Proof.
    intros G t A HG Ht. apply (typed_sn sg Ho He fl rank Hrank sg (sig_mono_refl sg)) with (G := G) (A := A); [|exact HG|exact Ht].
    intros c B HB. split; [apply (ind_closed c B HB)|apply ind_const; exact HB].
  Qed.
End Final.

Theorem inductive_normalising sg : built sg -> inductive_sig sg -> church_rosser sg /\ normalising sg.
Proof.
  intros Hb (_ & Ho & fl & rank & Hrank & n & k & deep & H). split; [apply complete_church_rosser; [exact Ho|apply built_eta; exact Hb]|].
  exact (ind_sn sg Hb Ho fl rank Hrank n k deep H).
Qed.
