(** * The reference machine on terms with other symbols *)

From Verif Require Import Base LibMono ModelSubst ModelReduce SpecTerm SpecConv SpecProcess SpecEmbed RefMachine RefMono RefInfer.

Open Scope sm_scope.

Definition cm_rule (f : nat -> nat) (r : srule) : srule := MkSRule (sr_vars r) (map (cm_pat f) (sr_args r)) (cm f (sr_rhs r)).

Section Map.
  Variable f : nat -> nat.
  Hypothesis Hf : injective f.
  Notation cm := (cm f).
  Notation cm_pat := (cm_pat f).
  Notation cm_rule := (cm_rule f).

  Lemma cm_ren t : forall r, cm (ren r t) = ren r (cm t).
  Proof. induction t; intros r; cbn; f_equal; auto. Qed.
  Lemma cm_lift n t : cm (lift n t) = lift n (cm t).
  Proof. apply cm_ren. Qed.
  Lemma cm_subst t : forall s s', (forall n, s' n = cm (s n)) -> cm (sub s t) = sub s' (cm t).
  Proof.
    assert (U : forall s s', (forall n, s' n = cm (s n)) -> forall n, up s' n = cm (up s n)).
    { intros s s' H [|n]; cbn; [reflexivity|]. rewrite H. symmetry. apply cm_ren. }
    induction t; intros s s' H; cbn; f_equal; auto.
  Qed.
  Lemma cm_subst1 u t : cm (subst1 u t) = subst1 (cm u) (cm t).
  Proof. apply cm_subst. intros [|n]; reflexivity. Qed.
  Lemma cm_apps us : forall t, cm (apps t us) = apps (cm t) (map cm us).
  Proof. induction us as [|u us IH]; intros t; cbn [apps fold_left map]; [reflexivity|]. apply (IH (App t u)). Qed.
  Lemma cm_inj t : forall u, cm t = cm u -> t = u.
  Proof. induction t; intros []; cbn; intros E; try discriminate; try reflexivity; injection E; intros; f_equal; auto. Qed.

  (** ** Computations *)
  Definition cst (st : rstate) : rstate := RState (rs_ctx st) (cm (rs_term st)) (rs_stack st).
  Definition cc (c : rcell) : rcell :=
    match c with
    | RCState st w b => RCState (cst st) w b
    | RCThunk (RDone t) => RCThunk (RDone (cm t))
    | RCThunk th => RCThunk th
    end.
  Definition eqv {A B} (g : A -> B) (m1 : RM A) (m2 : RM B) : Prop :=
    forall h, m2 (map cc h) = match m1 h with Ok (a, h') => Ok (g a, map cc h') | Err e => Err e | Panic => Panic | Fuel => Fuel end.

  Lemma eqv_ret {A B} (g : A -> B) a b : b = g a -> eqv g (ret a) (ret b).
  Proof. intros -> h. reflexivity. Qed.
  Lemma eqv_fail {A B} (g : A -> B) e : eqv g (fail e) (fail e).
  Proof. intros h. reflexivity. Qed.
  Lemma eqv_panic {A B} (g : A -> B) : eqv g panic panic.
  Proof. intros h. reflexivity. Qed.
  Lemma eqv_fuel {A B} (g : A -> B) : eqv g nofuel nofuel.
  Proof. intros h. reflexivity. Qed.
  Lemma eqv_bind {A B A' B'} (g : A -> B) (g' : A' -> B') m1 m2 k1 k2 : eqv g m1 m2 -> (forall a, eqv g' (k1 a) (k2 (g a))) -> eqv g' (bind m1 k1) (bind m2 k2).
  Proof. intros H Hk h. unfold bind. rewrite H. destruct (m1 h) as [[a h']| | |]; try reflexivity. apply Hk. Qed.
  Lemma eqv_read l : eqv cc (r_read l) (r_read l).
  Proof. intros h. unfold r_read. rewrite nth_error_map. destruct (nth_error h l); reflexivity. Qed.
  Lemma map_list_set {A B} (g : A -> B) l : forall n a, map g (list_set l n a) = list_set (map g l) n (g a).
  Proof. induction l as [|b l IH]; intros [|n] a; cbn; f_equal; auto. Qed.
  Lemma eqv_write l c c' : c' = cc c -> eqv (fun x : unit => x) (r_write l c) (r_write l c').
  Proof. intros -> h. unfold r_write. rewrite map_list_set. reflexivity. Qed.
  Lemma eqv_alloc c c' : c' = cc c -> eqv (fun l : loc => l) (r_alloc c) (r_alloc c').
  Proof. intros -> h. unfold r_alloc. rewrite map_app, map_length. reflexivity. Qed.
  Lemma eqv_usub n k : eqv (fun x : nat => x) (r_usub n k) (r_usub n k).
  Proof. unfold r_usub. destruct (k <=? n); [apply eqv_ret; reflexivity|apply eqv_panic]. Qed.
  Lemma eqv_fresh {A B} (g : A -> B) m1 m2 : eqv g m1 m2 -> eqv g (r_fresh m1) (r_fresh m2).
  Proof. intros H h. unfold r_fresh. specialize (H []). cbn in H. rewrite H. destruct (m1 []) as [[a h']| | |]; reflexivity. Qed.
  Lemma eqv_ext {A B} (g g' : A -> B) m1 m2 : (forall a, g a = g' a) -> eqv g m1 m2 -> eqv g' m1 m2.
  Proof. intros E H h. rewrite H. destruct (m1 h) as [[a h']| | |]; try reflexivity. rewrite E. reflexivity. Qed.
  Lemma eqv_mapM {A B} (g : A -> B) (k1 : loc -> RM A) k2 l : (forall x, eqv g (k1 x) (k2 x)) -> eqv (map g) (mapM k1 l) (mapM k2 l).
  Proof.
    intros H. induction l as [|x l IH]; cbn; [apply eqv_ret; reflexivity|]. eapply eqv_bind; [apply H|]. intros a. eapply eqv_bind; [exact IH|]. intros l'. apply eqv_ret. reflexivity.
  Qed.
  Lemma eqv_borrow l : eqv cst (r_borrow l) (r_borrow l).
  Proof.
    eapply eqv_bind; [apply eqv_read|]. intros [st w []|[| |]]; cbn; try apply eqv_panic. apply eqv_ret. reflexivity.
  Qed.
  Lemma eqv_rsub k1 k2 : (forall n k, eqv cm (k1 n k) (k2 n k)) -> forall t k, eqv cm (rsub k1 t k) (rsub k2 (cm t) k).
  Proof.
    intros H t. induction t; intros k; cbn [rsub SpecEmbed.cm]; try (apply eqv_ret; reflexivity).
    - destruct (k <=? n); [apply H|apply eqv_ret; reflexivity].
    - eapply eqv_bind; [apply IHt1|]. intros a. eapply eqv_bind; [apply IHt2|]. intros b. apply eqv_ret. reflexivity.
    - eapply eqv_bind; [apply IHt2|]. intros a. eapply eqv_bind; [apply IHt1|]. intros b. apply eqv_ret. reflexivity.
    - eapply eqv_bind; [apply IHt|]. intros a. apply eqv_ret. reflexivity.
    - eapply eqv_bind; [apply IHt1|]. intros a. eapply eqv_bind; [apply IHt2|]. intros b. apply eqv_ret. reflexivity.
  Qed.
  Lemma eqv_psubst k1 k2 args n k : (forall l, eqv cm (k1 l) (k2 l)) -> eqv cm (r_psubst k1 args n k) (r_psubst k2 args n k).
  Proof.
    intros H. unfold r_psubst. eapply eqv_bind; [apply eqv_usub|]. intros d. cbn. destruct (nth_error args d).
    - eapply eqv_bind; [apply H|]. intros t. apply eqv_ret. symmetry. apply cm_lift.
    - eapply eqv_bind; [apply eqv_usub|]. intros m. apply eqv_ret. reflexivity.
  Qed.
  Lemma eqv_of_state k1 k2 j1 j2 st : (forall l, eqv cm (k1 l) (k2 l)) -> (forall l, eqv cm (j1 l) (j2 l)) -> eqv cm (r_of_state k1 j1 st) (r_of_state k2 j2 (cst st)).
  Proof.
    intros H1 H2. unfold r_of_state. destruct st as [ctx t stack]. cbn [cst rs_ctx rs_term rs_stack]. apply (eqv_bind cm).
    - destruct ctx; [apply eqv_ret; reflexivity|]. apply eqv_rsub. intros. apply eqv_psubst. exact H1.
    - intros t'. eapply eqv_bind; [apply eqv_mapM; exact H2|]. intros us. apply eqv_ret. symmetry. apply cm_apps.
  Qed.
  Lemma eqv_force n : (forall l, eqv cm (r_force n l) (r_force n l)) /\ forall l, eqv cm (r_of_rstate n l) (r_of_rstate n l).
  Proof.
    induction n as [|n [IH1 IH2]]; [split; intros; apply eqv_fuel|]. split; intros l.
    - cbn [r_force]. eapply eqv_bind; [apply eqv_read|]. intros [st w b|[l'| |t]]; cbn [cc]; try apply eqv_panic; [|apply eqv_ret; reflexivity].
      eapply eqv_bind; [apply eqv_write; reflexivity|]. intros _. eapply eqv_bind; [apply IH2|]. intros t.
      eapply eqv_bind; [apply eqv_write; reflexivity|]. intros _. apply eqv_ret. reflexivity.
    - cbn [r_of_rstate]. eapply eqv_bind; [apply eqv_borrow|]. intros st. apply eqv_of_state; assumption.
  Qed.

  (** ** Matching *)
  Section Match.
    Variables w1 w2 : loc -> RM unit.
    Hypothesis Hw : forall l, eqv (fun x => x) (w1 l) (w2 l).
    Lemma f_eqb c d : (f c =? f d) = (c =? d).
    Proof. destruct (Nat.eqb_spec c d) as [->|N]; [apply Nat.eqb_refl|]. apply Nat.eqb_neq. intros E. apply N, Hf, E. Qed.
    Lemma eqv_match_pat : forall p l sb, eqv (fun x => x) (r_match_pat w1 l p sb) (r_match_pat w2 l (cm_pat p) sb).
    Proof.
      fix IH 1. intros [c ps|m|] l sb; cbn [r_match_pat SpecEmbed.cm_pat]; try (apply eqv_ret; reflexivity).
      eapply eqv_bind; [apply Hw|]. intros _. eapply eqv_bind; [apply eqv_borrow|]. intros [ctx t stack]. cbn [cst rs_term rs_stack].
      destruct t; cbn [SpecEmbed.cm]; try (apply eqv_ret; reflexivity). rewrite f_eqb, map_length.
      destruct (_ && _); [|apply eqv_ret; reflexivity].
      revert stack sb. induction ps as [|p ps IHps]; intros stack sb; [apply eqv_ret; reflexivity|].
      destruct stack as [|l' stack]; [apply eqv_ret; reflexivity|].
      cbn [map]. eapply eqv_bind; [apply IH|]. intros [sb'|]; [apply IHps|apply eqv_ret; reflexivity].
    Qed.
    Lemma eqv_match_pats : forall ps stack sb, eqv (fun x => x) (r_match_pats w1 stack ps sb) (r_match_pats w2 stack (map cm_pat ps) sb).
    Proof.
      induction ps as [|p ps IH]; intros stack sb; [apply eqv_ret; reflexivity|]. destruct stack as [|l stack]; [apply eqv_ret; reflexivity|].
      cbn [map r_match_pats]. eapply eqv_bind; [apply eqv_match_pat|]. intros [sb'|]; [apply IH|apply eqv_ret; reflexivity].
    Qed.
    Lemma eqv_match_rule stack r : eqv (fun x => x) (r_match_rule w1 stack r) (r_match_rule w2 stack (cm_rule r)).
    Proof.
      unfold r_match_rule. cbn [cm_rule sr_args sr_vars RefMap.cm_rule]. rewrite map_length. destruct (_ <? _); [apply eqv_ret; reflexivity|apply eqv_match_pats].
    Qed.
    Variables (c1 c2 : tm -> tm -> RM bool) (n : nat).
    Hypothesis Hc : forall t u, eqv (fun x => x) (c1 t u) (c2 (cm t) (cm u)).
    Lemma eqv_all_conv_loop ls : forall t, eqv (fun x => x) (r_all_conv_loop c1 n t ls) (r_all_conv_loop c2 n t ls).
    Proof.
      induction ls as [|l ls IH]; intros t; cbn [r_all_conv_loop]; [apply eqv_ret; reflexivity|].
      eapply eqv_bind; [apply eqv_force|]. intros a. eapply eqv_bind; [apply eqv_force|]. intros b. eapply eqv_bind; [apply Hc|]. intros [|]; [apply IH|apply eqv_ret; reflexivity].
    Qed.
    Lemma eqv_all_conv ls : eqv (fun x => x) (r_all_conv c1 n ls) (r_all_conv c2 n ls).
    Proof.
      destruct ls as [|l ls]; [apply eqv_ret; reflexivity|]. eapply eqv_bind; [apply eqv_alloc; reflexivity|]. intros t. apply eqv_all_conv_loop.
    Qed.
    Lemma eqv_flatten sb : eqv (fun x => x) (r_flatten c1 n sb) (r_flatten c2 n sb).
    Proof.
      induction sb as [|ls sb IH]; cbn [r_flatten]; [apply eqv_ret; reflexivity|]. eapply eqv_bind; [exact IH|]. intros [ctx|]; [|apply eqv_ret; reflexivity].
      eapply eqv_bind; [apply eqv_all_conv|]. intros [t|]; apply eqv_ret; reflexivity.
    Qed.
    Lemma eqv_match_flatten stack r : eqv (fun x => x) (r_match_flatten w1 c1 n stack r) (r_match_flatten w2 c2 n stack (cm_rule r)).
    Proof. eapply eqv_bind; [apply eqv_match_rule|]. intros [sb|]; [apply eqv_flatten|apply eqv_ret; reflexivity]. Qed.
    Lemma eqv_first_match stack rs : eqv (option_map (fun x => (fst x, cm_rule (snd x)))) (r_first_match w1 c1 n stack rs) (r_first_match w2 c2 n stack (map cm_rule rs)).
    Proof.
      induction rs as [|r rs IH]; cbn [map r_first_match]; [apply eqv_ret; reflexivity|]. eapply eqv_bind; [apply eqv_match_flatten|]. intros [ctx|]; [apply eqv_ret; reflexivity|exact IH].
    Qed.
  End Match.

  (** ** Comparing *)
  Lemma spine_cm t : forall us, spine (cm t) (map cm us) = (cm (fst (spine t us)), map cm (snd (spine t us))).
  Proof. induction t; intros us; cbn [spine SpecEmbed.cm fst snd]; try reflexivity. apply (IHt1 (t2 :: us)). Qed.
  Definition cm2 (x : tm * tm) : tm * tm := (cm (fst x), cm (snd x)).
  Lemma r_step_cm eta t1 t2 : r_step eta (cm t1) (cm t2) = option_map (map cm2) (r_step eta t1 t2).
  Proof.
    assert (B : forall t, lam_body (cm t) = option_map cm (lam_body t)) by (intros []; reflexivity).
    assert (Sh : forall t, r_shift_app (cm t) = cm (r_shift_app t)) by (intros t; unfold r_shift_app; cbn [SpecEmbed.cm]; rewrite cm_lift; reflexivity).
    unfold r_step. rewrite !B, !Sh. destruct (lam_body t1), (lam_body t2); cbn [option_map]; try reflexivity; try (destruct eta; reflexivity).
    destruct t1, t2; cbn [SpecEmbed.cm]; try reflexivity.
    - rewrite f_eqb. destruct (_ =? _); reflexivity.
    - destruct (_ =? _); reflexivity.
    - change (App (cm t1_1) (cm t1_2)) with (cm (App t1_1 t1_2)). change (App (cm t2_1) (cm t2_2)) with (cm (App t2_1 t2_2)).
      pose proof (spine_cm (App t1_1 t1_2) []) as E1. pose proof (spine_cm (App t2_1 t2_2) []) as E2. cbn [map] in E1, E2. rewrite E1, E2.
      destruct (spine (App t1_1 t1_2) []) as [f1 us1], (spine (App t2_1 t2_2) []) as [f2 us2]. cbn [fst snd]. rewrite !map_length.
      destruct (_ =? _); [|reflexivity]. cbn [option_map]. f_equal. rewrite map_rev. cbn [map]. f_equal. f_equal.
      clear. revert us2. induction us1 as [|u us1 IH]; intros [|v us2]; cbn [combine map]; f_equal; auto.
  Qed.

  (** ** The machine *)
  Variables sg1 sg2 : sig.
  Hypothesis Ht : forall c, sg_type sg2 (f c) = option_map cm (sg_type sg1 c).
  Hypothesis Hr : forall c, sg_rules sg2 (f c) = option_map (map cm_rule) (sg_rules sg1 c).
  Hypothesis He : sg_eta sg2 = sg_eta sg1.

  Lemma eqv_rwhnf w1 w2 l : (forall st, eqv cst (w1 st) (w2 (cst st))) -> eqv (fun x => x) (r_rwhnf w1 l) (r_rwhnf w2 l).
  Proof.
    intros H. eapply eqv_bind; [apply eqv_read|]. intros [st [] []|[| |]]; cbn [cc]; try apply eqv_panic; [apply eqv_ret; reflexivity|].
    eapply eqv_bind; [apply eqv_write; reflexivity|]. intros _. eapply eqv_bind; [apply H|]. intros st'. apply eqv_write. reflexivity.
  Qed.
  Lemma eqv_unwind ctx t : forall stack, eqv (fun x => (cm (fst x), snd x)) (r_unwind ctx t stack) (r_unwind ctx (cm t) stack).
  Proof.
    induction t; intros stack; cbn [r_unwind SpecEmbed.cm]; try (apply eqv_ret; reflexivity). eapply eqv_bind; [apply eqv_alloc; reflexivity|]. intros l. apply IHt1.
  Qed.
  Lemma eqv_whnf_ n w1 w2 t : (forall st, eqv cst (w1 st) (w2 (cst st))) -> eqv cm (r_whnf_ n w1 t) (r_whnf_ n w2 (cm t)).
  Proof.
    intros H. apply eqv_fresh. eapply eqv_bind; [apply (H (RState [] t []))|]. intros st. apply eqv_of_state; apply eqv_force.
  Qed.
  Lemma eqv_head n w1 w2 c1 c2 ctx t stack : (forall st, eqv cst (w1 st) (w2 (cst st))) -> (forall t u, eqv (fun x => x) (c1 t u) (c2 (cm t) (cm u))) ->
    eqv cst (r_head sg1 n w1 c1 ctx t stack) (r_head sg2 n w2 c2 ctx (cm t) stack).
  Proof.
    intros Hw Hc. destruct t; cbn [r_head SpecEmbed.cm]; try (apply eqv_ret; reflexivity).
    - rewrite Hr. destruct (sg_rules sg1 c) as [rs|]; cbn [option_map]; [|apply eqv_ret; reflexivity].
      eapply eqv_bind; [apply eqv_first_match; [intros l; apply eqv_rwhnf; exact Hw|exact Hc]|]. intros [[ctx' r]|]; cbn [option_map fst snd]; [|apply eqv_ret; reflexivity].
      unfold RefMap.cm_rule. cbn [sr_args sr_rhs]. rewrite map_length. eapply eqv_bind; [apply eqv_usub|]. intros _. apply (Hw (RState ctx' (sr_rhs r) _)).
    - destruct (nth_error ctx n0).
      + eapply eqv_bind; [apply eqv_force|]. intros t. apply (Hw (RState [] t stack)).
      + eapply eqv_bind; [apply eqv_usub|]. intros m. apply eqv_ret. reflexivity.
    - apply eqv_panic.
    - destruct stack as [|l stack]; [apply eqv_ret; reflexivity|]. eapply eqv_bind; [apply eqv_alloc; reflexivity|]. intros th. apply (Hw (RState (th :: ctx) t2 stack)).
    - destruct stack as [|l stack]; [apply eqv_ret; reflexivity|]. eapply eqv_bind; [apply eqv_alloc; reflexivity|]. intros th. apply (Hw (RState (th :: ctx) t stack)).
  Qed.
  Lemma eqv_machine n : (forall st, eqv cst (r_state_whnf sg1 n st) (r_state_whnf sg2 n (cst st))) /\
    forall cns, eqv (fun x => x) (r_conv_loop sg1 n cns) (r_conv_loop sg2 n (map cm2 cns)).
  Proof.
    induction n as [|n [IH1 IH2]]; [split; intros; apply eqv_fuel|]. split.
    - intros [ctx t stack]. cbn [r_state_whnf cst rs_ctx rs_term rs_stack]. eapply eqv_bind; [apply eqv_unwind|]. intros [t' stack']. cbn [fst snd].
      apply eqv_head; [exact IH1|]. intros a b. apply (IH2 [(a, b)]).
    - intros [|[a b] cns]; cbn [r_conv_loop map cm2 fst snd]; [apply eqv_ret; reflexivity|].
      destruct (tm_eq_dec a b) as [->|N].
      + destruct (tm_eq_dec (cm b) (cm b)); [apply IH2|congruence].
      + destruct (tm_eq_dec (cm a) (cm b)) as [E|_]; [apply cm_inj in E; contradiction|].
        eapply eqv_bind; [apply eqv_whnf_; exact IH1|]. intros a'. eapply eqv_bind; [apply eqv_whnf_; exact IH1|]. intros b'.
        rewrite He, r_step_cm. destruct (r_step _ _ _) as [new|]; cbn [option_map]; [|apply eqv_ret; reflexivity]. rewrite <- map_app. apply IH2.
  Qed.
  Lemma eqv_whnf n t : eqv cm (r_whnf sg1 n t) (r_whnf sg2 n (cm t)).
  Proof. apply eqv_whnf_. apply eqv_machine. Qed.
  Lemma eqv_convertible n t u : eqv (fun x => x) (r_convertible sg1 n t u) (r_convertible sg2 n (cm t) (cm u)).
  Proof. apply (proj2 (eqv_machine n) [(t, u)]). Qed.

  (** ** Inferring and checking *)
  Lemma eqv_ok_or {A B} (g : A -> B) o o' e : o' = option_map g o -> eqv g (ok_or o e) (ok_or o' e).
  Proof. intros ->. destruct o; [apply eqv_ret; reflexivity|apply eqv_fail]. Qed.
  Lemma eqv_infer_s w1 w2 c1 c2 : (forall t, eqv cm (w1 t) (w2 (cm t))) -> (forall lc t u, eqv (fun x => x) (c1 lc t u) (c2 (map cm lc) (cm t) (cm u))) ->
    forall t lc, eqv cm (r_infer_s sg1 w1 c1 t lc) (r_infer_s sg2 w2 c2 (cm t) (map cm lc)).
  Proof.
    intros Hw Hc t. induction t; intros lc; cbn [r_infer_s SpecEmbed.cm]; try apply eqv_fail; try (apply eqv_ret; reflexivity).
    - apply eqv_ok_or. apply Ht.
    - apply eqv_ok_or. rewrite nth_error_map. destruct (nth_error lc n); cbn [option_map]; [|reflexivity]. rewrite cm_lift. reflexivity.
    - eapply eqv_bind; [apply IHt1|]. intros ty. unfold r_infer_arg. eapply eqv_bind; [apply Hw|]. intros [| | | | | | |a b]; cbn [SpecEmbed.cm]; try apply eqv_fail.
      eapply eqv_bind; [apply Hc|]. intros [|]; [apply eqv_ret; symmetry; apply cm_subst1|apply eqv_fail].
    - eapply eqv_bind; [apply IHt1|]. intros []; cbn [SpecEmbed.cm]; try apply eqv_fail. eapply eqv_bind; [apply (IHt2 (t1 :: lc))|].
      intros []; cbn [SpecEmbed.cm]; try apply eqv_fail; apply eqv_ret; reflexivity.
    - eapply eqv_bind; [apply IHt1|]. intros []; cbn [SpecEmbed.cm]; try apply eqv_fail. eapply eqv_bind; [apply (IHt2 (t1 :: lc))|].
      intros []; cbn [SpecEmbed.cm]; try apply eqv_fail; apply eqv_ret; reflexivity.
  Qed.
  Lemma eqv_infer n : (forall lc t, eqv cm (r_infer sg1 n lc t) (r_infer sg2 n (map cm lc) (cm t))) /\
    forall lc t ty, eqv (fun x => x) (r_check sg1 n lc t ty) (r_check sg2 n (map cm lc) (cm t) (cm ty)).
  Proof.
    pose proof eqv_whnf as Hw. pose proof eqv_convertible as Hc.
    induction n as [|n [IH1 IH2]]; [split; intros; apply eqv_fuel|]. split.
    - intros lc t. rewrite !r_infer_unfold. apply eqv_infer_s; auto.
    - intros lc t ty. assert (D : eqv (fun x => x) (bind (r_infer sg1 n lc t) (fun ty' => r_convertible sg1 n ty' ty))
        (bind (r_infer sg2 n (map cm lc) (cm t)) (fun ty' => r_convertible sg2 n ty' (cm ty)))) by (eapply eqv_bind; [apply IH1|]; intros; apply Hc).
      destruct t; cbn [r_check SpecEmbed.cm]; try exact D; clear D.
      + eapply eqv_bind; [apply Hw|]. intros []; cbn [SpecEmbed.cm]; try apply eqv_fail. eapply eqv_bind; [apply IH1|]. intros _.
        eapply eqv_bind; [apply Hc|]. intros [|]; [apply (IH2 (a :: lc))|apply eqv_ret; reflexivity].
      + eapply eqv_bind; [apply Hw|]. intros []; cbn [SpecEmbed.cm]; try apply eqv_fail. apply (IH2 (a :: lc)).
  Qed.
End Map.
