(** * Comparison of strongly normalising terms returns *)

From Verif Require Import Base LibMono ModelTerm ModelGctx ModelSubst ModelReduce ModelInfer
  SpecTerm SpecConv SpecConvFacts SpecWhnf SpecRed SpecSN RedConfl RedSN Erase
  RefMachine RefSafe SimReduce RefRed TotReduce.

Open Scope sm_scope.

Lemma spine_eq t : forall us f vs, spine t us = (f, vs) -> apps t us = apps f vs.
Proof. induction t; intros us f vs; cbn; try (intros [= <- <-]; reflexivity). intros H. apply (IHt1 _ _ _ H). Qed.
Lemma spine_app_nonempty t : forall u us f vs, spine t (u :: us) = (f, vs) -> vs <> [].
Proof. induction t; intros u us f vs; cbn; try (intros [= <- <-]; discriminate). apply IHt1. Qed.

Section Conv.
  Variable sg : sig.
  Definition below2 (t u : tm) (p : tm * tm) : Prop :=
    below sg (strip (fst p)) (strip t) /\ below sg (strip (snd p)) (strip u).

  Lemma below_spine t u f us : spine (App t u) [] = (f, us) ->
    below sg (strip f) (strip (App t u)) /\ forall x, In x us -> below sg (strip x) (strip (App t u)).
  Proof.
    intros E. pose proof (spine_eq _ _ _ _ E) as H. cbn [apps] in H. rewrite H. cbn [spine] in E. apply spine_app_nonempty in E.
    rewrite strip_apps. split.
    - destruct us as [|v us]; [congruence|]. cbn [map apps].
      assert (Hs : below sg (strip f) (App (strip f) (strip v))) by (apply below_sub; constructor).
      destruct (below_apps_head sg (map strip us) (App (strip f) (strip v))) as [<-|H']; [exact Hs|eapply below_trans; eassumption].
    - intros x Hx. apply below_apps. apply in_map. exact Hx.
  Qed.
  Lemma lam_body_below t b : lam_body t = Some b -> below sg (strip b) (strip t).
  Proof. destruct t; cbn; try discriminate; intros [= <-]; apply below_sub; constructor. Qed.
  Lemma r_step_below t u new : r_step false t u = Some new -> Forall (below2 t u) new.
  Proof.
    unfold r_step. destruct (lam_body t) as [b|] eqn:Et; destruct (lam_body u) as [b'|] eqn:Eu; try discriminate.
    - intros [= <-]. constructor; [|constructor]. split; apply lam_body_below; assumption.
    - destruct t; destruct u; try discriminate; try (intros [= <-]; constructor); try (destruct (_ =? _); [intros [= <-]; constructor|discriminate]).
      + destruct (spine (App t1 t2) []) as [f us] eqn:E1. destruct (spine (App u1 u2) []) as [g vs] eqn:E2.
        destruct (_ =? _); [|discriminate]. intros [= <-]. destruct (below_spine _ _ _ _ E1) as [F1 U1].
        destruct (below_spine _ _ _ _ E2) as [F2 U2].
        apply (Forall_rev (l := (f, g) :: combine us vs)). constructor; [split; assumption|]. apply Forall_forall. intros [x y] Hxy. split.
        * apply U1. eapply in_combine_l. exact Hxy.
        * apply U2. eapply in_combine_r. exact Hxy.
      + split; apply below_sub; constructor.
      + constructor; [split; apply below_sub; constructor|constructor].
  Qed.
End Conv.

Section Machine.
  Variable uniq : nat -> bool.
  Variable gc : gctx.
  Notation sg := (er_gctx gc).
  Hypothesis Hlin : left_linear sg.
  Hypothesis Heta : g_eta gc = false.

  Definition loop_tot (cns : list (sterm * sterm)) : Prop :=
    forall s, hinv s -> tot s (fun n => convertible_loop uniq gc n cns).

  Lemma whnf_part n t s t' s' : hinv s -> whnf uniq gc n t s = Ok (t', s') ->
    canon t' /\ hinv s' /\ reds sg (strip (ers t)) (strip (ers t')).
  Proof.
    intros Hi E. pose proof (whnf_sim uniq gc n t s Hi) as H. rewrite E in H. destruct H as (H & Hc & Hi').
    split; [exact Hc|]. split; [exact Hi'|]. eapply r_whnf_red; [exact Hlin|exact H].
  Qed.

  Lemma shift_app_fuel t s : shift_app uniq t s <> Fuel.
  Proof.
    assert (H : totI (fun _ => True) s (fun _ => shift_app uniq t)).
    { unfold shift_app. apply (totI_bind _ _ (fun _ => shift_mut uniq t 1)); [apply shift_mut_tot; auto|].
      intros t' s' _. apply (apply_tot uniq _ (fun _ _ => I) t' (fun _ => ret [SVar 0])); [|exact I].
      intros s0 _. apply (totI_ret (fun _ => True) s0 [SVar 0] I). }
    destruct H as (n0 & r & H & Hr). rewrite (H n0 (le_n _)). intros ->. exact Hr.
  Qed.
  Lemma step_fuel eta t u s : step uniq eta t u s <> Fuel.
  Proof.
    assert (Hs : forall b a : sterm, (bind (shift_app uniq a) (fun t => ret (Some [(b, t)])) : M _) s <> Fuel).
    { intros b a. unfold bind. pose proof (shift_app_fuel a s). destruct (shift_app uniq a s) as [[? ?]| | |]; congruence || discriminate. }
    assert (H2 : forall c1 c2, step2 uniq eta c1 c2 s <> Fuel).
    { intros c1 c2. destruct c1, c2; cbn [step2]; try discriminate; try (destruct (_ =? _); discriminate);
        destruct eta; auto; discriminate. }
    assert (H1 : forall c a, step1 uniq c a s <> Fuel) by (intros [ | | ] a; cbn [step1]; auto; discriminate).
    destruct t, u; cbn [step]; try discriminate; auto; try (destruct (_ =? _); discriminate); destruct eta; auto; discriminate.
  Qed.

  Lemma pair_tot d : Acc (below sg) d -> forall t u cns, strip (ers t) = d -> strongly_normalising sg (ers u) ->
    loop_tot cns -> loop_tot ((t, u) :: cns).
  Proof.
    induction 1 as [d Hd IH]. intros t u cns <- Hu Hc s Hi.
    assert (Hsn : strongly_normalising sg (ers t)) by (apply acc_sn; constructor; exact Hd).
    apply (tot_S _ _ (fun n => if sterm_eqb t u then convertible_loop uniq gc n cns
      else
      bind (whnf uniq gc n t) (fun t =>
      bind (whnf uniq gc n u) (fun u =>
      bind (step uniq (g_eta gc) t u) (fun o =>
      match o with
      | None => ret false
      | Some new => convertible_loop uniq gc n (new ++ cns)
      end))))); [intros; reflexivity|].
    destruct (sterm_eqb t u); [apply Hc; exact Hi|].
    apply (tot_bind s (fun n => whnf uniq gc n t)); [apply whnf_tot; assumption|]. intros n t' s1 E1.
    destruct (whnf_part _ _ _ _ _ Hi E1) as (Hc1 & Hi1 & Hr1).
    apply (tot_bind s1 (fun n => whnf uniq gc n u)); [apply whnf_tot; assumption|]. intros m u' s2 E2.
    destruct (whnf_part _ _ _ _ _ Hi1 E2) as (Hc2 & Hi2 & Hr2).
    apply (tot_bind s2 (fun _ => step uniq (g_eta gc) t' u')); [apply tot_const; apply step_fuel|]. intros _ o s3 E3.
    pose proof (step_sim uniq (g_eta gc) t' u' Hc1 Hc2 s2 Hi2) as H. rewrite E3 in H. destruct H as (H & _ & Hi3).
    destruct o as [new|]; [|apply tot_ret]. rewrite Heta in H. cbn in H. injection H as H _.
    apply (r_step_below sg) in H.
    assert (Hall : Forall (fun p => below sg (strip (ers (fst p))) (strip (ers t)) /\ strongly_normalising sg (ers (snd p))) new).
    { apply Forall_forall. intros p Hp. rewrite Forall_forall in H. destruct (H (er_pair p) (in_map er_pair _ _ Hp)) as [B1 B2].
      cbn in B1, B2. split; [eapply below_reds; eassumption|]. unfold strongly_normalising.
      eapply sn_below; [exact Hu|]. eapply below_reds; eassumption. }
    clear H E3. revert s3 Hi3. change (loop_tot (new ++ cns)).
    induction Hall as [|[a b] new [B1 B2] _ IHn]; [exact Hc|]. cbn [app].
    eapply (IH _ B1 a b); [reflexivity|exact B2|exact IHn].
  Qed.
  Lemma loop_nil : loop_tot [].
  Proof. intros s Hi. apply (tot_S _ _ (fun _ => ret true)); [reflexivity|apply tot_ret]. Qed.
  Lemma convertible_tot t u s : strongly_normalising sg (ers t) -> strongly_normalising sg (ers u) -> hinv s ->
    tot s (fun n => convertible uniq gc n t u).
  Proof.
    intros Ht Hu Hi. unfold convertible. apply (pair_tot _ (sn_acc _ _ Ht) t u []); auto using loop_nil.
  Qed.
End Machine.

Lemma hinv_empty k : hinv (MSt [] k).
Proof. intros l st b Hl. destruct l; discriminate. Qed.
Lemma tot_run {A} (F : nat -> M A) : tot (MSt [] 0) F -> exists n0 r, r <> Fuel /\ forall n, n0 <= n -> run (F n) = r.
Proof.
  intros (n0 & r & Hr & H). exists n0, (res_map fst r). split; [destruct r; cbn; congruence || discriminate|].
  intros n Hn. unfold run. rewrite H by exact Hn. reflexivity.
Qed.
