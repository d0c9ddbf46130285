(** * Inference, checking and commands decide typability *)

From Verif Require Import Base LibMono ModelTerm ModelGctx ModelCommand ModelSubst ModelReduce ModelInfer ModelSyntax ModelSymbols ModelShare ModelProcess
  SpecTerm SpecConv SpecConvFacts SpecTyping SpecRed SpecSN SpecType SpecQuery SpecProcess SpecDomain SpecTotal SpecDerive SpecDecide RedConfl Erase Inv SoundInfer
  TypeFacts DomFacts SoundDom DomUnique DeriveFacts RefInfer RefDecide TotReduce TotConv TotInfer KernelFacts ModelMono
  MainKernel MainGctx MainShare MainProcess MainRun MainVerify MainTyped MainTotal MainProgTotal SamplesProg.

Lemma dctx_map lc : map strip (map erl (rev lc)) = dctx lc.
Proof. unfold dctx. rewrite map_map. reflexivity. Qed.
Lemma lterm_some t : kf t -> lterm_of_sterm t <> None.
Proof.
  unfold kf. induction t as [| |c|n|c|c IH] using sterm_ind'; cbn [wfs lterm_of_sterm]; try discriminate; [contradiction|].
  assert (Hm : forall args, Forall (fun t => wfs (fun _ => True) False False t -> lterm_of_sterm t <> None) args ->
    list_all (wfs (fun _ => True) False False) args -> map_opt lterm_of_sterm args <> None).
  { induction 1 as [|a args Ha _ IHa]; cbn; [discriminate|]. intros [H1 H2]. destruct (lterm_of_sterm a); [|destruct (Ha H1 eq_refl)].
    destruct (map_opt lterm_of_sterm args); [discriminate|]. intros _. exact (IHa H2 eq_refl). }
  destruct c as [h args|id a b|id [a|] b]; cbn [comb_try comb_all some_all wfc] in *.
  - destruct IH as [Hh Ha]. intros (H1 & H2 & _). destruct (lterm_of_sterm h); [|destruct (Hh H1 eq_refl)].
    specialize (Hm _ Ha H2). destruct (map_opt _ args); [discriminate|contradiction].
  - destruct IH as [Ha Hb]. intros [H1 H2]. destruct (lterm_of_sterm a); [|destruct (Ha H1 eq_refl)]. destruct (lterm_of_sterm b); [discriminate|destruct (Hb H2 eq_refl)].
  - destruct IH as [Ha Hb]. intros [H1 H2]. destruct (lterm_of_sterm a); [|destruct (Ha H1 eq_refl)]. destruct (lterm_of_sterm b); [discriminate|destruct (Hb H2 eq_refl)].
  - destruct IH as [_ Hb]. intros H2. destruct (lterm_of_sterm b); [discriminate|]. destruct Hb; [tauto|reflexivity].
Qed.

Lemma nfl_proper t : nfl t -> proper_l t.
Proof.
  unfold nfl. induction t as [|c|n|c IH] using lterm_ind'; cbn [proper_l wfl]; auto.
  destruct c as [h args|id a b|id [a|] b]; cbn [forall_comb wfc comb_all some_all appl_ok] in *; try tauto.
  destruct IH as [Hh Ha]. intros (H1 & H2 & H3). split; [destruct args; [|exact I]; destruct (H3 I) as [H|H]; [contradiction|exact H]|].
  split; [tauto|]. clear - Ha H2. induction Ha; cbn in *; tauto.
Qed.
Lemma proper_of_sterm t : forall t', nf t -> lterm_of_sterm t = Some t' -> proper_l t'.
Proof.
  intros t' H E. apply nfl_proper. revert t' H E. unfold nf, nfl.
  induction t as [| |c|n|c|c IH] using sterm_ind'; intros t'; cbn [wfs lterm_of_sterm]; try discriminate; try (intros H [= <-]; exact H).
  destruct c as [h args|id a b|id [a|] b]; cbn [comb_try comb_all some_all wfc] in *.
  - destruct IH as [Hh Ha]. intros (H1 & H2 & H3). destruct (lterm_of_sterm h) as [h'|] eqn:E1; [|discriminate].
    destruct (map_opt _ args) as [args'|] eqn:E2; [|discriminate]. intros [= <-]. cbn [wfl wfc]. split; [apply Hh; auto|].
    assert (X : list_all (wfl (fun _ => True) True) args' /\ (args <> [] -> args' <> [])).
    { clear - Ha H2 E2. revert args' E2. induction Ha as [|a args Ha _ IHa]; cbn in *; intros args'; [intros [= <-]; cbn; tauto|].
      destruct (lterm_of_sterm a) eqn:E1; [|discriminate]. destruct (map_opt _ args) eqn:E2; [|discriminate]. intros [= <-]. cbn.
      split; [|discriminate]. split; [apply Ha; tauto|apply IHa; tauto]. }
    split; [apply X|]. intros _. destruct (H3 I) as [H|H]; [left; apply X; exact H|right].
    destruct h; try discriminate. cbn in E1. injection E1 as <-. reflexivity.
  - destruct IH as [Ha Hb]. intros [H1 H2]. destruct (lterm_of_sterm a) eqn:E1; [|discriminate].
    destruct (lterm_of_sterm b) eqn:E2; [|discriminate]. intros [= <-]. cbn. auto.
  - destruct IH as [Ha Hb]. intros [H1 H2]. destruct (lterm_of_sterm a) eqn:E1; [|discriminate].
    destruct (lterm_of_sterm b) eqn:E2; [|discriminate]. intros [= <-]. cbn. auto.
  - destruct IH as [_ Hb]. intros H2. destruct (lterm_of_sterm b) eqn:E2; [|discriminate]. intros [= <-]. cbn. intuition.
Qed.
Lemma run_bind {A B} (m : M A) (k : A -> M B) (K : A -> res kerror B) :
  (forall a s, res_map fst (k a s) = K a) -> ModelInfer.run (bind m k) = res_bind (ModelInfer.run m) K.
Proof. intros H. unfold ModelInfer.run, bind. destruct (m (MSt [] 0)) as [[a s]| | |]; cbn; auto. Qed.

Section Query.
  Variable gc : gctx.
  Hypothesis Hgc : terminating gc.
  Hypothesis Hcr : church_rosser (er_gctx gc).
  Hypothesis Hp : proper_gctx gc.
  Notation sg := (er_gctx gc).
  Notation conv := (conv sg).
  Notation der := (derives sg).
  Notation wt := (well_typed sg).
  Notation sort s := (s = Typ \/ s = Kind).

  Let Hst : stable_types sg := good_stable _ (tm_types gc Hgc).
  Notation Snd := (sound sg Hcr (tm_eta gc Hgc) Hst (tm_pi gc Hgc) (tm_linear gc Hgc) (tm_rules gc Hgc) (tm_types gc Hgc) (tm_sn gc Hgc)).
  Notation Cmp := (decide_complete sg Hcr (tm_eta gc Hgc) Hst (tm_pi gc Hgc) (tm_linear gc Hgc) (tm_rules gc Hgc) (tm_types gc Hgc) (tm_sn gc Hgc)).

  Lemma proper_lctx lc : Forall proper_l lc -> Forall nf (lctx_of lc).
  Proof.
    intros H. unfold lctx_of. apply Forall_rev, Forall_map. eapply Forall_impl; [|exact H]. cbn beta. intros t Ht. apply nf_lterm, proper_nfl, Ht.
  Qed.
  Lemma infer_match uniq n lc t : type_ctx sg (dctx lc) -> Forall proper_l lc -> proper_l t ->
    match ModelInfer.run (ModelInfer.infer uniq gc n (lctx_of lc) (sterm_of_lterm t)) with
    | Ok ty => annotations true (erl t) /\ der (dctx lc) (erl t) (strip (ers ty)) /\ atype sg (dctx lc) (strip (ers ty)) /\
               (forall A, der (dctx lc) (erl t) A -> conv A (strip (ers ty)))
    | Err _ => annotations true (erl t) -> forall A, ~ der (dctx lc) (erl t) A
    | Panic => False
    | Fuel => True
    end.
  Proof.
    intros Hc Pl Pt. pose proof (run_np _ (proj1 (infer_np uniq gc n) (lctx_of lc) (sterm_of_lterm t))) as Hnp.
    pose proof (run_sim0 _ _ _ _ (proj1 (infer_sim uniq gc (proper_gctx_nf _ Hp) n) (lctx_of lc) (sterm_of_lterm t) (proper_lctx _ Pl) (nf_lterm _ (proper_nfl _ Pt)))) as Hr.
    rewrite ers_lctx_of, ers_sterm_of_lterm in Hr. rewrite <- (dctx_map lc) in *.
    destruct (ModelInfer.run _) as [ty|e| |]; auto.
    - pose proof (proj1 (Snd n) _ (erl t) Hc []) as H. rewrite Hr in H. destruct H as (H1 & H2 & H3).
      split; [exact H1|]. split; [exact H2|]. split; [exact H3|]. intros A HA.
      pose proof (proj1 (Cmp n) _ _ A Hc H1 HA []) as H. rewrite Hr in H. eapply conv_trans; [exact H|apply conv_strip].
    - intros An A HA. pose proof (proj1 (Cmp n) _ _ A Hc An HA []) as H. rewrite Hr in H. exact H.
  Qed.

  (** The type of a typable term is a type. *)
  Lemma derives_atype G t A : type_ctx sg G -> der G t A -> atype sg G A.
  Proof.
    intros HG H. induction H as [G|G c A HA|G n A HA|G t u A B H1 IH1 H2 IH2|G a t B s H1 IH1 H2 IH2 H3 Hs|G A t B s H1 H2 IH2 H3 Hs|G a b s H1 IH1 H2 IH2 Hs|G t A B s H1 IH1 Hc H2 Hs].
    - left; reflexivity.
    - destruct (tm_types gc Hgc _ _ HA) as (_ & s & Hs & Hw). right. exists s. split; [exact Hs|]. apply wt_closed; assumption.
    - right. exists Typ. split; [left; reflexivity|]. apply type_ctx_nth; assumption.
    - destruct (IH1 HG) as [E|(s & Hs & HP)]; [discriminate|]. destruct (wgen_pi _ _ _ _ _ HP) as (s' & K1 & K2 & Hs' & _).
      right. exists s'. split; [exact Hs'|]. pose proof (wt_subst1 _ Hst _ _ _ _ _ K2 (derives_wt _ _ _ _ H2)) as Hsub.
      unfold subst1 in Hsub at 2. rewrite sub_sort in Hsub by exact Hs'. exact Hsub.
    - right. exists s. split; [exact Hs|]. eapply wt_pi; [apply derives_wt; exact H1|exact H3|exact Hs].
    - right. exists s. split; [exact Hs|]. eapply wt_pi; eassumption.
    - destruct Hs as [-> | ->]; [right; exists Kind; split; [right; reflexivity|constructor]|left; reflexivity].
    - right. eauto.
  Qed.
  Lemma check_match uniq n c : chk_ok gc c -> Forall proper_l (t_lc c) -> proper_l (t_ty c) -> proper_l (t_tm c) ->
    match ModelInfer.run (check_check uniq gc n c) with
    | Ok _ => has gc (t_lc c) (t_tm c) (strip (erl (t_ty c)))
    | Err _ => ~ has gc (t_lc c) (t_tm c) (strip (erl (t_ty c)))
    | Panic => False
    | Fuel => True
    end.
  Proof.
    intros Hck Pl Pa Pt. pose proof (check_full n gc Hgc Hcr uniq c Hck) as Hf. revert Hf. rewrite MainBidir.run_check_check.
    destruct Hck as [Hc [K HK]].
    pose proof (run_np _ (proj2 (infer_np uniq gc n) (lctx_of (t_lc c)) (sterm_of_lterm (t_tm c)) (sterm_of_lterm (t_ty c)))) as Hnp.
    pose proof (run_sim0 _ _ _ _ (proj2 (infer_sim uniq gc (proper_gctx_nf _ Hp) n) (lctx_of (t_lc c)) (sterm_of_lterm (t_tm c)) (sterm_of_lterm (t_ty c))
      (proper_lctx _ Pl) (nf_lterm _ (proper_nfl _ Pt)) (nf_lterm _ (proper_nfl _ Pa)))) as Hr.
    rewrite ers_lctx_of, !ers_sterm_of_lterm in Hr. unfold has. rewrite <- (dctx_map (t_lc c)) in *.
    assert (Hneg : (forall h, r_check sg n (map erl (rev (t_lc c))) (erl (t_tm c)) (erl (t_ty c)) [] <> Ok (true, h)) ->
      (forall r, r_check sg n (map erl (rev (t_lc c))) (erl (t_tm c)) (erl (t_ty c)) [] = r -> r <> Fuel /\ r <> Panic) ->
      ~ (annotations false (erl (t_tm c)) /\ der (map strip (map erl (rev (t_lc c)))) (erl (t_tm c)) (strip (erl (t_ty c))))).
    { intros H1 H2 [An Hd]. destruct (derives_atype _ _ _ Hc Hd) as [E|(s & Hs & Hs')]; [rewrite E in HK; exact (wgen_kind _ _ _ HK)|].
      pose proof (proj2 (Cmp n) _ _ _ (erl (t_ty c)) s Hc An Hd (conv_sym _ _ _ (conv_strip _ _)) Hs' Hs []) as H.
      specialize (H2 _ eq_refl). destruct (r_check _ _ _ _ _ _) as [[b h]|e| |]; try tauto. subst b. exact (H1 h eq_refl). }
    destruct (ModelInfer.run _) as [[|]|e| |]; auto; intros Hf.
    - destruct (Hf eq_refl) as (_ & s & Hs & Hs'). pose proof (proj2 (Snd n) _ (erl (t_tm c)) (erl (t_ty c)) s Hc Hs' Hs []) as H. rewrite Hr in H.
      apply H. reflexivity.
    - apply Hneg; rewrite Hr; [discriminate|]. intros r <-. split; discriminate.
    - apply Hneg; rewrite Hr; [discriminate|]. intros r <-. split; discriminate.
  Qed.

  Definition chk_derives (o : option ModelGctx.check) : Prop :=
    match o with
    | None => True
    | Some c => has gc (t_lc c) (t_tm c) (strip (erl (t_ty c)))
    end.
  Definition chk_proper (o : option ModelGctx.check) : Prop :=
    match o with
    | None => True
    | Some c => Forall proper_l (t_lc c) /\ proper_l (t_ty c) /\ proper_l (t_tm c)
    end.

  Lemma infer_nf uniq n lc t ty : Forall proper_l lc -> proper_l t ->
    ModelInfer.run (ModelInfer.infer uniq gc n (lctx_of lc) (sterm_of_lterm t)) = Ok ty -> nf ty.
  Proof.
    intros Pl Pt H.
    pose proof (proj1 (infer_sim uniq gc (proper_gctx_nf _ Hp) n) (lctx_of lc) (sterm_of_lterm t) (proper_lctx _ Pl) (nf_lterm _ (proper_nfl _ Pt)) (MSt [] 0) eq_refl) as X.
    unfold ModelInfer.run in H. destruct (ModelInfer.infer _ _ _ _ _ _) as [[ty0 s]| | |]; try discriminate. injection H as ->. apply X.
  Qed.
  Lemma is_sort_of G K s : type_ctx sg G -> atype sg G K -> sort s -> conv s K -> K = s.
  Proof.
    intros HG HK Hs Hc. refine (type_is_sort sg Hst Hcr (tm_pi gc Hgc) (tm_rules gc Hgc) (tm_types gc Hgc) (tm_sn gc Hgc) (tm_eta gc Hgc) G K s HG _ Hs Hc).
    destruct HK as [->|(s' & _ & H)]; eauto.
  Qed.
  Lemma is_type_of A K : annotations true (erl A) -> der [] (erl A) K -> atype sg [] K -> (exists s, sort s /\ wt [] (strip (erl A)) s) -> is_type gc A.
  Proof.
    intros An Hd HK (s & Hs & Hw). split; [exact An|]. exists s. split; [exact Hs|].
    pose proof (sort_unique sg Hst Hcr (tm_pi gc Hgc) (tm_rules gc Hgc) (tm_sn gc Hgc) (tm_eta gc Hgc) [] (strip (erl A)) (strip (erl A)) K s (tc_nil _) (conv_refl _ _) Hs Hw (derives_wt _ _ _ _ Hd)) as Hc.
    rewrite <- (is_sort_of [] K s (tc_nil _) HK Hs (conv_sym _ _ _ Hc)). exact Hd.
  Qed.
  Lemma has_sort t A : has gc [] t (strip (erl A)) -> exists s, sort s /\ wt [] (strip (erl A)) s.
  Proof.
    intros [_ H]. destruct (derives_atype _ _ _ (tc_nil _) H) as [E|E]; [|exact E]. destruct (erl_not_kind A). apply strip_kind. exact E.
  Qed.

  Lemma infer_kfk uniq n lc t ty : ModelInfer.run (ModelInfer.infer uniq gc n (lctx_of lc) (sterm_of_lterm t)) = Ok ty -> kfk ty.
  Proof. intros H. eapply (ok0_run kfk); [|exact H]. eapply ok0_post; [|apply (proj1 (infer_sound uniq gc n)); [apply kf_ctx|apply kf_lterm]]. intros a [_ Ha]. exact Ha. Qed.

  (** a term whose inferred type is not [Kind] *)
  Lemma infer_yields uniq n lc t : type_ctx sg (dctx lc) -> Forall proper_l lc -> proper_l t ->
    match res_bind (ModelInfer.run (ModelInfer.infer uniq gc n (lctx_of lc) (sterm_of_lterm t)))
                   (fun ty => match lterm_of_sterm ty with Some ty => Ok ty | None => Err UnexpectedKind end) with
    | Ok ty => proper_l ty /\ yields gc lc t (strip (erl ty)) /\ (forall A, der (dctx lc) (erl t) A -> conv A (strip (erl ty)))
    | Err _ => forall A, ~ yields gc lc t A
    | Panic => False
    | Fuel => True
    end.
  Proof.
    intros Hc Pl Pt. pose proof (infer_match uniq n lc t Hc Pl Pt) as H. pose proof (infer_nf uniq n lc t) as Hnf. pose proof (infer_kfk uniq n lc t) as Hk.
    destruct (ModelInfer.run _) as [ty|e| |]; cbn [res_bind]; auto.
    - destruct H as (H1 & H2 & H3 & H4). specialize (Hnf _ Pl Pt eq_refl). specialize (Hk _ eq_refl).
      destruct (lterm_of_sterm ty) as [ty'|] eqn:E.
      + rewrite <- (lterm_of_sterm_er _ _ E) in *. split; [eapply proper_of_sterm; eassumption|]. split; [|exact H4]. split; [exact H1|]. split; [exact H2|].
        destruct H3 as [E3|H3]; [destruct (erl_not_kind ty'); apply strip_kind; exact E3|exact H3].
      + destruct Hk as [->|Hk]; [|destruct (lterm_some _ Hk E)]. intros A (_ & HA & s & Hs & Hw). specialize (H4 _ HA). cbn in H4.
        exact (not_kind sg Hst Hcr (tm_pi gc Hgc) (tm_rules gc Hgc) (tm_sn gc Hgc) (tm_eta gc Hgc) _ _ _ Hc Hw H4).
    - intros A (An & HA & _). exact (H An A HA).
  Qed.

  Definition intro_result : Type := res kerror (typing * option ModelGctx.check).
  Lemma intro_match uniq n it : intro_all proper_l it ->
    match ModelInfer.run (kintro uniq gc n it) with
    | Ok (ty, ochk) => (forall c, ochk = Some c -> chk_ok gc c) /\ chk_proper ochk /\ (chk_derives ochk <-> intro_derives gc it) /\
        proper_l (t_ty ty) /\ (forall tm, t_tm ty = Some tm -> proper_l tm)
    | Err _ => ~ intro_derives gc it
    | Panic => False
    | Fuel => True
    end.
  Proof.
    intros Hit.
    assert (Hdecl : forall A, proper_l A ->
      match ModelInfer.run (declare uniq gc n A) with
      | Ok (ty, ochk) => (forall c, ochk = Some c -> chk_ok gc c) /\ chk_proper ochk /\ (chk_derives ochk <-> is_type gc A) /\
          proper_l (t_ty ty) /\ (forall tm, t_tm ty = Some tm -> proper_l tm)
      | Err _ => ~ is_type gc A
      | Panic => False
      | Fuel => True
      end).
    { intros A PA. unfold declare. set (K := (fun k => if is_sort k then Ok (typing_new A None, None) else Err SortExpected) : sterm -> intro_result).
      match goal with |- match ?x with _ => _ end => assert (EK : x =
        res_bind (ModelInfer.run (ModelInfer.infer uniq gc n [] (sterm_of_lterm A))) K) end.
      { apply run_bind; unfold K; intros a s; destruct (is_sort a); reflexivity. }
      rewrite EK. clear EK.
      pose proof (infer_match uniq n [] A (tc_nil _) (Forall_nil _) PA) as H. pose proof (infer_nf uniq n [] A) as Hnf.
      change (lctx_of []) with (@nil sterm) in H, Hnf.
      destruct (ModelInfer.run _) as [k|e| |]; cbn [res_bind]; auto.
      - destruct H as (H1 & H2 & H3 & H4). specialize (Hnf k (Forall_nil _) PA eq_refl). unfold K. destruct (is_sort k) eqn:Ek; cbv beta iota.
        + split; [intros c; discriminate|]. split; [exact I|]. split; [|split; [exact PA|discriminate]]. split; [intros _|intros _; exact I]. split; [exact H1|].
          exists (strip (ers k)). split; [destruct k; try discriminate; cbn; auto|exact H2].
        + intros (_ & s & Hs & Hd). pose proof (is_sort_of [] _ s (tc_nil _) H3 Hs (H4 _ Hd)) as E. pose proof (nf_shape _ Hnf) as Hsh.
          destruct Hs as [-> | ->]; [apply strip_typ in E|apply strip_kind in E]; rewrite E in Hsh; subst k; discriminate.
      - intros (An & s & _ & Hd). exact (H An s Hd). }
    assert (Hdef : forall A t (tm : option lterm), proper_l A -> proper_l t -> (tm = Some t \/ tm = None) ->
      match ModelInfer.run (ModelInfer.infer uniq gc n [] (sterm_of_lterm A) ;;; ret ((typing_new A tm, Some (typing_new A t)) : typing * option ModelGctx.check))%sm with
      | Ok (ty, ochk) => (forall c, ochk = Some c -> chk_ok gc c) /\ chk_proper ochk /\ (chk_derives ochk <-> is_type gc A /\ has gc [] t (strip (erl A))) /\
          proper_l (t_ty ty) /\ (forall tm, t_tm ty = Some tm -> proper_l tm)
      | Err _ => ~ (is_type gc A /\ has gc [] t (strip (erl A)))
      | Panic => False
      | Fuel => True
      end).
    { intros A t tm PA Pt Htm. set (K := (fun _ => Ok (typing_new A tm, Some (typing_new A t))) : sterm -> intro_result).
      match goal with |- match ?x with _ => _ end => assert (EK : x =
        res_bind (ModelInfer.run (ModelInfer.infer uniq gc n [] (sterm_of_lterm A))) K) end.
      { apply run_bind. reflexivity. }
      rewrite EK. clear EK.
      pose proof (infer_match uniq n [] A (tc_nil _) (Forall_nil _) PA) as H.
      change (lctx_of []) with (@nil sterm) in H.
      destruct (ModelInfer.run _) as [k|e| |]; cbn [res_bind]; unfold K; cbv beta iota; auto.
      - destruct H as (H1 & H2 & H3 & H4). split.
        { intros c [= <-]. split; [constructor|]. exists (strip (ers k)). apply (derives_wt _ _ _ _ H2). }
        split; [cbn; repeat split; auto|]. cbn [chk_derives typing_new t_lc t_tm t_ty]. split; [|split; [exact PA|intros tm' E; destruct Htm; congruence]]. split; [|tauto]. intros Hh. split; [|exact Hh].
        eapply is_type_of; [exact H1|exact H2|exact H3|]. eapply has_sort. exact Hh.
      - intros [(An & s & _ & Hd) _]. exact (H An s Hd). }
    destruct it as [[A|] [t|]|A t|inj A]; cbn [kintro intro_derives intro_all] in *.
    - apply Hdef; tauto.
    - apply Hdecl; tauto.
    - unfold define. set (K := (fun ty => Ok (typing_new ty (Some t), None)) : lterm -> intro_result).
      match goal with |- match ?x with _ => _ end => assert (EK : x =
        (res_bind (res_bind (ModelInfer.run (ModelInfer.infer uniq gc n (lctx_of []) (sterm_of_lterm t)))
                   (fun ty => match lterm_of_sterm ty with Some ty => Ok ty | None => Err UnexpectedKind end)) K)) end.
      { unfold ModelInfer.run, bind. change (lctx_of []) with (@nil sterm). destruct (ModelInfer.infer _ _ _ _ _ _) as [[ty s]| | |]; cbn; auto.
           destruct (lterm_of_sterm ty); reflexivity. }
      rewrite EK. clear EK.
      pose proof (infer_yields uniq n [] t (tc_nil _) (Forall_nil _) ltac:(tauto)) as H.
      destruct (res_bind _ _) as [ty|e| |]; cbn [res_bind]; unfold K; cbv beta iota; auto.
      + split; [discriminate|]. split; [exact I|]. split; [|split; [apply H|cbn; intros tm [= <-]; tauto]]. split; [|intros _; exact I]. intros _. exists (strip (erl ty)). apply H.
      + intros [A HA]. exact (H A HA).
    - cbn. auto.
    - apply Hdef; tauto.
    - apply Hdecl; tauto.
  Qed.

  Lemma rewrite_match uniq n (r : rule_ lterm lterm lterm) : type_ctx sg (dctx (r_ctx r)) -> Forall proper_l (r_ctx r) -> proper_l (r_lhs r) -> proper_l (r_rhs r) ->
    match ModelInfer.run (rewrite uniq gc n r) with
    | Ok c => chk_ok gc c /\ chk_proper (Some c) /\
        (chk_derives (Some c) <-> exists A, yields gc (r_ctx r) (r_lhs r) A /\ has gc (r_ctx r) (r_rhs r) A)
    | Err _ => ~ exists A, yields gc (r_ctx r) (r_lhs r) A /\ has gc (r_ctx r) (r_rhs r) A
    | Panic => False
    | Fuel => True
    end.
  Proof.
    intros Hc Pc Pl Pr. unfold rewrite. set (K := (fun ty => Ok (MkTyping (r_ctx r) ty (r_rhs r))) : lterm -> res kerror ModelGctx.check).
    match goal with |- match ?x with _ => _ end => assert (EK : x =
      (res_bind (res_bind (ModelInfer.run (ModelInfer.infer uniq gc n (lctx_of (r_ctx r)) (sterm_of_lterm (r_lhs r))))
                 (fun ty => match lterm_of_sterm ty with Some ty => Ok ty | None => Err UnexpectedKind end)) K)) end.
    { unfold ModelInfer.run, bind. destruct (ModelInfer.infer _ _ _ _ _ _) as [[ty s]| | |]; cbn; auto. destruct (lterm_of_sterm ty); reflexivity. }
      rewrite EK. clear EK.
    pose proof (infer_yields uniq n (r_ctx r) (r_lhs r) Hc Pc Pl) as H.
    destruct (res_bind _ _) as [ty|e| |]; cbn [res_bind]; unfold K; cbv beta iota; auto.
    - destruct H as (P & (H1 & H2 & s & Hs & Hw) & H4). split; [split; [exact Hc|]; exists s; exact Hw|].
      split; [cbn; auto|]. cbn [chk_derives t_lc t_tm t_ty]. split.
      + intros Hh. exists (strip (erl ty)). split; [|exact Hh]. split; [exact H1|]. split; [exact H2|]. eauto.
      + intros (A & (_ & Hl & _) & (An & Hd)). split; [exact An|]. eapply d_conv; [exact Hd|apply H4; exact Hl|exact Hw|exact Hs].
    - intros (A & HA & _). exact (H A HA).
  Qed.
End Query.

(** ** Commands *)
Lemma add_rules_match rs : forall gc, match add_rules rs gc with
  | (_, Ok _) => Forall (fun r => get_rules gc (tp_symbol (r_lhs r)) <> None) rs
  | (_, Err (KoGCtx _)) => ~ Forall (fun r => get_rules gc (tp_symbol (r_lhs r)) <> None) rs
  | _ => False
  end.
Proof.
  induction rs as [|r rs IH]; intros gc; cbn [add_rules]; [constructor|].
  destruct (add_rule gc r) as [gc1 [e|]] eqn:E; cbn [ko_gctx].
  - unfold add_rule in E. intros H. inversion H as [|? ? Hr _]; subst. unfold get_rules in Hr. destruct (slookup _ _); [discriminate|contradiction].
  - assert (Hr : get_rules gc (tp_symbol (r_lhs r)) <> None).
    { unfold add_rule in E. unfold get_rules. destruct (slookup _ _); discriminate. }
    apply add_rule_cases in E as [_ R]. specialize (IH gc1).
    assert (X : Forall (fun r => get_rules gc1 (tp_symbol (r_lhs r)) <> None) rs <-> Forall (fun r => get_rules gc (tp_symbol (r_lhs r)) <> None) rs).
    { rewrite !Forall_forall. split; intros H x Hx; specialize (H x Hx); rewrite R in *; destruct (get_rules gc (tp_symbol (r_lhs x))); congruence. }
    destruct (add_rules rs gc1) as [gc2 [[]|[]| |]]; auto; [constructor; [exact Hr|apply X; exact IH]|].
    intros H. inversion H; subst. apply IH, X. assumption.
Qed.
Lemma insert_match gc c ty rw : match gctx_insert gc c ty rw with
  | (_, None) => get_type gc c = None /\ (rw = true -> get_rules gc c = None)
  | (_, Some _) => ~ (get_type gc c = None /\ (rw = true -> get_rules gc c = None))
  end.
Proof.
  unfold gctx_insert, intro_type, intro_rules, sinsert, get_type, get_rules. destruct (slookup (g_types gc) c); [intros [H _]; discriminate|].
  destruct rw; cbn; [|split; [reflexivity|discriminate]]. destruct (slookup (g_rules gc) c); [|auto]. intros [_ H]. discriminate (H eq_refl).
Qed.
Lemma lterm_of_pattern_proper p : forall t, lterm_of_pattern p = Some t -> proper_l t.
Proof.
  induction p as [c ps IH|m|] using pattern_ind'; cbn; intros t; [|intros [= <-]; exact I|discriminate].
  destruct (map_opt lterm_of_pattern ps) as [ts|] eqn:E; [|discriminate]. intros [= <-]. cbn [proper_l].
  split; [destruct ts; reflexivity || exact I|]. apply forall_comb_appl; [exact I|]. revert ts E.
  induction IH as [|p ps Hp _ IHp]; cbn; intros ts; [intros [= <-]; constructor|].
  destruct (lterm_of_pattern p) eqn:E1; [|discriminate]. destruct (map_opt _ ps) eqn:E2; [|discriminate]. intros [= <-]. constructor; auto.
Qed.
Lemma rule_try_proper r r' : rule_try r = Ok r' ->
  Forall (fun x => forall A, snd x = Some A -> proper_l A) (r_ctx r) /\ proper_l (r_rhs r) ->
  Forall proper_l (r_ctx r') /\ proper_l (r_lhs r') /\ proper_l (r_rhs r').
Proof.
  unfold rule_try. destruct (map_opt snd (r_ctx r)) as [ctx|] eqn:E; [|discriminate].
  destruct (lterm_of_pattern _) as [lhs|] eqn:El; [|discriminate]. intros [= <-] [H1 H2]. cbn.
  split; [|split; [eapply lterm_of_pattern_proper; exact El|exact H2]]. clear - E H1. revert ctx E.
  induction H1 as [|[id o] l H _ IH]; cbn; intros ctx; [intros [= <-]; constructor|].
  destruct o as [A|]; [|discriminate]. destruct (map_opt snd l) eqn:E; [|discriminate]. intros [= <-]. constructor; [apply H; reflexivity|auto].
Qed.

Section Commands.
  Variable O : query -> nat -> bool.
  Variable n : nat.
  Variable gc : gctx.
  Hypothesis Hgc : terminating gc.
  Hypothesis Hcr : church_rosser (er_gctx gc).
  Hypothesis Hp : proper_gctx gc.
  Notation K := (real_kernel O n).

  Lemma check_step chk : chk_ok gc chk -> chk_proper (Some chk) ->
    match k_check K gc chk with
    | Ok _ => chk_derives gc (Some chk)
    | Err _ => ~ chk_derives gc (Some chk)
    | Panic => False
    | Fuel => True
    end.
  Proof. intros H (P1 & P2 & P3). exact (check_match gc Hgc Hcr Hp (O (QCheck gc chk)) n chk H P1 P2 P3). Qed.
  Lemma rewrites_match rs : cmd_ctx gc (CRules rs) -> proper_cmd (CRules rs) ->
    match snd (rewrites K unit (fun chk gc (s : unit) => (s, ko_typing (k_check K gc chk))) rs gc tt) with
    | Ok _ => Forall (rule_derives gc) rs
    | Err (KoTyping _) => ~ Forall (rule_derives gc) rs
    | Fuel => True
    | _ => False
    end.
  Proof.
    cbn [cmd_ctx proper_cmd]. induction rs as [|r rs IH]; intros Hc Pc; [constructor|]. cbn [rewrites].
    inversion Hc as [|? ? Hc1 Hc2]; subst. inversion Pc as [|? ? Pc1 Pc2]; subst. specialize (IH Hc2 Pc2).
    assert (Hskip : (forall r', rule_try r <> Ok r') -> match snd (rewrites K unit (fun chk gc (s : unit) => (s, ko_typing (k_check K gc chk))) rs gc tt) with
      | Ok _ => Forall (rule_derives gc) (r :: rs)
      | Err (KoTyping _) => ~ Forall (rule_derives gc) (r :: rs)
      | Fuel => True
      | _ => False
      end).
    { intros E. destruct (snd _) as [[]|[]| |]; auto; [constructor; [intros r' Er; destruct (E r' Er)|exact IH]|].
      intros X. inversion X; auto. }
    destruct (rule_try r) as [r'|e| |] eqn:Er; try (apply Hskip; discriminate). clear Hskip.
    specialize (Hc1 r' eq_refl). destruct (rule_try_proper _ _ Er Pc1) as (P1 & P2 & P3).
    pose proof (rewrite_match gc Hgc Hcr Hp (O (QRewrite gc r')) n r' Hc1 P1 P2 P3) as H.
    change (k_rewrite K gc r') with (ModelInfer.run (rewrite (O (QRewrite gc r')) gc n r')).
    destruct (ModelInfer.run _) as [chk|e| |]; cbn [ko_typing res_err snd]; auto.
    - destruct H as (H1 & H2 & H3). pose proof (check_step chk H1 H2) as H4.
      destruct (k_check K gc chk) as [[]|e| |]; cbn [ko_typing res_err snd]; auto.
      + destruct (snd _) as [[]|[]| |]; auto; [|intros X; inversion X; auto].
        constructor; [|exact IH]. intros r2 E2. assert (r2 = r') by congruence. subst r2. apply H3. exact H4.
      + intros X. inversion X as [|? ? X1 _]; subst. apply H4, H3. apply X1. exact Er.
    - intros X. inversion X as [|? ? X1 _]; subst. apply H. apply X1. exact Er.
  Qed.

  Lemma command_match o cmd : omits o StCheck = false -> cmd_ctx gc cmd -> proper_cmd cmd ->
    match snd (infer_check K o cmd gc) with
    | Ok _ => cmd_derives gc cmd /\ cmd_admissible gc cmd
    | Err (KoTyping _) => ~ cmd_derives gc cmd
    | Err (KoGCtx _) => cmd_derives gc cmd /\ ~ cmd_admissible gc cmd
    | Fuel => True
    | _ => False
    end.
  Proof.
    intros Ho Hc Pc. unfold infer_check. rewrite Ho. destruct cmd as [c it|rs]; cbn [infer_with].
    - pose proof (intro_match gc Hgc Hcr Hp (O (QIntro gc it)) n it Pc) as H.
      change (k_intro K gc it) with (ModelInfer.run (kintro (O (QIntro gc it)) gc n it)).
      destruct (ModelInfer.run _) as [[ty ochk]|e| |]; cbn [ko_typing res_err snd]; auto.
      destruct H as (H1 & H2 & H3 & _).
      assert (Hins : chk_derives gc ochk -> match snd (let '(gc0, r) := ko_gctx (gctx_insert gc c ty (rewritable it)) in (gc0, r)) with
        | Ok _ => cmd_derives gc (CIntro c it) /\ cmd_admissible gc (CIntro c it)
        | Err (KoTyping _) => ~ cmd_derives gc (CIntro c it)
        | Err (KoGCtx _) => cmd_derives gc (CIntro c it) /\ ~ cmd_admissible gc (CIntro c it)
        | Fuel => True
        | _ => False
        end).
      { intros X. pose proof (insert_match gc c ty (rewritable it)) as Hm. destruct (gctx_insert gc c ty (rewritable it)) as [gc' [e|]]; cbn; (split; [apply H3; exact X|exact Hm]). }
      destruct ochk as [chk|].
      + pose proof (check_step chk (H1 _ eq_refl) H2) as H4.
        destruct (k_check K gc chk) as [[]|e| |]; cbn [ko_typing res_err snd]; auto.
        * specialize (Hins H4). destruct (ko_gctx _) as [gc' r]. exact Hins.
        * cbn [cmd_derives]. rewrite <- H3. exact H4.
      + specialize (Hins I). destruct (ko_gctx _) as [gc' r]. exact Hins.
    - pose proof (rewrites_match rs Hc Pc) as H. destruct (rewrites K unit _ rs gc tt) as [[] r]. cbn [snd] in H.
      destruct r as [[]|[]| |]; cbn [snd]; auto; [|contradiction]. pose proof (add_rules_match rs gc) as Hm.
      destruct (add_rules rs gc) as [gc' [[]|[]| |]]; cbn [snd]; auto.
  Qed.

  Lemma accepted_proper o cmd gc' : omits o StCheck = false -> cmd_ctx gc cmd -> proper_cmd cmd ->
    infer_check K o cmd gc = (gc', Ok tt) -> proper_gctx gc'.
  Proof.
    intros Ho Hc Pc. unfold infer_check. rewrite Ho. destruct Hp as [Q1 Q2]. destruct cmd as [c it|rs]; cbn [infer_with].
    - pose proof (intro_match gc Hgc Hcr Hp (O (QIntro gc it)) n it Pc) as H.
      change (k_intro K gc it) with (ModelInfer.run (kintro (O (QIntro gc it)) gc n it)).
      destruct (ModelInfer.run _) as [[ty ochk]|e| |]; cbn [ko_typing res_err]; try discriminate.
      destruct H as (_ & _ & _ & H1 & H2). intros H.
      assert (Hi : gctx_insert gc c ty (rewritable it) = (gc', None)).
      { destruct (match ochk with Some chk => _ | None => _ end) as [[] [[]|e| |]]; try discriminate.
        destruct (gctx_insert gc c ty (rewritable it)) as [gc1 [e|]]; cbn in H; [discriminate|]. congruence. }
      apply insert_cases in Hi as (T & R & _). destruct (R eq_refl) as [_ R']. split.
      + intros d A. rewrite T. destruct (d =? c); [intros [= <-]; exact H1|apply Q1].
      + intros d rs r. rewrite R'. destruct ((d =? c) && rewritable it); [|apply Q2]. intros [= <-]. unfold def_rules.
        destruct (t_tm ty) as [tm|] eqn:E; [|contradiction]. intros [<-|[]]. cbn. auto.
    - destruct (rewrites K unit _ rs gc tt) as [[] [[]|e| |]]; try discriminate.
      destruct (add_rules rs gc) as [gc1 r] eqn:E. destruct r as [[]|e| |]; try discriminate. intros [= <-].
      cbn [proper_cmd] in Pc. clear Hc Hcr Hgc Hp. revert gc Q1 Q2 E. induction Pc as [|r rs Pr _ IH]; intros gc Q1 Q2; cbn [add_rules].
      + intros [= <-]. split; assumption.
      + destruct (add_rule gc r) as [gc2 [e|]] eqn:E; cbn [ko_gctx]; [discriminate|]. apply add_rule_cases in E as [T R]. apply IH.
        * rewrite T. exact Q1.
        * intros d l r0. rewrite R. destruct (get_rules gc d) as [l0|] eqn:El; [|discriminate]. intros [= <-] Hin.
          destruct (_ =? d); [apply in_app_or in Hin; destruct Hin as [Hin|[<-|[]]]|]; [eapply Q2; eassumption|apply Pr|eapply Q2; eassumption].
  Qed.
End Commands.

(** ** Decisions *)
Theorem main_infer_decides uniq gc lc t : terminating gc -> church_rosser (er_gctx gc) -> proper_gctx gc ->
  type_ctx (er_gctx gc) (dctx lc) -> Forall proper_l lc -> proper_l t ->
  exists n0 r, (forall n, n0 <= n -> ModelInfer.run (ModelInfer.infer uniq gc n (lctx_of lc) (sterm_of_lterm t)) = r) /\
    match r with
    | Ok ty => annotations true (erl t) /\ derives (er_gctx gc) (dctx lc) (erl t) (strip (ers ty)) /\
               forall A, derives (er_gctx gc) (dctx lc) (erl t) A -> conv (er_gctx gc) A (strip (ers ty))
    | Err _ => ~ (annotations true (erl t) /\ exists A, derives (er_gctx gc) (dctx lc) (erl t) A)
    | _ => False
    end.
Proof.
  intros Hgc Hcr Hp Hc Pl Pt. destruct (main_infer_returns uniq gc lc t Hgc Hc) as (n0 & r & Hr & H). exists n0, r. split; [exact H|].
  pose proof (infer_match gc Hgc Hcr Hp uniq n0 lc t Hc Pl Pt) as X. rewrite (H n0 (le_n _)) in X.
  destruct r as [ty|e| |]; auto; [tauto|]. intros [An [A HA]]. exact (X An A HA).
Qed.
Theorem main_check_decides uniq gc c : terminating gc -> church_rosser (er_gctx gc) -> proper_gctx gc ->
  type_ctx (er_gctx gc) (dctx (t_lc c)) -> (exists K, well_typed (er_gctx gc) (dctx (t_lc c)) (strip (erl (t_ty c))) K) ->
  Forall proper_l (t_lc c) -> proper_l (t_tm c) -> proper_l (t_ty c) ->
  exists n0 r, (forall n, n0 <= n -> ModelInfer.run (check_check uniq gc n c) = r) /\
    match r with
    | Ok _ => has gc (t_lc c) (t_tm c) (strip (erl (t_ty c)))
    | Err _ => ~ has gc (t_lc c) (t_tm c) (strip (erl (t_ty c)))
    | _ => False
    end.
Proof.
  intros Hgc Hcr Hp Hc HK Pl Pt Pa. destruct (main_check_returns uniq gc c Hgc Hc HK) as (n0 & r & Hr & H). exists n0, r. split; [exact H|].
  pose proof (check_match gc Hgc Hcr Hp uniq n0 c (conj Hc HK) Pl Pa Pt) as X. rewrite (H n0 (le_n _)) in X.
  destruct r as [ty|e| |]; auto.
Qed.
Theorem main_command_decides O o gc cmd : terminating gc -> church_rosser (er_gctx gc) -> proper_gctx gc ->
  omits o StCheck = false -> cmd_ctx gc cmd -> proper_cmd cmd ->
  exists n0 gc' r, (forall n, n0 <= n -> infer_check (real_kernel O n) o cmd gc = (gc', r)) /\
    match r with
    | Ok _ => cmd_derives gc cmd /\ cmd_admissible gc cmd
    | Err (KoTyping _) => ~ cmd_derives gc cmd
    | Err (KoGCtx _) => cmd_derives gc cmd /\ ~ cmd_admissible gc cmd
    | _ => False
    end.
Proof.
  intros Hgc Hcr Hp Ho Hc Pc. destruct (main_command_returns O o gc cmd Hgc Hc) as (n0 & [gc' r] & Hr & H). exists n0, gc', r. split; [exact H|].
  pose proof (command_match O n0 gc Hgc Hcr Hp o cmd Ho Hc Pc) as X. rewrite (H n0 (le_n _)) in X. cbn in Hr, X.
  destruct r as [|[]| |]; auto.
Qed.

(** ** Programs *)
Lemma share_proper cmd st st' cmd' : share cmd st = (st', Ok cmd') -> proper_cmd cmd'.
Proof.
  unfold share. destruct cmd as [x args it|rs].
  - pose proof (share_pintro_ok (ps_syms st) x args it) as H. destruct (share_command (ps_syms st) (PIntro x args it)) as [c|e| |]; try discriminate.
    destruct H as (_ & it' & -> & Hit). destruct (symbols_insert _ _ _) as [syms [id|e| |]]; cbn; try discriminate. intros [= _ <-]. exact Hit.
  - pose proof (main_share_rules (ps_syms st) rs) as H. destruct (share_command (ps_syms st) (PRules rs)) as [[id it|rs']|e| |]; try discriminate; [contradiction|].
    intros [= _ <-]. cbn [proper_cmd]. clear - H. induction H as [|r r' rs rs' Hr _ IH]; constructor; [|exact IH]. clear IH. unfold share_rule in Hr.
    apply res_bind_ok in Hr as (ctx & Ec & Hr). apply res_bind_ok in Hr as (lhs & _ & Hr). apply res_bind_ok in Hr as (p & _ & Hr).
    apply res_bind_ok in Hr as (tp & _ & Hr). apply res_bind_ok in Hr as (rhs & Er & [= <-]). cbn [r_ctx r_rhs]. split.
    + clear - Ec. revert ctx Ec. induction (pr_ctx r) as [|[id o] l IH]; cbn [map_res]; intros ctx; [intros [= <-]; constructor|].
      intros E. apply res_bind_ok in E as (b & Eb & E). apply res_bind_ok in E as (bs & Ebs & [= <-]). constructor; [|apply IH; exact Ebs].
      pose proof (opt_res_ok (ps_syms st) o) as Ho. destruct (opt_res _ o) as [o'|e| |]; try discriminate. injection Eb as <-. cbn.
      destruct Ho as [_ Ho]. intros A ->. destruct o; [apply Ho|contradiction].
    + pose proof (share_term_ok (ps_syms st) (pr_rhs r)) as Ht. rewrite Er in Ht. apply Ht.
Qed.

Section Program.
  Variables (O : query -> nat -> bool) (PE : Type) (eta jobs : bool).
  Let o := Opts eta None jobs.
  Notation seq n := (infer_checks_seq PE (real_kernel O n) o _ (consume_item PE o)).

  Lemma seq_prefix k evs : forall evs' st st', seq k (map Ok (evs ++ evs')) st = (st', [], Ok tt) ->
    exists st1, seq k (map Ok evs) st = (st1, [], Ok tt) /\ seq k (map Ok evs') st1 = (st', [], Ok tt).
  Proof.
    induction evs as [|ev evs IH]; intros evs' st st'; cbn [app map infer_checks_seq]; [eauto|].
    destruct (consume_item PE o (Ok ev) st) as [st1 r]. destruct (filter_infer PE o r) as [[cmd|e| |]|]; try discriminate; [|apply IH].
    destruct (infer_check (real_kernel O k) o cmd (ps_gc st1)) as [gc [[]|e| |]]; try discriminate. apply IH.
  Qed.
  Lemma accepted_same k evs st st' : seq k (map Ok evs) (pst_new o) = (st, [], Ok tt) -> accepted O PE o evs st' -> st' = st.
  Proof.
    intros H' [n H]. destruct (Nat.le_ge_cases n k) as [L|L].
    - pose proof (seq_mono O n k L PE o (map Ok evs) (pst_new o)) as X. rewrite H in X. rewrite X in H' by discriminate. congruence.
    - pose proof (seq_mono O k n L PE o (map Ok evs) (pst_new o)) as X. rewrite H' in X. rewrite X in H by discriminate. congruence.
  Qed.
  Lemma program_ok_prefix pre post : program_ok O PE o (pre ++ post) -> program_ok O PE o pre.
  Proof. intros H p cmd q st E Ha. apply (H p cmd (q ++ post) st); [|exact Ha]. rewrite E, <- app_assoc. reflexivity. Qed.

  Lemma typed_ctx gc cmd : cmd_typed gc cmd -> cmd_ctx gc cmd.
  Proof.
    destruct cmd as [c it|rs]; [intros; exact I|]. cbn. intros H. eapply Forall_impl; [|exact H]. cbn beta. intros r H1 r2 E2. rewrite E2 in H1. exact H1.
  Qed.
  (** one command *)
  Lemma step_inv k st cmd post st' : inv st -> proper_gctx (ps_gc st) ->
    eta_safe (er_gctx (ps_gc st)) /\ left_linear (er_gctx (ps_gc st)) /\ church_rosser (er_gctx (ps_gc st)) /\ normalising (er_gctx (ps_gc st)) /\
      (forall st' cmd', share cmd st = (st', Ok cmd') -> cmd_typed (ps_gc st) cmd') ->
    seq k (map Ok (EvCommand cmd :: post)) st = (st', [], Ok tt) ->
    ready st cmd /\ exists st1, seq k (map Ok [EvCommand cmd]) st = (st1, [], Ok tt) /\ proper_gctx (ps_gc st1).
  Proof.
    intros Hi Hp (He & Hl & Hcr & Hsn & Hcmd). cbn [map infer_checks_seq consume_item omits o_omit o from_event]. pose proof (share_gc cmd st) as Hg.
    destruct (share cmd st) as [st1 r] eqn:Es. cbn in Hg. destruct r as [cmd'|e| |]; cbn [option_map filter_infer res_err omits o_omit o]; try discriminate.
    specialize (Hcmd _ _ eq_refl). pose proof (inv_terminating st Hi He Hl Hcr Hsn) as Hgc. rewrite Hg.
    pose proof (command_match O k (ps_gc st) Hgc Hcr Hp o cmd' eq_refl (typed_ctx _ _ Hcmd) (share_proper _ _ _ _ Es)) as H.
    destruct (infer_check (real_kernel O k) o cmd' (ps_gc st)) as [gc r] eqn:Ei. cbn [snd] in H. destruct r as [[]|e| |]; try discriminate. intros _.
    split; [exists st1, cmd'; split; [exact Es|exact H]|].
    exists (PSt (ps_syms st1) (ps_next st1) gc). split; [reflexivity|]. cbn.
    exact (accepted_proper O k (ps_gc st) Hgc Hcr Hp o cmd' gc eq_refl (typed_ctx _ _ Hcmd) (share_proper _ _ _ _ Es) Ei).
  Qed.
  Lemma accepted_proper_gctx k evs : forall st, program_ok O PE o evs -> seq k (map Ok evs) (pst_new o) = (st, [], Ok tt) -> proper_gctx (ps_gc st).
  Proof.
    induction evs as [|ev evs IH] using rev_ind; intros st Hok H.
    - injection H as <-. split; intros c; discriminate.
    - apply seq_prefix in H as (st1 & H1 & H2). pose proof (program_ok_prefix _ _ Hok) as Hok1. specialize (IH _ Hok1 H1).
      destruct ev as [path|cmd].
      + cbn in H2. injection H2 as <-. exact IH.
      + pose proof (Hok evs cmd [] st1 eq_refl (ex_intro _ k H1)) as Hc.
        destruct (step_inv k st1 cmd [] st (accepted_inv O PE eta jobs evs Hok1 k st1 H1) IH Hc H2) as (_ & st2 & E & Hp2).
        rewrite E in H2. injection H2 as <-. exact Hp2.
  Qed.

  Theorem main_program_decides evs : program_ok O PE o evs ->
    ((exists st, accepted O PE o evs st) <->
     (forall pre cmd post st, evs = pre ++ EvCommand cmd :: post -> accepted O PE o pre st -> ready st cmd)).
  Proof.
    intros Hok. split.
    - intros (st' & k & H) pre cmd post st -> Ha. apply seq_prefix in H as (st1 & H1 & H2).
      rewrite (accepted_same k pre st1 st H1 Ha) in *. pose proof (program_ok_prefix _ _ Hok) as Hok1.
      eapply (step_inv k st1 cmd post st'); [exact (accepted_inv O PE eta jobs pre Hok1 k st1 H1)|exact (accepted_proper_gctx k pre st1 Hok1 H1)| |exact H2].
      exact (Hok pre cmd post st1 eq_refl (ex_intro _ k H1)).
    - intros H.
      assert (X : forall pre post, evs = pre ++ post -> exists st, accepted O PE o pre st).
      { induction pre as [|ev pre IH] using rev_ind; intros post E; [exists (pst_new o), 0; reflexivity|]. rewrite <- app_assoc in E. cbn in E.
        destruct (IH _ E) as (st & k & Hk). rewrite E in Hok.
        destruct ev as [path|cmd].
        - eexists _, k. rewrite map_app. rewrite (seq_app O PE eta jobs k _ _ _ _ Hk). reflexivity.
        - pose proof (program_ok_prefix _ _ Hok) as Hok1. destruct (Hok pre cmd post st eq_refl (ex_intro _ k Hk)) as (He & Hl & Hcr & Hsn & Hcmd).
          pose proof (accepted_inv O PE eta jobs pre Hok1 k st Hk) as Hi. pose proof (accepted_proper_gctx k pre st Hok1 Hk) as Hp.
          destruct (H pre cmd post st E (ex_intro _ k Hk)) as (st1 & cmd' & Es & Hd & Had). specialize (Hcmd _ _ Es).
          destruct (main_command_decides O o (ps_gc st) cmd' (inv_terminating st Hi He Hl Hcr Hsn) Hcr Hp eq_refl (typed_ctx _ _ Hcmd) (share_proper _ _ _ _ Es))
            as (m & gc' & r & Hm & Hr).
          assert (r = Ok tt) by (destruct r as [[]|[]| |]; tauto). subst r.
          exists (PSt (ps_syms st1) (ps_next st1) gc'), (Nat.max k m). rewrite map_app.
          assert (Hk' : seq (Nat.max k m) (map Ok pre) (pst_new o) = (st, [], Ok tt)).
          { rewrite (seq_mono O k (Nat.max k m) ltac:(lia)); [exact Hk|]. rewrite Hk. discriminate. }
          rewrite (seq_app O PE eta jobs (Nat.max k m) _ _ _ _ Hk'). cbn [map infer_checks_seq consume_item omits o_omit o from_event]. pose proof (share_gc cmd st) as Hg.
          rewrite Es in *. cbn in Hg. cbn [option_map filter_infer res_err omits o_omit o]. rewrite Hg, Hm by lia. reflexivity. }
      apply (X evs []). rewrite app_nil_r. reflexivity.
  Qed.
End Program.
