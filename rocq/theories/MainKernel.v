(** * Proofs of the kernel properties, assembled *)

From Verif Require Import Base LibMono ModelTerm ModelGctx ModelCommand ModelSubst ModelReduce ModelInfer ModelMono
  SpecTerm SpecConv SpecConvFacts SpecTyping SpecWhnf SpecQuery
  RefMachine RefMono RefSafe RefSound RefSym RefWhnf Erase SimReduce Inv SoundInfer RefInfer KernelFacts.

Open Scope sm_scope.

Lemma run_ok {A} (m : M A) a : run m = Ok a -> exists s, m (MSt [] 0) = Ok (a, s).
Proof.
  unfold run, res_map. destruct (m (MSt [] 0)) as [[a' s]| | |]; try discriminate. intros [= <-]. eauto.
Qed.
Lemma run_ok0 {A} (P : A -> Prop) (m : M A) a : ok0 P m -> run m = Ok a -> P a.
Proof.
  intros H Hr. apply run_ok in Hr. destruct Hr as [s E]. specialize (H (MSt [] 0) eq_refl). rewrite E in H. apply H.
Qed.
Lemma run_np {A} (m : M A) : np m -> run m <> Panic.
Proof.
  intros H Hr. unfold run, res_map in Hr. specialize (H (MSt [] 0) eq_refl).
  destruct (m (MSt [] 0)) as [[a s]| | |] eqn:E; try discriminate. contradiction.
Qed.

(** ** Vocabulary *)
Lemma kind_free_kf t : kind_free t <-> kf t.
Proof.
  unfold kf. induction t as [| |c|n|c|c IH] using sterm_ind'; cbn [kind_free wfs]; try tauto.
  - split; intros _; [|exact I]. exact (kf_lterm (LComb c)).
  - destruct c as [h args|id a b|id [a|] b]; cbn [forall_comb wfc comb_all some_all] in *; try tauto.
    destruct IH as [Hh Ha]. split; intros H.
    + split; [tauto|]. split; [|contradiction]. destruct H as [_ H].
      induction Ha; cbn in *; tauto.
    + split; [tauto|]. destruct H as (_ & H & _). induction Ha; cbn in *; tauto.
Qed.
Lemma kind_free_lterm t : kind_free (sterm_of_lterm t).
Proof. destruct t; exact I. Qed.
Lemma proper_nfl t : proper_l t -> nfl t.
Proof.
  unfold nfl. induction t as [|c|n|c IH] using lterm_ind'; cbn [proper_l wfl]; auto.
  destruct c as [h args|id a b|id [a|] b]; cbn [forall_comb wfc comb_all some_all appl_ok] in *; try tauto.
  destruct IH as [Hh Ha]. intros (H1 & H2 & H3). split; [tauto|]. split.
  - clear - Ha H3. induction Ha; cbn in *; tauto.
  - intros _. destruct args; [right; exact H1|left; discriminate].
Qed.
Lemma proper_nf t : proper_s t -> nf t.
Proof.
  unfold nf. induction t as [| |c|n|c|c IH] using sterm_ind'; cbn [proper_s]; auto.
  - intros H. apply (proper_nfl (LComb c) H).
  - cbn [wfs]. destruct c as [h args|id a b|id [a|] b]; cbn [forall_comb wfc comb_all some_all appl_ok] in *; try tauto.
    destruct IH as [Hh Ha]. intros (H1 & H2 & H3). split; [tauto|]. split.
    + clear - Ha H3. induction Ha; cbn in *; tauto.
    + intros _. destruct args; [right; exact H1|left; discriminate].
Qed.
Lemma proper_gctx_nf gc : proper_gctx gc -> gctx_nf gc.
Proof. intros [H1 H2]. split; eauto using proper_nfl. Qed.
Lemma absent_wfl c t : absent c t -> wfl (fun d => d <> c) False t.
Proof.
  induction t as [|d|n|k IH] using lterm_ind'; cbn [absent wfl]; auto.
  destruct k as [h args|id a b|id [a|] b]; cbn [forall_comb wfc comb_all some_all] in *; try tauto.
  destruct IH as [Hh Ha]. intros (H1 & H2). split; [tauto|]. split; [|contradiction].
  clear - Ha H2. induction Ha; cbn in *; tauto.
Qed.

(** ** C01, C02, C14 *)
Section Typing.
  Variable uniq : nat -> bool.
  Variable gc : gctx.
  Notation has_type := (has_type (er_gctx gc)).

  Lemma main_infer_s n lc t ty : Forall kind_free lc -> kind_free t ->
    run (infer uniq gc n lc t) = Ok ty -> has_type (map ers lc) (ers t) (ers ty).
  Proof.
    intros Hlc Ht Hr.
    assert (Hlc' : Forall kf lc) by (eapply Forall_impl; [|exact Hlc]; intros; now apply kind_free_kf).
    apply (run_ok0 _ _ _ (proj1 (infer_sound uniq gc n) lc t Hlc' (proj1 (kind_free_kf t) Ht))) in Hr. apply Hr.
  Qed.
  Lemma main_check_s n lc t ty : Forall kind_free lc -> kind_free t -> kind_free ty ->
    run (check uniq gc n lc t ty) = Ok true -> has_type (map ers lc) (ers t) (ers ty).
  Proof.
    intros Hlc Ht Hty Hr.
    assert (Hlc' : Forall kf lc) by (eapply Forall_impl; [|exact Hlc]; intros; now apply kind_free_kf).
    exact (run_ok0 _ _ _ (proj2 (infer_sound uniq gc n) lc t ty Hlc' (proj1 (kind_free_kf t) Ht) (proj1 (kind_free_kf ty) Hty)) Hr eq_refl).
  Qed.
  Lemma lctx_of_kf lc : Forall kind_free (lctx_of lc).
  Proof. unfold lctx_of. apply Forall_rev. induction lc; constructor; auto using kind_free_lterm. Qed.
  Lemma ers_lctx_of lc : map ers (lctx_of lc) = map erl (rev lc).
  Proof.
    unfold lctx_of. rewrite !map_rev. f_equal. rewrite map_map. apply map_ext. apply ers_sterm_of_lterm.
  Qed.
  Lemma main_infer n lc t ty : run (infer uniq gc n (lctx_of lc) (sterm_of_lterm t)) = Ok ty ->
    has_type (map erl (rev lc)) (erl t) (ers ty).
  Proof.
    intros H. apply main_infer_s in H; auto using lctx_of_kf, kind_free_lterm.
    rewrite ers_lctx_of, ers_sterm_of_lterm in H. exact H.
  Qed.
  Lemma main_check n c : run (check_check uniq gc n c) = Ok tt ->
    has_type (map erl (rev (t_lc c))) (erl (t_tm c)) (erl (t_ty c)).
  Proof.
    intros H. unfold check_check in H. apply run_ok in H. destruct H as [s H]. unfold bind in H.
    destruct (check _ _ _ _ _ _ _) as [[[|] s']| | |] eqn:E; try discriminate.
    assert (Hr : run (check uniq gc n (lctx_of (t_lc c)) (sterm_of_lterm (t_tm c)) (sterm_of_lterm (t_ty c))) = Ok true)
      by (unfold run; rewrite E; reflexivity).
    apply main_check_s in Hr; auto using lctx_of_kf, kind_free_lterm.
    rewrite ers_lctx_of, !ers_sterm_of_lterm in Hr. exact Hr.
  Qed.

  Lemma lterm_of_sterm_er t : forall t', lterm_of_sterm t = Some t' -> erl t' = ers t.
  Proof.
    induction t as [| |c|n|c|c IH] using sterm_ind'; intros t'; cbn [lterm_of_sterm]; try discriminate;
      try (intros [= <-]; reflexivity).
    assert (Hm : forall args args', Forall (fun t => forall t', lterm_of_sterm t = Some t' -> erl t' = ers t) args ->
      map_opt lterm_of_sterm args = Some args' -> map erl args' = map ers args).
    { intros args args' Hf. revert args'. induction Hf as [|a args Ha Hf IHf]; cbn; intros args'; [intros [= <-]; reflexivity|].
      destruct (lterm_of_sterm a) eqn:E1; [|discriminate]. destruct (map_opt _ args) eqn:E2; [|discriminate].
      intros [= <-]. cbn. f_equal; auto. }
    destruct c as [h args|id a b|id [a|] b]; cbn [comb_try comb_all er_comb ers] in *.
    - destruct IH as [Hh Ha]. destruct (lterm_of_sterm h) eqn:E1; [|discriminate].
      destruct (map_opt _ args) eqn:E2; [|discriminate]. intros [= <-]. cbn. f_equal; auto.
    - destruct IH as [Ha Hb]. destruct (lterm_of_sterm a) eqn:E1; [|discriminate].
      destruct (lterm_of_sterm b) eqn:E2; [|discriminate]. intros [= <-]. cbn. f_equal; auto.
    - destruct IH as [Ha Hb]. destruct (lterm_of_sterm a) eqn:E1; [|discriminate].
      destruct (lterm_of_sterm b) eqn:E2; [|discriminate]. intros [= <-]. cbn. f_equal; auto.
    - destruct IH as [_ Hb].
      destruct (lterm_of_sterm b) eqn:E2; [|discriminate]. intros [= <-]. cbn. f_equal; auto.
  Qed.
  Lemma main_rewrite n r c : run (rewrite uniq gc n r) = Ok c ->
    t_lc c = r_ctx r /\ t_tm c = r_rhs r /\ has_type (map erl (rev (r_ctx r))) (erl (r_lhs r)) (erl (t_ty c)).
  Proof.
    intros H. unfold rewrite in H. apply run_ok in H. destruct H as [s H]. unfold bind in H.
    destruct (infer _ _ _ _ _ _) as [[ty s']| | |] eqn:E; try discriminate.
    destruct (lterm_of_sterm ty) as [ty'|] eqn:El; cbn in H; [|discriminate]. injection H as <- <-. cbn.
    split; [reflexivity|]. split; [reflexivity|]. rewrite (lterm_of_sterm_er _ _ El).
    eapply main_infer with (n := n). unfold run. rewrite E. reflexivity.
  Qed.
  Lemma lterm_of_pattern_inst p : forall t, lterm_of_pattern p = Some t -> inst Var (erp p) (erl t).
  Proof.
    induction p as [c ps IH|m|] using pattern_ind'; cbn; intros t.
    - destruct (map_opt lterm_of_pattern ps) as [ts|] eqn:E; [|discriminate]. intros [= <-]. cbn. constructor.
      revert ts E. induction IH as [|p ps Hp Hps IHps]; cbn; intros ts; [intros [= <-]; constructor|].
      destruct (lterm_of_pattern p) eqn:E1; [|discriminate]. destruct (map_opt _ ps) eqn:E2; [|discriminate].
      intros [= <-]. cbn. constructor; auto.
    - intros [= <-]. constructor.
    - discriminate.
  Qed.
  Lemma main_rule n n' (r : rule) r' c :
    rule_try r = Ok r' -> run (rewrite uniq gc n r') = Ok c -> run (check_check uniq gc n' c) = Ok tt ->
    exists tys lhs ty,
      map snd (r_ctx r) = map Some tys /\
      inst Var (PatSymb (tp_symbol (r_lhs r)) (map erp (tp_args (r_lhs r)))) lhs /\
      has_type (map erl (rev tys)) lhs ty /\ has_type (map erl (rev tys)) (erl (r_rhs r)) ty.
  Proof.
    unfold rule_try. destruct (map_opt snd (r_ctx r)) as [tys|] eqn:Ec; [|discriminate].
    destruct (lterm_of_pattern _) as [lhs|] eqn:El; [|discriminate]. intros [= <-] Hr Hc.
    apply lterm_of_pattern_inst in El.
    apply main_rewrite in Hr. destruct Hr as (H1 & H2 & H3). apply main_check in Hc. rewrite H1, H2 in Hc. cbn in *.
    exists tys, (erl lhs), (erl (t_ty c)). split; [|split; [|split; assumption]].
    - clear - Ec. revert tys Ec. induction (r_ctx r) as [|[id o] l IH]; cbn; intros tys; [intros [= <-]; reflexivity|].
      destruct o; [|discriminate]. destruct (map_opt snd l) eqn:E; [|discriminate]. intros [= <-]. cbn. f_equal; auto.
    - exact El.
  Qed.
End Typing.

(** ** C13 *)
Section Intro.
  Variable uniq : nat -> bool.
  Variable gc : gctx.
  Notation has_type := (has_type (er_gctx gc)).
  Notation sort s := (s = Typ \/ s = Kind).
  Lemma run_bind_infer {A} n t (k : sterm -> M A) a :
    run (bind (infer uniq gc n [] (sterm_of_lterm t)) k) = Ok a ->
    exists ty s, has_type [] (erl t) (ers ty) /\ exists s', k ty s = Ok (a, s').
  Proof.
    intros H. apply run_ok in H. destruct H as [s H]. unfold bind in H.
    destruct (infer _ _ _ _ _ _) as [[ty s']| | |] eqn:E; try discriminate.
    exists ty, s'. split; [|eauto].
    apply (main_infer uniq gc n [] t ty). unfold run. cbn. rewrite E. reflexivity.
  Qed.
  Lemma declare_spec n ty r : run (declare uniq gc n ty) = Ok r ->
    r = (typing_new ty None, None) /\ exists s, sort s /\ has_type [] (erl ty) s.
  Proof.
    intros H. apply run_bind_infer in H. destruct H as (k & s & Hk & s' & H).
    destruct k; cbn in H; try discriminate; injection H as <- _; (split; [reflexivity|]); eauto.
  Qed.
  Lemma main_kintro n it ty chk : run (kintro uniq gc n it) = Ok (ty, chk) ->
    t_lc ty = [] /\
    match it with
    | IDeclaration _ A | IDefinition (Some A) None =>
      t_ty ty = A /\ t_tm ty = None /\ chk = None /\ exists s, sort s /\ has_type [] (erl A) s
    | IDefinition None (Some t) =>
      t_tm ty = Some t /\ chk = None /\ has_type [] (erl t) (erl (t_ty ty))
    | IDefinition (Some A) (Some t) =>
      t_ty ty = A /\ t_tm ty = Some t /\ chk = Some (MkTyping [] A t) /\ exists K, has_type [] (erl A) K
    | ITheorem A t =>
      t_ty ty = A /\ t_tm ty = None /\ chk = Some (MkTyping [] A t) /\ exists K, has_type [] (erl A) K
    | IDefinition None None => False
    end.
  Proof.
    destruct it as [[A|] [t|]|A t|inj A]; cbn [kintro]; intros H.
    - apply run_bind_infer in H. destruct H as (k & s & Hk & s' & H). injection H as <- <- _. cbn. eauto 10.
    - apply declare_spec in H. destruct H as ([= -> ->] & H). cbn. auto.
    - apply run_bind_infer in H. destruct H as (k & s & Hk & s' & H). unfold bind in H.
      destruct (lterm_of_sterm k) as [k'|] eqn:E; cbn in H; [|discriminate]. injection H as <- <- _. cbn.
      rewrite (lterm_of_sterm_er _ _ E). auto.
    - discriminate.
    - apply run_bind_infer in H. destruct H as (k & s & Hk & s' & H). injection H as <- <- _. cbn. eauto 10.
    - apply declare_spec in H. destruct H as ([= -> ->] & H). cbn. auto.
  Qed.
End Intro.

(** ** C03, C04, C10 *)
Lemma run_simm {A B} (f : A -> B) P (m : M A) (m' : RM B) : simm f P m m' ->
  match run m with
  | Ok a => exists h, m' [] = Ok (f a, h) /\ P a
  | Err e => m' [] = Err e
  | Panic => m' [] = Panic
  | Fuel => True
  end.
Proof.
  intros H. specialize (H (MSt [] 0) (hinv_nil (MSt [] 0) eq_refl)). unfold run. cbn in H.
  destruct (m (MSt [] 0)) as [[a s]| | |]; cbn; auto. destruct H as (H1 & H2 & _). eauto.
Qed.
Lemma run_whnf_ref uniq gc n t t' : run (whnf uniq gc n t) = Ok t' ->
  exists h, r_whnf (er_gctx gc) n (ers t) [] = Ok (ers t', h).
Proof.
  intros H. pose proof (run_simm _ _ _ _ (whnf_sim uniq gc n t)) as Hs. rewrite H in Hs.
  destruct Hs as (h & Hs & _). eauto.
Qed.
Lemma run_convertible_ref uniq gc n t u b : run (convertible uniq gc n t u) = Ok b ->
  exists h, r_convertible (er_gctx gc) n (ers t) (ers u) [] = Ok (b, h).
Proof.
  intros H. pose proof (run_simm _ _ _ _ (convertible_sim uniq gc n t u)) as Hs. rewrite H in Hs.
  destruct Hs as (h & Hs & _). eauto.
Qed.
Lemma main_whnf uniq gc n t t' : run (whnf uniq gc n t) = Ok t' -> conv (er_gctx gc) (ers t) (ers t').
Proof. intros H. apply run_whnf_ref in H. destruct H as [h H]. eapply r_whnf_sound; eassumption. Qed.
Lemma main_convertible uniq gc n t u : run (convertible uniq gc n t u) = Ok true -> conv (er_gctx gc) (ers t) (ers u).
Proof. intros H. apply run_convertible_ref in H. destruct H as [h H]. eapply r_conv_sound; eassumption. Qed.
Lemma main_whnf_form uniq gc n t t' : run (whnf uniq gc n t) = Ok t' -> whnf_form (er_gctx gc) (ers t').
Proof. intros H. apply run_whnf_ref in H. destruct H as [h H]. eapply r_whnf_form; eassumption. Qed.

(** ** C05, C06 *)
Lemma le_m_agree {S E A} (q : nat -> SM S E A) : (forall n m, n <= m -> le_m (q n) (q m)) ->
  forall n m s r r', q n s = r -> q m s = r' -> r <> Fuel -> r' <> Fuel -> r = r'.
Proof.
  intros H.
  assert (G : forall n m s, n <= m -> q n s <> Fuel -> q n s = q m s).
  { intros n m s L Hn. destruct (H n m L s); [contradiction|assumption]. }
  intros n m s r r' <- <- Hn Hm. destruct (Nat.le_ge_cases n m); [now apply G|symmetry; now apply G].
Qed.
Lemma main_convertible_agree uniq1 uniq2 gc n1 n2 t1 t2 u1 u2 b1 b2 : ers t1 = ers t2 -> ers u1 = ers u2 ->
  run (convertible uniq1 gc n1 t1 u1) = Ok b1 -> run (convertible uniq2 gc n2 t2 u2) = Ok b2 -> b1 = b2.
Proof.
  intros Et Eu H1 H2. apply run_convertible_ref in H1, H2. destruct H1 as [h1 H1], H2 as [h2 H2].
  rewrite <- Et, <- Eu in H2.
  assert (E : @Ok kerror _ (b1, h1) = Ok (b2, h2)).
  { eapply (le_m_agree (fun n => r_convertible (er_gctx gc) n (ers t1) (ers u1))); [|exact H1|exact H2|discriminate|discriminate].
    intros; now apply r_conv_loop_mono. }
  congruence.
Qed.
Lemma main_convertible_sym uniq1 uniq2 gc n1 n2 t u b1 b2 :
  run (convertible uniq1 gc n1 t u) = Ok b1 -> run (convertible uniq2 gc n2 u t) = Ok b2 -> b1 = b2.
Proof.
  intros H1 H2. apply run_convertible_ref in H1, H2. destruct H1 as [h1 H1], H2 as [h2 H2].
  rewrite r_convertible_sym in H2.
  assert (E : @Ok kerror _ (b1, h1) = Ok (b2, h2)).
  { eapply (le_m_agree (fun n => r_convertible (er_gctx gc) n (ers t) (ers u))); [|exact H1|exact H2|discriminate|discriminate].
    intros; now apply r_conv_loop_mono. }
  congruence.
Qed.
Lemma main_whnf_agree uniq1 uniq2 gc n1 n2 t1 t2 r1 r2 : ers t1 = ers t2 ->
  run (whnf uniq1 gc n1 t1) = Ok r1 -> run (whnf uniq2 gc n2 t2) = Ok r2 -> ers r1 = ers r2.
Proof.
  intros Et H1 H2. apply run_whnf_ref in H1, H2. destruct H1 as [h1 H1], H2 as [h2 H2]. rewrite <- Et in H2.
  assert (E : @Ok kerror _ (ers r1, h1) = Ok (ers r2, h2)).
  { eapply (le_m_agree (fun n => r_whnf (er_gctx gc) n (ers t1))); [|exact H1|exact H2|discriminate|discriminate].
    intros; now apply r_whnf_mono. }
  congruence.
Qed.
Lemma run_sim0 {A B} (f : A -> B) P (m : M A) (m' : RM B) : sim0 f P m m' ->
  match run m with
  | Ok a => m' [] = Ok (f a, [])
  | Err e => m' [] = Err e
  | Panic => m' [] = Panic
  | Fuel => True
  end.
Proof.
  intros H. specialize (H (MSt [] 0) eq_refl). unfold run. 
  destruct (m (MSt [] 0)) as [[a s]| | |]; cbn; auto. tauto.
Qed.
Lemma same_answer_ref {A B} (f : A -> B) P (m1 m2 : M A) (q : nat -> RM B) n1 n2 :
  (forall n m, n <= m -> le_m (q n) (q m)) -> sim0 f P m1 (q n1) -> sim0 f P m2 (q n2) ->
  same_answer (fun a b => f a = f b) (run m1) (run m2).
Proof.
  intros Hm H1 H2. apply run_sim0 in H1, H2.
  pose proof (le_m_agree q Hm n1 n2 [] _ _ eq_refl eq_refl) as H.
  destruct (run m1), (run m2); cbn; auto; rewrite H1, H2 in H; try (specialize (H ltac:(discriminate) ltac:(discriminate)); congruence).
Qed.
Lemma main_infer_agree uniq1 uniq2 gc n1 n2 lc1 lc2 t1 t2 :
  proper_gctx gc -> Forall proper_s lc1 -> Forall proper_s lc2 -> proper_s t1 -> proper_s t2 ->
  map ers lc1 = map ers lc2 -> ers t1 = ers t2 ->
  same_answer (fun a b => ers a = ers b) (run (infer uniq1 gc n1 lc1 t1)) (run (infer uniq2 gc n2 lc2 t2)).
Proof.
  intros Hgc Hl1 Hl2 Ht1 Ht2 El Et. apply proper_gctx_nf in Hgc.
  assert (Hf : forall lc, Forall proper_s lc -> Forall nf lc) by (intros lc H; eapply Forall_impl; [|exact H]; apply proper_nf).
  eapply (same_answer_ref ers nf _ _ (fun n => r_infer (er_gctx gc) n (map ers lc1) (ers t1)) n1 n2).
  - intros; now apply r_infer_mono.
  - apply infer_sim; auto using proper_nf.
  - rewrite El, Et. apply infer_sim; auto using proper_nf.
Qed.
Lemma main_check_agree uniq1 uniq2 gc n1 n2 lc1 lc2 t1 t2 ty1 ty2 :
  proper_gctx gc -> Forall proper_s lc1 -> Forall proper_s lc2 -> proper_s t1 -> proper_s t2 -> proper_s ty1 -> proper_s ty2 ->
  map ers lc1 = map ers lc2 -> ers t1 = ers t2 -> ers ty1 = ers ty2 ->
  same_answer eq (run (check uniq1 gc n1 lc1 t1 ty1)) (run (check uniq2 gc n2 lc2 t2 ty2)).
Proof.
  intros Hgc Hl1 Hl2 Ht1 Ht2 Hty1 Hty2 El Et Ety. apply proper_gctx_nf in Hgc.
  assert (Hf : forall lc, Forall proper_s lc -> Forall nf lc) by (intros lc H; eapply Forall_impl; [|exact H]; apply proper_nf).
  eapply (same_answer_ref id anyt _ _ (fun n => r_check (er_gctx gc) n (map ers lc1) (ers t1) (ers ty1)) n1 n2).
  - intros; now apply r_check_mono.
  - apply infer_sim; auto using proper_nf.
  - rewrite El, Et, Ety. apply infer_sim; auto using proper_nf.
Qed.

(** ** C12 *)
Lemma r_whnf_lam sg n t b h t' h' : lam_body t = Some b -> r_whnf sg n t h = Ok (t', h') -> t' = t.
Proof.
  intros Hl. destruct n as [|n]; [discriminate|]. destruct t; try discriminate; cbv; intros [= <- _]; reflexivity.
Qed.
Lemma main_eta uniq1 uniq2 uniq3 gc n1 n2 n3 t u b u' b' v r :
  g_eta gc = true ->
  ers t = ULam b \/ (exists a, ers t = Lam a b) ->
  run (whnf uniq1 gc n1 u) = Ok u' -> (forall a c, ers u' <> Lam a c) -> (forall c, ers u' <> ULam c) ->
  ers b' = b -> ers v = App (lift 1 (ers u')) (Var 0) ->
  run (convertible uniq2 gc n2 b' v) = Ok true ->
  run (convertible uniq3 gc n3 t u) = Ok r \/ run (convertible uniq3 gc n3 u t) = Ok r -> r = true.
Proof.
  intros He Ht Hu Hn1 Hn2 Hb Hv Hc Hr.
  apply run_whnf_ref in Hu. destruct Hu as [hu Hu]. apply run_convertible_ref in Hc. destruct Hc as [hc Hc].
  assert (Hr' : exists hr, r_convertible (er_gctx gc) n3 (ers t) (ers u) [] = Ok (r, hr)).
  { destruct Hr as [Hr|Hr]; apply run_convertible_ref in Hr; [exact Hr|].
    destruct Hr as [hr Hr]. exists hr. rewrite r_convertible_sym. exact Hr. }
  clear Hr. destruct Hr' as [hr Hr]. unfold r_convertible in Hr. destruct n3 as [|n]; [discriminate|].
  rewrite r_conv_loop_S in Hr. destruct (tm_eq_dec (ers t) (ers u)) as [E|E].
  { destruct n; [discriminate|]. change (r_conv_loop (er_gctx gc) (S n) []) with (@ret heap kerror _ true) in Hr. unfold ret in Hr. congruence. }
  assert (Hl : lam_body (ers t) = Some b) by (destruct Ht as [->|[a ->]]; reflexivity).
  unfold bind in Hr. destruct (r_whnf _ n (ers t) []) as [[t1 h1]| | |] eqn:E1; try discriminate.
  apply r_whnf_lam with (b := b) in E1 as ->; [|exact Hl].
  destruct (r_whnf_heap (er_gctx gc) n (ers u) h1) as [(u1 & E2)|E2]; [|rewrite E2 in Hr; discriminate].
  rewrite E2 in Hr. specialize (E2 []).
  assert (Eu : u1 = ers u').
  { assert (@Ok kerror _ (u1, []) = Ok (ers u', hu)); [|congruence].
    eapply (le_m_agree (fun n => r_whnf (er_gctx gc) n (ers u))); [|exact E2|exact Hu|discriminate|discriminate].
    intros; now apply r_whnf_mono. }
  assert (Hl' : lam_body u1 = None).
  { subst u1. destruct (ers u'); try reflexivity; [now elim (Hn1 _ _ eq_refl)|now elim (Hn2 _ eq_refl)]. }
  unfold r_step in Hr. rewrite Hl, Hl' in Hr. cbn [er_gctx sg_eta] in Hr. rewrite He in Hr. cbn [app] in Hr.
  rewrite Eu in Hr. unfold r_shift_app in Hr. rewrite Hb, Hv in Hc. unfold r_convertible in Hc.
  rewrite heapless_conv_loop in Hr.
  destruct (r_conv_loop (er_gctx gc) n [(b, App (lift 1 (ers u')) (Var 0))] []) as [[r' h'']| | |] eqn:E3; try discriminate.
  injection Hr as <- _.
  assert (@Ok kerror _ (r', h'') = Ok (true, hc)); [|congruence].
  eapply (le_m_agree (fun n => r_conv_loop (er_gctx gc) n [(b, App (lift 1 (ers u')) (Var 0))])); [|exact E3|exact Hc|discriminate|discriminate].
  intros; now apply r_conv_loop_mono.
Qed.

(** ** C09 *)
Definition nf_free {A} (m : M A) : Prop := forall s, m s <> Fuel.
Lemma nf_free_ret {A} (a : A) : nf_free (ret a).
Proof. intros s; discriminate. Qed.
Lemma nf_free_bind {A B} (m : M A) (k : A -> M B) : nf_free m -> (forall a, nf_free (k a)) -> nf_free (bind m k).
Proof. intros Hm Hk s. specialize (Hm s). unfold bind. destruct (m s) as [[a s']| | |]; [apply Hk|discriminate|discriminate|congruence]. Qed.
Lemma nf_free_mapM {A B} (f : A -> M B) l : Forall (fun a => nf_free (f a)) l -> nf_free (mapM f l).
Proof.
  induction 1; cbn [mapM]; [apply nf_free_ret|]. apply nf_free_bind; [assumption|]. intros.
  apply nf_free_bind; [assumption|]. intros; apply nf_free_ret.
Qed.
Lemma nf_free_usub n k : nf_free (usub n k).
Proof. unfold usub. destruct (k <=? n); intros s; discriminate. Qed.
Lemma nf_free_comb {T} (go : T -> nat -> M (sterm * bool)) c k :
  comb_all (fun t => forall k, nf_free (go t k)) c -> nf_free (comb_apply_subst go c k).
Proof.
  destruct c as [h args|id a b|id [a|] b]; cbn; intros [H1 H2];
    repeat first [apply nf_free_ret | match goal with |- nf_free (let '_ := ?x in _) => destruct x end
                 | apply nf_free_bind; [first [apply H1|apply H2|apply nf_free_mapM; eapply Forall_impl; [|exact H2]; auto]|intros ?]].
Qed.
Section NFree.
  Variable uniq : nat -> bool.
  Variable sb : nat -> nat -> M sterm.
  Hypothesis Hsb : forall n k, nf_free (sb n k).
  Lemma nf_free_apply_subst_l t : forall k, nf_free (apply_subst_l sb t k).
  Proof.
    induction t as [|c|n|c IH] using lterm_ind'; intros k; cbn [apply_subst_l]; try apply nf_free_ret.
    - destruct (k <=? n); [|apply nf_free_ret]. apply nf_free_bind; [apply Hsb|]. intros; apply nf_free_ret.
    - apply nf_free_bind; [now apply nf_free_comb|]. intros [c' ch]. apply nf_free_ret.
  Qed.
  Lemma nf_free_apply_subst t : forall k, nf_free (apply_subst uniq sb t k).
  Proof.
    induction t as [| |c|n|c|c IH] using sterm_ind'; intros k; cbn [apply_subst]; try apply nf_free_ret.
    - destruct (k <=? n); [|apply nf_free_ret]. apply nf_free_bind; [apply Hsb|]. intros; apply nf_free_ret.
    - apply nf_free_bind; [apply nf_free_comb, comb_all_intro, nf_free_apply_subst_l|]. intros [c' ch]. apply nf_free_ret.
    - apply nf_free_bind; [intros s; discriminate|]. intros u.
      apply nf_free_bind; [now apply nf_free_comb|]. intros [c' ch]. destruct u; [|destruct ch]; apply nf_free_ret.
  Qed.
End NFree.
Lemma nf_free_shift uniq t k : nf_free (shift uniq t k).
Proof.
  unfold shift, shift_mut. destruct (k =? 0); [apply nf_free_ret|].
  apply nf_free_bind; [apply nf_free_apply_subst; intros; apply nf_free_ret|]. intros [? ?]. apply nf_free_ret.
Qed.
Lemma nf_free_psubst_single uniq u n k : nf_free (psubst_single uniq u n k).
Proof.
  unfold psubst_single. destruct (n =? k); [apply nf_free_shift|].
  apply nf_free_bind; [apply nf_free_usub|]. intros; apply nf_free_ret.
Qed.
Lemma run_total {A B} (f : A -> B) P (m : M A) b : simm f P m (ret b) -> nf_free m -> exists a, run m = Ok a /\ f a = b.
Proof.
  intros H Hf. apply run_simm in H. unfold run in *. specialize (Hf (MSt [] 0)).
  destruct (m (MSt [] 0)) as [[a s]| | |]; try congruence; try discriminate. cbn in *.
  destruct H as (h & [= H] & _). eauto.
Qed.
Lemma main_subst uniq t u : exists t', run (subst uniq t u) = Ok t' /\ ers t' = subst1 (ers u) (ers t).
Proof.
  eapply run_total; [apply subst_sim|]. unfold subst.
  apply nf_free_bind; [apply nf_free_apply_subst; intros; apply nf_free_psubst_single|]. intros [? ?]. apply nf_free_ret.
Qed.
Lemma main_shift uniq t k : exists t', run (shift uniq t k) = Ok t' /\ ers t' = lift k (ers t).
Proof. eapply run_total; [apply shift_sim|apply nf_free_shift]. Qed.

(** the change flag, for arbitrary replacements *)
Definition keeps {A} (g : A -> tm) (t : tm) (m : M (A * bool)) : Prop :=
  forall s a s', m s = Ok ((a, false), s') -> g a = t.
Lemma fold_or_false l : forall b, fold_left (fun ch (p : sterm * bool) => snd p || ch) l b = false ->
  b = false /\ Forall (fun p => snd p = false) l.
Proof.
  induction l as [|[t c] l IH]; cbn; intros b H; [auto|]. apply IH in H. destruct H as [H1 H2].
  apply orb_false_iff in H1. destruct H1. auto.
Qed.
Lemma keeps_comb {T} (e : T -> tm) (go : T -> nat -> M (sterm * bool)) c k :
  comb_all (fun t => forall k, keeps ers (e t) (go t k)) c ->
  keeps (er_comb ers) (er_comb e c) (comb_apply_subst go c k).
Proof.
  assert (Hm : forall args k, Forall (fun t => forall k, keeps ers (e t) (go t k)) args ->
    forall s ps s', mapM (fun x => go x k) args s = Ok (ps, s') -> Forall (fun p => snd p = false) ps ->
    map ers (map fst ps) = map e args).
  { intros args k' Hf. induction Hf as [|a args Ha Hf IHf]; cbn; intros s ps s'; [intros [= <- <-]; reflexivity|].
    unfold bind, ret. destruct (go a k' s) as [[[a' ch] s1]| | |] eqn:E1; try discriminate.
    destruct (mapM _ args s1) as [[ps' s2]| | |] eqn:E2; try discriminate. intros [= <- <-] Hall.
    inversion Hall as [|? ? H1 H2]; subst. cbn in *. subst. f_equal; [eapply Ha; eassumption|eapply IHf; eassumption]. }
  destruct c as [h args|id a b|id [a|] b]; cbn; intros [H1 H2] s x s'; unfold bind, ret.
  - destruct (go h k s) as [[[h' ch] s1]| | |] eqn:E1; try discriminate.
    destruct (mapM _ args s1) as [[ps s2]| | |] eqn:E2; try discriminate. intros [= <- Hf <-].
    apply fold_or_false in Hf. destruct Hf as [-> Hf]. cbn. f_equal; [eapply H1; eassumption|eapply Hm; eassumption].
  - destruct (go a k s) as [[[a' ch] s1]| | |] eqn:E1; try discriminate.
    destruct (go b _ s1) as [[[b' ch'] s2]| | |] eqn:E2; try discriminate. intros [= <- Hf <-].
    apply orb_false_iff in Hf. destruct Hf as [-> ->]. cbn. f_equal; [eapply H1; eassumption|eapply H2; eassumption].
  - destruct (go b _ s) as [[[b' ch] s1]| | |] eqn:E1; try discriminate.
    destruct (go a _ s1) as [[[a' ch'] s2]| | |] eqn:E2; try discriminate. intros [= <- Hf <-].
    apply orb_false_iff in Hf. destruct Hf as [-> ->]. cbn. f_equal; [eapply H1; eassumption|eapply H2; eassumption].
  - destruct (go b _ s) as [[[b' ch] s1]| | |] eqn:E1; try discriminate. intros [= <- -> <-].
    cbn. f_equal; eapply H2; eassumption.
Qed.
Lemma keeps_apply_subst_l sb t : forall k, keeps ers (erl t) (apply_subst_l sb t k).
Proof.
  induction t as [|c|n|c IH] using lterm_ind'; intros k s a s'; cbn [apply_subst_l].
  - intros [= <- <-]; reflexivity.
  - intros [= <- <-]; reflexivity.
  - destruct (k <=? n); unfold bind, ret; [destruct (sb n k s) as [[? ?]| | |]; discriminate|intros [= <- <-]; reflexivity].
  - unfold bind, ret. destruct (comb_apply_subst _ c k s) as [[[c' ch] s1]| | |] eqn:E; try discriminate.
    intros [= <- -> <-]. cbn. eapply keeps_comb; [exact IH|exact E].
Qed.
Lemma main_flag uniq sb t k s t' s' : apply_subst uniq sb t k s = Ok ((t', false), s') -> ers t' = ers t.
Proof.
  revert k s t' s'.
  enough (H : forall k, keeps ers (ers t) (apply_subst uniq sb t k)) by (intros k s t' s' E; exact (H k s t' s' E)).
  induction t as [| |c|n|c|c IH] using sterm_ind'; intros k s a s'; cbn [apply_subst].
  - intros [= <- <-]; reflexivity.
  - intros [= <- <-]; reflexivity.
  - intros [= <- <-]; reflexivity.
  - destruct (k <=? n); unfold bind, ret; [destruct (sb n k s) as [[? ?]| | |]; discriminate|intros [= <- <-]; reflexivity].
  - unfold bind, ret. destruct (comb_apply_subst _ c k s) as [[[c' ch] s1]| | |] eqn:E; try discriminate.
    intros [= <- -> <-]. cbn. eapply keeps_comb; [|exact E]. apply comb_all_intro. apply keeps_apply_subst_l.
  - unfold bind, ret, is_unique. destruct (comb_apply_subst _ c k _) as [[[c' ch] s1]| | |] eqn:E; try discriminate.
    destruct (uniq _).
    + intros [= <- -> <-]. cbn. eapply keeps_comb; [exact IH|exact E].
    + destruct ch; intros [= <- <-]; reflexivity.
Qed.

(** ** C11 *)
(** The terms [args] are put on the stack, the rules are tried on it as for a symbol at the head
    (reduce.rs:177-191, 206-208), and the terms that the rule variables stand for are read back. *)
Definition match_args (uniq : nat -> bool) (gc : gctx) (n : nat) (rules : list rule) (args : list sterm)
  : M (option (list sterm * rule)) :=
  stack <- push_args [] args [] ;;
  o <- first_match uniq (rstate_whnf (state_whnf uniq gc n))
         (fun t1 t2 => convertible_loop uniq gc n [(t1, t2)]) n stack rules ;;
  match o with
  | None => ret None
  | Some (ctx, r) => ts <- mapM (force uniq n) ctx ;; ret (Some (ts, r))
  end.

Lemma mapM_sim {A B C D} (g : A -> C) (f : B -> D) (h : A -> M B) (h' : C -> RM D) l :
  (forall a, simm f any (h a) (h' (g a))) -> simm (map f) any (mapM h l) (mapM h' (map g l)).
Proof.
  intros H. induction l as [|a l IH]; cbn [mapM map]; [apply simm_ret; [reflexivity|exact I]|].
  eapply simm_bind; [apply H|]. intros b _. eapply simm_bind; [apply IH|]. intros bs _. apply simm_ret; [reflexivity|exact I].
Qed.

Lemma inst_conv_subst sg s s' : (forall m, conv sg (s m) (s' m)) -> forall p v, inst s p v ->
  exists v', inst s' p v' /\ conv sg v v'.
Proof.
  intros H. fix IH 3. intros p v Hi. destruct Hi as [m|t|c ps ts Hf].
  - exists (s' m). split; [constructor|apply H].
  - exists t. split; [constructor|apply conv_refl].
  - assert (Hx : exists ts', Forall2 (inst s') ps ts' /\ Forall2 (conv sg) ts ts').
    { induction Hf as [|p t ps ts Hp Hf IHf]; [exists []; auto|].
      destruct (IH p t Hp) as (t' & H1 & H2). destruct IHf as (ts' & H3 & H4). exists (t' :: ts'); auto. }
    destruct Hx as (ts' & H1 & H2). exists (apps (Const c) ts'). split; [constructor; assumption|].
    apply conv_apps; [apply conv_refl|assumption].
Qed.

Lemma r_push_sound sg args : forall G stack us, Forall2 (look G) stack us ->
  tr sg G (r_push [] args stack) (fun G' st => Forall2 (look G') st (args ++ us)).
Proof.
  induction args as [|a args IH]; intros G stack us H; cbn [r_push app]; [apply tr_ret; assumption|].
  eapply tr_bind; [apply IH; eassumption|]. intros G1 st Hp Hst.
  eapply tr_bind; [apply tr_alloc with (g := a)|].
  - exists [], []. cbn. split; [constructor|]. split; [constructor|]. rewrite sub_id_ext by reflexivity. apply conv_refl.
  - intros G2 l Hp2 Hl. apply tr_ret. constructor; [assumption|]. eapply looks_pre; eassumption.
Qed.

Lemma slist_conv sg ts : forall ts', Forall2 (conv sg) ts ts' -> forall m, conv sg (slist ts m) (slist ts' m).
Proof.
  induction 1 as [|t t' ts ts' Ht H IH]; intros m; [apply conv_refl|]. destruct m; cbn [slist]; auto.
Qed.

Lemma main_match uniq gc n rules args ts r :
  run (match_args uniq gc n rules args) = Ok (Some (ts, r)) ->
  In r rules /\ usable (er_rule r) /\ length ts = length (r_ctx r) /\
  length (tp_args (r_lhs r)) <= length args /\
  exists vs, Forall2 (inst (slist (map ers ts))) (map erp (tp_args (r_lhs r))) vs /\
             Forall2 (conv (er_gctx gc)) vs (map ers (firstn (length (tp_args (r_lhs r))) args)).
Proof.
  intros H.
  assert (Hin : In r rules).
  { apply run_ok in H. destruct H as [s H]. unfold match_args, bind in H.
    destruct (push_args _ _ _ _) as [[stack s1]| | |]; try discriminate.
    destruct (first_match _ _ _ _ _ _ _) as [[[[ctx r']|] s2]| | |] eqn:E; try discriminate.
    destruct (mapM _ _ _) as [[ts' s3]| | |]; try discriminate. injection H as _ <- _.
    clear - E. revert s1 E. induction rules as [|r rules IH]; cbn [first_match]; intros s1; [discriminate|].
    unfold bind. destruct (match_flatten _ _ _ _ _ _ _) as [[[ctx'|] s3]| | |]; try discriminate.
    - intros [= -> <- <-]. left; reflexivity.
    - intros E. right. eapply IH. exact E. }
  set (m' := bind (r_push [] (map ers args) []) (fun stack =>
    bind (r_first_match (r_rwhnf (r_state_whnf (er_gctx gc) n))
      (fun t1 t2 => r_conv_loop (er_gctx gc) n [(t1, t2)]) n stack (map er_rule rules)) (fun o =>
    match o with
    | None => ret None
    | Some (ctx, r) => bind (mapM (r_force n) ctx) (fun ts => ret (Some (ts, r)))
    end))).
  assert (Hsim : simm (option_map (fun p => (map ers (fst p), er_rule (snd p)))) any (match_args uniq gc n rules args) m').
  { unfold match_args, m'. eapply simm_bind; [apply push_args_sim|]. intros stack _. unfold id.
    eapply simm_bind; [apply first_match_sim|].
    - apply rstate_whnf_sim; [exact uniq|]. apply machine_sim.
    - intros t u. apply (proj2 (machine_sim uniq gc n) [(t, u)]).
    - intros [[ctx r']|] _; cbn [er_match option_map fst snd]; [|apply simm_ret; [reflexivity|exact I]].
      eapply simm_bind; [|intros us _; apply simm_ret; [reflexivity|exact I]].
      pose proof (mapM_sim (fun l : loc => l) ers (force uniq n) (r_force n) ctx (proj1 (force_sim uniq n))) as Hm.
      rewrite map_id in Hm. exact Hm. }
  pose proof (run_simm _ _ _ _ Hsim) as Hr. rewrite H in Hr. destruct Hr as (h & Hr & _). cbn in Hr.
  assert (Htr : tr (er_gctx gc) [] m' (fun _ o => match o with
    | None => True
    | Some (ts, r) => usable r /\ length ts = sr_vars r /\ length (sr_args r) <= length args /\
        exists vs, Forall2 (inst (slist ts)) (sr_args r) vs /\
                   Forall2 (conv (er_gctx gc)) vs (map ers (firstn (length (sr_args r)) args))
    end)).
  { unfold m'. eapply tr_bind; [apply r_push_sound; constructor|]. intros G1 stack Hp1 Hst.
    eapply tr_bind; [apply r_first_match_sound; [| |exact Hst]|].
    - intros G l g. apply r_rwhnf_sound. apply r_machine_sound.
    - intros G t u. eapply tr_post; [|apply (proj2 (r_machine_sound (er_gctx gc) n))]. cbn.
      intros G3 b _ Hb Hbt. specialize (Hb Hbt). inversion Hb; subst. assumption.
    - intros G2 [[ctx r']|] Hp2 Hf; [|apply tr_ret; exact I].
      destruct Hf as (_ & Hu & Hl & us & vs & Hus & Hlen & Hi & Hc).
      eapply tr_bind; [apply mapM_sound; [apply r_force_sound|exact Hus]|].
      intros G3 ts' Hp3 Hts. apply tr_ret. rewrite app_nil_r, map_length in Hl.
      split; [exact Hu|]. split; [rewrite (Forall2_length Hts); exact Hlen|]. split; [exact Hl|].
      rewrite app_nil_r in Hc. rewrite firstn_map in Hc.
      assert (Hcs : forall m, conv (er_gctx gc) (slist us m) (slist ts' m)).
      { apply slist_conv. clear - Hts. induction Hts; constructor; auto. apply conv_sym; assumption. }
      clear - Hi Hc Hcs. revert Hc. generalize (map ers (firstn (length (sr_args r')) args)).
      induction Hi as [|p v ps vs Hp Hi IH]; intros gs Hc; [exists []; split; [constructor|exact Hc]|].
      inversion Hc as [|? g ? gs' H1 H2]; subst. destruct (IH _ H2) as (vs' & H3 & H4).
      destruct (inst_conv_subst _ _ _ Hcs _ _ Hp) as (v' & H5 & H6).
      exists (v' :: vs'). split; constructor; auto. eapply conv_trans; [apply conv_sym; exact H6|exact H1]. }
  specialize (Htr [] (Forall2_nil _)). rewrite Hr in Htr. destruct Htr as (_ & _ & _ & Hu & Hl & Hle & vs & Hi & Hc).
  cbn in *. rewrite map_length in *. eauto 10.
Qed.

(** ** C12, first half *)
Lemma main_no_eta uniq gc n t u : g_eta gc = false ->
  run (convertible uniq gc n t u) = Ok true -> conv_no_eta (er_gctx gc) (ers t) (ers u).
Proof.
  intros He H. apply main_convertible in H. revert H. generalize (ers t) (ers u).
  induction 1; eauto using conv_no_eta.
  cbn in *. congruence.
Qed.
Lemma main_match_unusable uniq gc n rules args ts r : ~ usable (er_rule r) ->
  run (match_args uniq gc n rules args) <> Ok (Some (ts, r)).
Proof. intros Hu H. apply main_match in H. destruct H as (_ & H & _). contradiction. Qed.
