(** * Errors of the kernel are faults of terms and commands (C87) *)

From Verif Require Import Base LibMono ModelTerm ModelGctx ModelCommand ModelSubst ModelReduce ModelInfer ModelSyntax ModelProcess
  SpecTerm SpecConv SpecRed SpecTyping SpecBidir SpecQuery SpecProcess SpecDecide SpecFault
  Erase SimReduce Inv SoundInfer RefMachine RefInfer RefFault FaultFacts MainKernel MainBidir MainGctx MainVerify MainDecide.

Section Kernel.
  Variable uniq : nat -> bool.
  Variable gc : gctx.
  Hypothesis Hp : proper_gctx gc.
  Notation sg := (er_gctx gc).

  Lemma main_inf_fault n lc t e : Forall proper_l lc -> proper_l t ->
    ModelInfer.run (ModelInfer.infer uniq gc n (lctx_of lc) (sterm_of_lterm t)) = Err e -> inf_fault sg (map erl (rev lc)) (erl t) e.
  Proof.
    intros Pl Pt H. pose proof (run_sim0 _ _ _ _ (proj1 (infer_sim uniq gc (proper_gctx_nf _ Hp) n) (lctx_of lc) (sterm_of_lterm t) (proper_lctx _ Pl) (nf_lterm _ (proper_nfl _ Pt)))) as Hr.
    rewrite H, ers_lctx_of, ers_sterm_of_lterm in Hr. pose proof (proj1 (fault sg n) (map erl (rev lc)) (erl t) []) as X. rewrite Hr in X. exact X.
  Qed.
  Lemma main_refused n c e : Forall proper_l (t_lc c) -> proper_l (t_tm c) -> proper_l (t_ty c) ->
    ModelInfer.run (check_check uniq gc n c) = Err e -> refused sg (map erl (rev (t_lc c))) (erl (t_tm c)) (erl (t_ty c)) e.
  Proof.
    intros Pl Pt PT. rewrite run_check_check.
    pose proof (run_sim0 _ _ _ _ (proj2 (infer_sim uniq gc (proper_gctx_nf _ Hp) n) (lctx_of (t_lc c)) (sterm_of_lterm (t_tm c)) (sterm_of_lterm (t_ty c))
      (proper_lctx _ Pl) (nf_lterm _ (proper_nfl _ Pt)) (nf_lterm _ (proper_nfl _ PT)))) as Hr.
    rewrite ers_lctx_of, !ers_sterm_of_lterm in Hr. pose proof (proj2 (fault sg n) (map erl (rev (t_lc c))) (erl (t_tm c)) (erl (t_ty c)) []) as X.
    destruct (ModelInfer.run _) as [[|]|e'| |]; rewrite Hr in X || clear Hr; cbn; try discriminate.
    - intros [= <-]. right. split; [exact X|reflexivity].
    - intros [= <-]. left. exact X.
  Qed.
  Lemma main_inf_ok n lc t ty : Forall proper_l lc -> proper_l t -> ModelInfer.run (ModelInfer.infer uniq gc n (lctx_of lc) (sterm_of_lterm t)) = Ok ty ->
    infers sg (map erl (rev lc)) (erl t) (ers ty) /\ (lterm_of_sterm ty = None -> ty = SKind) /\ nf ty.
  Proof.
    intros Pl Pt H. split; [eapply main_infers; exact H|]. split; [|exact (infer_nf gc Hp uniq n lc t ty Pl Pt H)]. destruct (infer_kfk gc uniq n lc t ty H) as [->|X]; [reflexivity|].
    intros E. destruct (lterm_some _ X E).
  Qed.

  Lemma main_intro_fault n it e : intro_all proper_l it -> ModelInfer.run (kintro uniq gc n it) = Err e -> intro_fault sg (map_type erl (map_term erl it)) e.
  Proof.
    assert (Inf : forall t, proper_l t -> forall {A} (k : sterm -> M A) (Q : Prop), (inf_fault sg [] (erl t) e -> Q) ->
      (forall ty s, infers sg [] (erl t) (ers ty) -> (lterm_of_sterm ty = None -> ty = SKind) -> nf ty -> k ty s = Err e -> Q) ->
      ModelInfer.run (bind (ModelInfer.infer uniq gc n [] (sterm_of_lterm t)) k) = Err e -> Q).
    { intros t Pt A k Q H1 H2. pose proof (main_inf_fault n [] t) as F. pose proof (main_inf_ok n [] t) as G. cbn [lctx_of rev map] in F, G.
      change (lctx_of []) with (@nil sterm) in F, G. unfold ModelInfer.run, bind in *.
      destruct (ModelInfer.infer uniq gc n [] (sterm_of_lterm t) (MSt [] 0)) as [[ty s]|e'| |]; cbn [res_map fst] in *; try discriminate.
      - intros H. destruct (G _ (Forall_nil _) Pt eq_refl) as (G1 & G2 & G3). destruct (k ty s) as [[? ?]|e'| |] eqn:E; cbn in H; try discriminate. injection H as ->. exact (H2 ty s G1 G2 G3 E).
      - intros [= <-]. apply H1. apply F; [constructor|exact Pt|reflexivity]. }
    assert (Decl : forall A, proper_l A -> ModelInfer.run (declare uniq gc n A) = Err e -> no_type sg (erl A) e).
    { intros A PA. unfold declare. apply Inf; [exact PA|left; assumption|]. intros ty s H1 _ Hn Hk. right. exists (ers ty). split; [exact H1|].
      assert (Ns : is_sort ty = false /\ e = SortExpected) by (destruct (is_sort ty); cbn in Hk; [discriminate|]; unfold fail in Hk; injection Hk as <-; auto). destruct Ns as [Ns ->].
      pose proof (nf_shape _ Hn) as Hs. split; [|split; [|reflexivity]]; intros Ey; rewrite Ey in Hs; subst ty; discriminate. }
    assert (Ann : forall A (k : M (typing * option ModelGctx.check)) Q, (forall s, exists x, k s = Ok x) -> proper_l A -> ModelInfer.run (bind (ModelInfer.infer uniq gc n [] (sterm_of_lterm A)) (fun _ => k)) = Err e -> inf_fault sg [] (erl A) e \/ Q).
    { intros A k Q Hk PA. apply Inf; [exact PA|left; assumption|]. intros ty s _ _ _ X. destruct (Hk s); congruence. }
    destruct it as [[A|] [t|]|A t|inj A]; cbn [intro_all map_type map_term option_map intro_fault kintro define theorem]; intros P.
    - refine (Ann _ _ _ _ _); [intros s; eexists; reflexivity|apply P].
    - apply Decl. apply P.
    - apply Inf; [apply P|left; assumption|]. intros ty s H1 H2 _ X. right. destruct (lterm_of_sterm ty) as [ty'|] eqn:E; cbn in X; [discriminate|].
      injection X as <-. rewrite (H2 eq_refl) in H1. split; [exact H1|reflexivity].
    - intros [= <-]. reflexivity.
    - refine (Ann _ _ _ _ _); [intros s; eexists; reflexivity|apply P].
    - apply Decl. apply P.
  Qed.
  Lemma main_intro_chk n it ty chk : intro_all proper_l it -> ModelInfer.run (kintro uniq gc n it) = Ok (ty, Some chk) ->
    match it with IDefinition (Some A) (Some t) | ITheorem A t => chk = typing_new A t /\ exists K, infers sg [] (erl A) K | _ => False end.
  Proof.
    assert (Inf : forall A (k : sterm -> M (typing * option ModelGctx.check)) x, proper_l A -> ModelInfer.run (bind (ModelInfer.infer uniq gc n [] (sterm_of_lterm A)) k) = Ok x -> exists T s s', infers sg [] (erl A) (ers T) /\ k T s = Ok (x, s')).
    { intros A k x PA. pose proof (main_inf_ok n [] A) as G. change (lctx_of []) with (@nil sterm) in G. unfold ModelInfer.run, bind in *.
      destruct (ModelInfer.infer uniq gc n [] (sterm_of_lterm A) (MSt [] 0)) as [[T s]|e'| |]; cbn [res_map fst] in *; try discriminate.
      destruct (G _ (Forall_nil _) PA eq_refl) as (G1 & _). destruct (k T s) as [[y s']|e'| |] eqn:E; cbn; try discriminate. intros [= ->]. eauto. }
    destruct it as [[A|] [t|]|A t|inj A]; cbn [intro_all kintro define theorem declare]; intros P H; try discriminate;
      apply Inf in H as (T & s & s' & H1 & H2); try apply P.
    - injection H2 as _ <- _. split; [reflexivity|]. eauto.
    - cbn in H2. destruct (is_sort T); discriminate.
    - destruct (lterm_of_sterm T); discriminate.
    - injection H2 as _ <- _. split; [reflexivity|]. eauto.
    - cbn in H2. destruct (is_sort T); discriminate.
  Qed.
  Lemma main_rewrite_fault n r e : Forall proper_l (r_ctx r) -> proper_l (r_lhs r) -> ModelInfer.run (rewrite uniq gc n r) = Err e ->
    inf_fault sg (map erl (rev (r_ctx r))) (erl (r_lhs r)) e \/ (infers sg (map erl (rev (r_ctx r))) (erl (r_lhs r)) Kind /\ e = UnexpectedKind).
  Proof.
    intros P1 P2. unfold rewrite. pose proof (main_inf_fault n (r_ctx r) (r_lhs r)) as F. pose proof (main_inf_ok n (r_ctx r) (r_lhs r)) as G.
    unfold ModelInfer.run, bind in *. destruct (ModelInfer.infer uniq gc n (lctx_of (r_ctx r)) (sterm_of_lterm (r_lhs r)) (MSt [] 0)) as [[ty s]|e'| |]; cbn [res_map fst] in *; try discriminate.
    - destruct (G _ P1 P2 eq_refl) as (G1 & G2 & _). destruct (lterm_of_sterm ty) as [ty'|]; cbn; [discriminate|]. intros [= <-]. right. rewrite (G2 eq_refl) in G1. split; [exact G1|reflexivity].
    - intros [= <-]. left. apply F; auto.
  Qed.
  Lemma main_rewrite_chk n r chk : Forall proper_l (r_ctx r) -> proper_l (r_lhs r) -> ModelInfer.run (rewrite uniq gc n r) = Ok chk ->
    t_lc chk = r_ctx r /\ t_tm chk = r_rhs r /\ proper_l (t_ty chk) /\ infers sg (map erl (rev (r_ctx r))) (erl (r_lhs r)) (erl (t_ty chk)).
  Proof.
    intros P1 P2. unfold rewrite. pose proof (main_inf_ok n (r_ctx r) (r_lhs r)) as G.
    unfold ModelInfer.run, bind in *. destruct (ModelInfer.infer uniq gc n (lctx_of (r_ctx r)) (sterm_of_lterm (r_lhs r)) (MSt [] 0)) as [[ty s]|e'| |]; cbn [res_map fst] in *; try discriminate.
    destruct (G _ P1 P2 eq_refl) as (G1 & G2 & G3). destruct (lterm_of_sterm ty) as [ty'|] eqn:E; cbn; [|discriminate]. intros [= <-]. cbn.
    split; [reflexivity|]. split; [reflexivity|]. split; [exact (proper_of_sterm _ _ G3 E)|]. rewrite (lterm_of_sterm_er _ _ E). exact G1.
  Qed.
End Kernel.

Lemma pattern_joker_free p : forall t, lterm_of_pattern p = Some t -> joker_free (erp p) = true.
Proof.
  induction p as [c ps IH|n|] using pattern_ind'; intros t; cbn [lterm_of_pattern erp joker_free]; [|reflexivity|discriminate].
  destruct (map_opt lterm_of_pattern ps) as [ts|] eqn:E; [|discriminate]. intros _. revert ts E.
  induction IH as [|p ps Hp _ IHps]; cbn; intros ts; [reflexivity|]. destruct (lterm_of_pattern p) eqn:E1; [|discriminate]. destruct (map_opt _ ps) eqn:E2; [|discriminate].
  intros _. rewrite (Hp _ eq_refl). eapply IHps. reflexivity.
Qed.
Lemma main_command_fault O n o cmd gc gc' e : proper_gctx gc -> proper_cmd cmd -> omits o StCheck = false ->
  infer_check (real_kernel O n) o cmd gc = (gc', Err (KoTyping e)) -> command_fault (er_gctx gc) (er_cmd cmd) e.
Proof.
  intros Hp Pc Ho. unfold infer_check. rewrite Ho. destruct cmd as [c it|rs]; cbn [infer_with er_cmd command_fault].
  - destruct (k_intro (real_kernel O n) gc it) as [[ty chk]|e1| |] eqn:E; cbn [ko_typing res_err]; try discriminate; cbn in E.
    + assert (Hins : forall g r, ko_gctx (gctx_insert gc c ty (rewritable it)) = (g, r) -> r <> Err (KoTyping e)).
      { intros g r. destruct (gctx_insert gc c ty (rewritable it)) as [g1 [x|]]; cbn; intros [= <- <-]; discriminate. }
      destruct chk as [chk|].
      * destruct (k_check (real_kernel O n) gc chk) as [[]|e1| |] eqn:Ec; cbn [ko_typing res_err]; try discriminate; cbn in Ec.
        -- destruct (ko_gctx (gctx_insert gc c ty (rewritable it))) as [g r]. intros [= _ ->]. destruct (Hins _ _ eq_refl eq_refl).
        -- intros [= _ <-]. apply (main_intro_chk _ _ Hp) in E; [|exact Pc].
           destruct it as [[A|] [t|]|A t|inj A]; try contradiction; destruct E as [-> [K HK]]; cbn [proper_cmd intro_all] in Pc; destruct Pc as [P1 P2];
             pose proof (main_refused _ _ Hp _ (typing_new A t) _ (Forall_nil _) P2 P1 Ec) as X; right; exists K; (split; [exact HK|exact X]).
      * destruct (ko_gctx (gctx_insert gc c ty (rewritable it))) as [g r]. intros [= _ ->]. destruct (Hins _ _ eq_refl eq_refl).
    + intros [= _ <-]. eapply main_intro_fault; eassumption.
  - cbn in Pc. assert (R : forall l, Forall (fun r => Forall (fun x => forall A, snd x = Some A -> proper_l A) (r_ctx r) /\ proper_l (r_rhs r)) l ->
      forall s r1, rewrites (real_kernel O n) unit (fun chk gc s => (s, ko_typing (k_check (real_kernel O n) gc chk))) l gc s = (tt, r1) -> r1 = Err (KoTyping e) ->
      exists r, In r (map (fun r => er_vrule r) l) /\ rule_fault (er_gctx gc) r e).
    { intros l Pl. induction Pl as [|r l Pr _ IH]; intros s r1; cbn [rewrites]; [intros [= _ <-]; discriminate|].
      assert (Rest : forall s, rewrites (real_kernel O n) unit (fun chk gc s => (s, ko_typing (k_check (real_kernel O n) gc chk))) l gc s = (tt, r1) -> r1 = Err (KoTyping e) ->
        exists r0, In r0 (map (fun r => er_vrule r) (r :: l)) /\ rule_fault (er_gctx gc) r0 e).
      { intros s' H1 H2. destruct (IH _ _ H1 H2) as (r0 & H3 & H4). exists r0. split; [right; exact H3|exact H4]. }
      destruct (rule_try r) as [r'|e1| |] eqn:Er; try apply Rest. destruct (rule_try_proper _ _ Er Pr) as (P1 & P2 & P3).
      assert (Sh : exists tys lhs, map (fun x => option_map erl (snd x)) (r_ctx r) = map Some (map erl tys) /\ forallb joker_free (map erp (tp_args (r_lhs r))) = true /\ inst Var (PatSymb (tp_symbol (r_lhs r)) (map erp (tp_args (r_lhs r)))) lhs /\
        map erl (rev (r_ctx r')) = rev (map erl tys) /\ erl (r_lhs r') = lhs /\ r_rhs r' = r_rhs r).
      { clear - Er. unfold rule_try in Er. destruct (map_opt snd (r_ctx r)) as [tys|] eqn:Ec; [|discriminate].
        destruct (lterm_of_pattern _) as [lhs|] eqn:El; [|discriminate]. injection Er as <-. exists tys, (erl lhs). cbn. split; [|split; [|split; [|split; [apply map_rev|split; reflexivity]]]].
        - clear - Ec. revert tys Ec. induction (r_ctx r) as [|[id x] l IH]; cbn; intros tys; [intros [= <-]; reflexivity|].
          destruct x; [|discriminate]. destruct (map_opt snd l) eqn:E; [|discriminate]. intros [= <-]. cbn. f_equal; auto.
        - exact (pattern_joker_free (PSymb (tp_symbol (r_lhs r)) (tp_args (r_lhs r))) _ El).
        - exact (lterm_of_pattern_inst _ _ El). }
      destruct Sh as (tys & lhs & S1 & S0 & S2 & S3 & S4 & S5).
      destruct (k_rewrite (real_kernel O n) gc r') as [chk|e1| |] eqn:E; cbn [ko_typing res_err]; try (intros [= _ <-]; discriminate); cbn in E.
      - destruct (main_rewrite_chk _ _ Hp _ _ _ P1 P2 E) as (C1 & C2 & C3 & C4).
        destruct (k_check (real_kernel O n) gc chk) as [[]|e1| |] eqn:Ec; cbn [ko_typing res_err]; try (intros [= _ <-]; discriminate); [apply Rest|]. cbn in Ec.
        intros [= _ <-] [= <-]. apply (main_refused _ _ Hp) in Ec; [|rewrite C1; exact P1|rewrite C2; exact P3|exact C3].
        eexists. split; [left; reflexivity|]. exists (map erl tys), lhs. cbn. split; [exact S1|]. split; [exact S0|]. split; [exact S2|]. right. right. exists (erl (t_ty chk)).
        rewrite C1, C2, S3, S5 in Ec. rewrite S3, S4 in C4. split; [exact C4|exact Ec].
      - intros [= _ <-] [= <-]. apply (main_rewrite_fault _ _ Hp) in E; [|exact P1|exact P2]. rewrite S3, S4 in E.
        eexists. split; [left; reflexivity|]. exists (map erl tys), lhs. cbn. split; [exact S1|]. split; [exact S0|]. split; [exact S2|]. tauto. }
    destruct (rewrites _ _ _ rs gc tt) as [[] r1] eqn:E. specialize (R rs Pc tt r1 E). destruct r1 as [[]|e1| |]; try discriminate.
    + assert (G : forall rs g g' r, add_rules rs g = (g', r) -> r <> Err (KoTyping e)).
      { clear. induction rs as [|r rs IH]; intros g g' r'; cbn [add_rules]; [intros [= _ <-]; discriminate|].
        destruct (add_rule g r) as [g1 [x|]]; cbn; [intros [= _ <-]; discriminate|apply IH]. }
      destruct (add_rules rs gc) as [g r] eqn:Ea. intros [= _ ->]. destruct (G _ _ _ _ Ea eq_refl).
    + intros [= _ ->]. apply R. reflexivity.
Qed.

Lemma main_untypable uniq gc : proper_gctx gc -> church_rosser (er_gctx gc) -> g_eta gc = false ->
  forall n lc t e, Forall proper_l lc -> proper_l t ->
  ModelInfer.run (ModelInfer.infer uniq gc n (lctx_of lc) (sterm_of_lterm t)) = Err e -> type_error e -> forall A, ~ has_type (er_gctx gc) (map erl (rev lc)) (erl t) A.
Proof.
  intros Hp Hcr Heta n lc t e Pl Pt H He. exact (proj1 (faulty (er_gctx gc) Hcr Heta) _ _ _ (main_inf_fault uniq gc Hp n lc t e Pl Pt H) He).
Qed.
Lemma main_wrong_type uniq gc : proper_gctx gc -> church_rosser (er_gctx gc) -> g_eta gc = false ->
  forall n c e, Forall proper_l (t_lc c) -> proper_l (t_tm c) -> proper_l (t_ty c) ->
  ModelInfer.run (check_check uniq gc n c) = Err e -> type_error e -> ~ has_type (er_gctx gc) (map erl (rev (t_lc c))) (erl (t_tm c)) (erl (t_ty c)).
Proof.
  intros Hp Hcr Heta n c e Pl Pt PT H He. exact (refused_untypable (er_gctx gc) Hcr Heta _ _ _ _ (main_refused uniq gc Hp n c e Pl Pt PT H) He).
Qed.
Lemma main_closed uniq gc : proper_gctx gc -> forall n lc t e, Forall proper_l lc -> proper_l t -> closed_in (er_gctx gc) (length lc) (erl t) ->
  ModelInfer.run (ModelInfer.infer uniq gc n (lctx_of lc) (sterm_of_lterm t)) = Err e -> e <> KindNotTypable /\ e <> TypeNotFound.
Proof.
  intros Hp n lc t e Pl Pt Hc H. refine (proj1 (closed_faults (er_gctx gc)) _ _ _ (main_inf_fault uniq gc Hp n lc t e Pl Pt H) _).
  rewrite map_length, rev_length. exact Hc.
Qed.
