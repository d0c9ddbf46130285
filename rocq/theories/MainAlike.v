(** * Commands are decided with respect to specifications over signatures (C62, C65) *)

From Verif Require Import Base LibMono ModelTerm ModelGctx ModelCommand ModelSubst ModelReduce ModelInfer ModelSyntax ModelSymbols ModelShare ModelProcess
  SpecTerm SpecConv SpecConvFacts SpecTyping SpecRed SpecSN SpecType SpecQuery SpecProcess SpecDomain SpecTotal SpecDerive SpecDecide SpecRec SpecWhole SpecWholeRec RedConfl Erase Inv SoundInfer
  TypeFacts DomFacts SoundDom DomUnique DeriveFacts KernelFacts TotInfer MainKernel MainGctx MainShare MainProcess MainRun MainVerify MainTyped MainTotal MainProgTotal MainDecide.

(** ** Signatures with convertible types *)
Definition alike (sg sg0 : sig) : Prop :=
  sg_eta sg0 = sg_eta sg /\ (forall c, sg_rules sg0 c = sg_rules sg c) /\ (forall c, sg_type sg c = None -> sg_type sg0 c = None) /\
  forall c A, sg_type sg c = Some A -> exists A0 s, sg_type sg0 c = Some A0 /\ SpecConv.conv sg0 (strip A0) (strip A) /\
    (s = Typ \/ s = Kind) /\ well_typed sg0 [] (strip A) s.
Lemma alike_conv sg sg0 t u : alike sg sg0 -> SpecConv.conv sg t u -> SpecConv.conv sg0 t u.
Proof.
  intros (He & Hr & _) H. induction H; try (econstructor; eauto; congruence).
Qed.
Lemma alike_wt sg sg0 G t A : alike sg sg0 -> well_typed sg G t A -> well_typed sg0 G t A.
Proof.
  intros Ha H. induction H; try (econstructor; eauto; fail).
  - destruct Ha as (_ & _ & _ & Ht). destruct (Ht _ _ H) as (A0 & s & H1 & H2 & _). eapply wt_conv; [apply wt_const; exact H1|exact H2].
  - eapply wt_conv; [eassumption|]. eapply alike_conv; eassumption.
Qed.
Lemma alike_derives sg sg0 G t A : stable_types sg0 -> alike sg sg0 -> derives sg G t A -> derives sg0 G t A.
Proof.
  intros Hst Ha H. induction H; try (econstructor; eauto using alike_wt; fail).
  - destruct Ha as (_ & _ & _ & Ht). destruct (Ht _ _ H) as (A0 & s & H1 & H2 & H3 & H4).
    eapply d_conv; [apply d_const; exact H1|exact H2| |exact H3]. apply wt_closed; assumption.
  - eapply d_conv; [eassumption|eapply alike_conv; eassumption|eapply alike_wt; eassumption|assumption].
Qed.
Lemma alike_refl sg : good_types sg -> alike sg sg.
Proof.
  intros H. split; [reflexivity|]. split; [reflexivity|]. split; [auto|]. intros c A E. destruct (H _ _ E) as (_ & s & H1 & H2). exists A, s.
  split; [exact E|]. split; [constructor|]. auto.
Qed.
Lemma alike_extends sg sg0 c A A0 rs sg' sg0' s : alike sg sg0 -> sig_mono sg0 sg0' -> extends sg c A rs sg' -> extends sg0 c A0 rs sg0' ->
  SpecConv.conv sg0 (strip A0) (strip A) -> s = Typ \/ s = Kind -> well_typed sg0 [] (strip A) s -> alike sg' sg0'.
Proof.
  intros (He & Hr & Hn & Ht) M (_ & T & R & E) (_ & T0 & R0 & E0) Hc Hs Hw. split; [congruence|]. split; [intros d; rewrite R, R0, Hr; reflexivity|]. split.
  - intros d. rewrite T, T0. destruct (d =? c); [discriminate|apply Hn].
  - intros d B. rewrite T, T0. destruct (d =? c).
    + intros [= <-]. exists A0, s. split; [reflexivity|]. split; [eapply sig_mono_conv; eassumption|]. split; [exact Hs|eapply wt_mono; eassumption].
    + intros HB. destruct (Ht _ _ HB) as (B0 & k & H1 & H2 & H3 & H4). exists B0, k. split; [exact H1|]. split; [eapply sig_mono_conv; eassumption|]. split; [exact H3|eapply wt_mono; eassumption].
Qed.

Section Step.
  Variables (O : query -> nat -> bool) (eta jobs : bool).
  Let o := Opts eta None jobs.

  Lemma intro_step n gc c it gc' : typed_rules gc -> infer_check (real_kernel O n) o (CIntro c it) gc = (gc', Ok tt) ->
    exists ty chk, ModelInfer.run (kintro (O (QIntro gc it)) gc n it) = Ok (ty, chk) /\
      extends (er_gctx gc) c (erl (t_ty ty)) (if rewritable it then Some (map er_rule (def_rules c ty)) else None) (er_gctx gc').
  Proof.
    intros Ht. unfold infer_check. cbn [omits o_omit o infer_with].
    change (k_intro (real_kernel O n) gc it) with (ModelInfer.run (kintro (O (QIntro gc it)) gc n it)).
    destruct (ModelInfer.run _) as [[ty chk]|e| |]; cbn [ko_typing res_err]; try discriminate.
    intros H. exists ty, chk. split; [reflexivity|].
    assert (Hi : gctx_insert gc c ty (rewritable it) = (gc', None)).
    { destruct (match chk with Some chk => _ | None => _ end) as [[] [[]|e| |]]; try discriminate.
      destruct (gctx_insert gc c ty (rewritable it)) as [gc1 [e|]]; cbn in H; [discriminate|]. congruence. }
    apply insert_extends in Hi as [Hx _]; [exact Hx|exact Ht].
  Qed.

  Lemma untyped_type uniq n gc t ty chk : terminating gc -> church_rosser (er_gctx gc) -> proper_gctx gc -> proper_l t ->
    ModelInfer.run (kintro uniq gc n (IDefinition None (Some t))) = Ok (ty, chk) ->
    synthesises (er_gctx gc) (erl t) (erl (t_ty ty)) /\
    forall A, derives (er_gctx gc) [] (erl t) A -> SpecConv.conv (er_gctx gc) A (strip (erl (t_ty ty))).
  Proof.
    intros Hgc Hcr Hp Pt H. cbn [kintro define] in H.
    pose proof (infer_yields gc Hgc Hcr Hp uniq n [] t (tc_nil _) (Forall_nil _) Pt) as X. change (lctx_of []) with (@nil sterm) in X.
    unfold ModelInfer.run, bind in H, X. destruct (ModelInfer.infer _ _ _ _ _ _) as [[k s]| | |]; cbn in H, X; try discriminate.
    destruct (lterm_of_sterm k) as [A|]; cbn in H; [|discriminate]. injection H as <- <-. destruct X as (_ & X & U). split; [exact X|exact U].
  Qed.

  Lemma accepted_mono n gc cmd gc' : typed_rules gc -> infer_check (real_kernel O n) o cmd gc = (gc', Ok tt) ->
    sig_mono (er_gctx gc) (er_gctx gc') /\ typed_rules gc'.
  Proof.
    intros Ht H. destruct (infer_check_verified O n o cmd gc gc' eq_refl Ht H) as [Hv Ht']. split; [|exact Ht'].
    apply (verified_mono _ _ _ Hv). intros c Hc E. apply Hc. cbn in E |- *. rewrite Ht; [reflexivity|]. destruct (get_type gc c); [discriminate|reflexivity].
  Qed.

  (** Rules *)
  Lemma try_ctx r r' : rule_try r = Ok r' -> rule_ctx (er_vrule r) (dctx (r_ctx r')) /\
    inst Var (PatSymb (tp_symbol (r_lhs r)) (map erp (tp_args (r_lhs r)))) (erl (r_lhs r')) /\ no_joker (PatSymb (tp_symbol (r_lhs r)) (map erp (tp_args (r_lhs r)))) /\
    r_rhs r' = r_rhs r.
  Proof.
    unfold rule_try. destruct (map_opt snd (r_ctx r)) as [tys|] eqn:Ec; [|discriminate].
    destruct (lterm_of_pattern _) as [lhs|] eqn:Ep; [|discriminate]. intros [= <-]. cbn [r_ctx r_lhs r_rhs].
    split; [|split; [exact (lterm_of_pattern_inst _ _ Ep)|split; [exact (proj2 (lterm_of_pattern_strip _ _ Ep))|reflexivity]]].
    exists (map erl tys). split; [|unfold dctx; rewrite <- map_rev, map_map; reflexivity]. cbn [v_ctx]. clear - Ec. revert tys Ec.
    induction (r_ctx r) as [|[id [A|]] l IH]; cbn; intros tys; [intros [= <-]; reflexivity| |discriminate].
    destruct (map_opt snd l) eqn:E; [|discriminate]. intros [= <-]. cbn. f_equal; auto.
  Qed.
  Lemma pattern_term p : no_joker (erp p) -> lterm_of_pattern p <> None.
  Proof.
    induction p as [c ps IH|m|] using pattern_ind'; cbn [erp lterm_of_pattern]; intros Hj; inversion Hj as [|? ? Hjs]; subst; [|discriminate].
    assert (X : map_opt lterm_of_pattern ps <> None); [|destruct (map_opt _ ps); [discriminate|contradiction]].
    clear Hj. induction IH as [|p ps Hp _ IH]; cbn [map_opt]; [discriminate|]. cbn [map] in Hjs. inversion Hjs as [|? ? J1 J2]; subst.
    destruct (lterm_of_pattern p); [|destruct (Hp J1 eq_refl)]. specialize (IH J2). destruct (map_opt _ ps); [discriminate|contradiction].
  Qed.
  Lemma try_checked r r' : rule_try r = Ok r' -> checked (er_vrule r).
  Proof. intros E. destruct (try_ctx _ _ E) as (H1 & _ & Hj & _). inversion Hj; subst. split; [assumption|eauto]. Qed.
  Lemma checked_try r : checked (er_vrule r) -> exists r', rule_try r = Ok r'.
  Proof.
    intros (Hj & D & tys & E & _). unfold rule_try. cbn in E, Hj.
    assert (X : exists l, map_opt snd (r_ctx r) = Some l).
    { clear - E. revert tys E. induction (r_ctx r) as [|[id [A|]] l IH]; intros [|B tys]; cbn; try discriminate; [eauto|]. intros [= _ E].
      destruct (IH _ E) as [l' ->]. eauto. }
    destruct X as [l ->]. destruct (lterm_of_pattern (pattern_of_top (r_lhs r))) as [lhs|] eqn:Ep; [eauto|].
    exfalso. revert Ep. apply pattern_term. unfold pattern_of_top. constructor. exact Hj.
  Qed.
  Lemma er_rule_v r : er_rule r = srule_of (er_vrule r).
  Proof. unfold er_rule, srule_of. cbn. rewrite map_length. reflexivity. Qed.
  Lemma pattern_annotations p : no_joker p -> forall l, inst Var p l -> annotations true l /\ annotations false l.
  Proof.
    induction p as [c ps IH|m|] using pat_ind'; intros Hj l H; inversion Hj as [|? ? Hjs]; subst; inversion H as [| |? ? ts Hts]; subst; [|split; exact I].
    assert (X : forall f, annotations true f /\ annotations false f -> annotations true (apps f ts) /\ annotations false (apps f ts)); [|apply X; split; exact I].
    clear Hj H. revert IH Hjs. induction Hts as [|p t ps ts Hp Hts IHts]; intros IH Hjs f Hf; [exact Hf|].
    inversion IH as [|? ? IH1 IH2]; subst. inversion Hjs as [|? ? J1 J2]; subst. cbn [apps fold_left]. apply (IHts IH2 J2). cbn. split; (split; [apply Hf|apply (IH1 J1 _ Hp)]).
  Qed.
  Lemma rule_ctx_det v D D' : rule_ctx v D -> rule_ctx v D' -> D = D'.
  Proof.
    intros (tys & E & ->) (tys' & E' & ->). rewrite E in E'. f_equal. f_equal. clear E. revert tys' E'. induction tys as [|A tys IH]; intros [|B tys']; cbn; try discriminate; [reflexivity|].
    intros [= -> E]. f_equal. auto.
  Qed.
  Lemma inst_unique p : no_joker p -> forall l l', inst Var p l -> inst Var p l' -> l = l'.
  Proof.
    induction p as [c ps IH|m|] using pat_ind'; intros Hj l l' H H'; inversion Hj as [|? ? Hjs]; subst; inversion H as [| |? ? ts Hts]; subst; inversion H' as [| |? ? ts' Hts']; subst; [|reflexivity].
    f_equal. clear Hj H H'. revert ts' Hts' IH Hjs. induction Hts as [|p t ps ts Hp Hts IHts]; intros ts' Hts' IH Hjs; inversion Hts'; subst; [reflexivity|].
    inversion IH; subst. inversion Hjs; subst. f_equal; auto.
  Qed.
  Lemma rules_derive sg gc rs : stable_types (er_gctx gc) -> alike sg (er_gctx gc) ->
    Forall (typable_rule sg) (map (fun r => er_vrule r) rs) -> cmd_derives gc (CRules rs).
  Proof.
    intros Hst Ha H. cbn in *. rewrite Forall_map in H. rewrite Forall_forall in *. intros r Hr r' Er. destruct (try_ctx _ _ Er) as (Hc & Hi & Hj & Hrhs).
    destruct (H _ Hr (try_checked _ _ Er)) as (D & l & A & s & H1 & H2 & H3 & H4 & H5 & H6 & H7). rewrite (rule_ctx_det _ _ _ H1 Hc) in *. cbn in H2. rewrite (inst_unique _ Hj _ _ H2 Hi) in *.
    exists A. split.
    - split; [apply (pattern_annotations _ Hj _ Hi)|]. split; [eapply alike_derives; eassumption|]. exists s. split; [exact H4|eapply alike_wt; eassumption].
    - split; rewrite Hrhs; [exact H6|eapply alike_derives; eassumption].
  Qed.
  Lemma derive_rules gc rs : cmd_derives gc (CRules rs) -> Forall (typable_rule (er_gctx gc)) (map (fun r => er_vrule r) rs).
  Proof.
    cbn. intros H. rewrite Forall_map. rewrite Forall_forall in *. intros r Hr Hck. destruct (checked_try _ Hck) as [r' Er].
    destruct (H _ Hr r' Er) as (A & (H1 & H2 & s & H3 & H4) & (H5 & H6)). destruct (try_ctx _ _ Er) as (Hc & Hi & Hj & Hrhs). rewrite Hrhs in *.
    exists (dctx (r_ctx r')), (erl (r_lhs r')), A, s. auto 10.
  Qed.
  Lemma alike_rules sg sg0 rs sg' sg0' : alike sg sg0 -> sig_mono sg0 sg0' -> extends_rules sg rs sg' -> extends_rules sg0 rs sg0' -> alike sg' sg0'.
  Proof.
    intros (He & Hr & Hn & Ht) M (_ & T & R & E) (_ & T0 & R0 & E0). split; [congruence|]. split; [intros d; rewrite R, R0, Hr; reflexivity|]. split.
    - intros d. rewrite T, T0. apply Hn.
    - intros d B. rewrite T, T0. intros HB. destruct (Ht _ _ HB) as (B0 & k & H1 & H2 & H3 & H4). exists B0, k. split; [exact H1|].
      split; [eapply sig_mono_conv; eassumption|]. split; [exact H3|eapply wt_mono; eassumption].
  Qed.

  Lemma step_decides gc cmd : terminating gc -> church_rosser (er_gctx gc) -> typed_rules gc -> proper_gctx gc -> cmd_typed gc cmd -> proper_cmd cmd ->
    exists n0 gc' r, (forall n, n0 <= n -> infer_check (real_kernel O n) o cmd gc = (gc', r)) /\
    match r with
    | Ok _ => (typed_rules gc' /\ proper_gctx gc') /\ typable_cmd (er_gctx gc) (er_cmd cmd) (er_gctx gc') /\
              (forall sg sg', alike sg (er_gctx gc) -> typable_cmd sg (er_cmd cmd) sg' -> alike sg' (er_gctx gc'))
    | Err _ => forall sg sg', alike sg (er_gctx gc) -> ~ typable_cmd sg (er_cmd cmd) sg'
    | _ => False
    end.
  Proof.
    intros Hgc Hcr Ht Hp Hty Hpc. pose proof (good_stable _ (tm_types gc Hgc)) as Hst.
    assert (Hctx : cmd_ctx gc cmd).
    { destruct cmd as [c it|rs]; [exact I|]. cbn in *. rewrite Forall_forall in *. intros r Hr r' E. specialize (Hty _ Hr). rewrite E in Hty. exact Hty. }
    destruct (main_command_decides O o gc cmd Hgc Hcr Hp eq_refl Hctx Hpc) as (n0 & gc' & r & H & Hr). exists n0, gc', r. split; [exact H|].
    (* what the specification says about the other signature *)
    assert (Hall : forall sg sg', alike sg (er_gctx gc) -> typable_cmd sg (er_cmd cmd) sg' -> cmd_derives gc cmd /\ cmd_admissible gc cmd).
    { intros sg sg' Ha Htp. destruct cmd as [c it|rs].
      - cbn [er_cmd] in Htp. inversion Htp as [? ? ? Htp'|]; subst. clear Htp. rename Htp' into Htp. assert (Hn : get_type gc c = None).
        { assert (E : sg_type sg c = None) by (inversion Htp; subst; match goal with H : extends _ _ _ _ _ |- _ => apply H end).
          apply Ha in E. cbn in E. destruct (get_type gc c); [discriminate|reflexivity]. }
        split; [|split; [exact Hn|intros _; apply Ht; exact Hn]]. cbn [cmd_derives].
        destruct it as [[A|] [t|]|A t|inj A]; cbn [er_cmd map_type map_term option_map] in Htp; inversion Htp; subst; cbn [intro_derives]; unfold is_type, has.
        all: repeat match goal with
          | H : type_or_kind _ _ |- _ => destruct H as (? & ? & ? & ?)
          | H : checks _ _ _ |- _ => destruct H as (? & ?)
          | H : synthesises _ _ _ |- _ => destruct H as (? & ? & ? & ? & ?)
          end; repeat split; eauto using alike_derives.
        exists (strip A). unfold yields. repeat split; eauto using alike_derives, alike_wt.
      - cbn [er_cmd] in Htp. inversion Htp as [|? ? Hrs Hx]; subst. split; [eapply rules_derive; eassumption|]. cbn. apply Forall_forall. intros r0 Hr0.
        destruct Hx as (Hx & _). specialize (Hx (er_vrule r0) (in_map _ _ _ Hr0)). cbn in Hx. destruct Ha as (_ & Ha & _). rewrite <- Ha in Hx. cbn in Hx.
        destruct (get_rules gc (tp_symbol (r_lhs r0))); [discriminate|destruct (Hx eq_refl)]. }
    destruct r as [[]|[e|e| |]| |]; try contradiction.
    2:{ intros sg sg' Ha Htp. apply Hr. apply (Hall _ _ Ha Htp). }
    2:{ intros sg sg' Ha Htp. apply Hr. apply (Hall _ _ Ha Htp). }
    specialize (H n0 (le_n _)). destruct (accepted_mono n0 gc cmd gc' Ht H) as [M Ht'].
    split; [split; [exact Ht'|exact (accepted_proper O n0 gc Hgc Hcr Hp o cmd gc' eq_refl Hctx Hpc H)]|].
    destruct cmd as [c it|rs].
    - destruct (intro_step n0 gc c it gc' Ht H) as (ty & chk & Hk & Hx). pose proof (main_kintro _ _ _ _ _ _ Hk) as [_ Hm]. cbn in Hpc.
      assert (Hwt : forall A, is_type gc A -> exists s, (s = Typ \/ s = Kind) /\ well_typed (er_gctx gc) [] (strip (erl A)) s).
      { intros A (_ & s & Hs & HA). exists s. split; [exact Hs|]. apply (derives_wt _ _ _ _ HA). }
      destruct Hr as [Hr _]. cbn [cmd_derives] in Hr. unfold def_rules in Hx.
      assert (X : typable (er_gctx gc) (er_cmd (CIntro c it)) (er_gctx gc') /\
        (forall sg sg', alike sg (er_gctx gc) -> typable sg (er_cmd (CIntro c it)) sg' -> alike sg' (er_gctx gc'))).
      2:{ destruct X as [X Y]. split; [apply tc_intro; exact X|]. intros sg sg' Ha Htp. inversion Htp; subst. eapply Y; eassumption. }
      destruct it as [[A|] [t|]|A t|inj A]; cbn [er_cmd map_type map_term option_map rewritable intro_derives] in *; try contradiction.
      + destruct Hm as (<- & E & _). rewrite E in Hx. cbn in Hx. split; [apply tp_define with (A := erl (t_ty ty)); [apply Hr|apply Hr|exact Hx]|].
        intros sg sg' Ha Htp. inversion Htp; subst. destruct (Hwt _ (proj1 Hr)) as (s & Hs & Hw). eapply alike_extends; try eassumption. constructor.
      + destruct Hm as (<- & E & _). rewrite E in Hx. cbn in Hx. split; [apply tp_later; [apply Hr|exact Hx]|].
        intros sg sg' Ha Htp. inversion Htp; subst. destruct (Hwt _ Hr) as (s & Hs & Hw). eapply alike_extends; try eassumption. constructor.
      + destruct Hm as (E & _). rewrite E in Hx. cbn in Hx. destruct (untyped_type _ _ _ _ _ _ Hgc Hcr Hp (proj2 Hpc) Hk) as [Hy Hu].
        split; [eapply tp_untyped; [exact Hy|exact Hx]|].
        intros sg sg' Ha Htp. inversion Htp as [| | |? A ? ? (Y1 & Y2 & s & Hs & Hw)|]; subst. eapply alike_extends; try eassumption.
        * apply conv_sym, Hu. eapply alike_derives; eassumption.
        * eapply alike_wt; eassumption.
      + destruct Hm as (<- & E & _). split; [apply tp_theorem; [apply Hr|apply Hr|exact Hx]|].
        intros sg sg' Ha Htp. inversion Htp; subst. destruct (Hwt _ (proj1 Hr)) as (s & Hs & Hw). eapply alike_extends; try eassumption. constructor.
      + destruct Hm as (<- & E & _). rewrite E in Hx. cbn in Hx. split; [apply tp_declare; [apply Hr|exact Hx]|].
        intros sg sg' Ha Htp. inversion Htp; subst. destruct (Hwt _ Hr) as (s & Hs & Hw). eapply alike_extends; try eassumption. constructor.
    - assert (Hx : extends_rules (er_gctx gc) (map (fun r => er_vrule r) rs) (er_gctx gc')).
      { revert H. unfold infer_check. cbn [omits o_omit o infer_with]. destruct (rewrites _ unit _ rs gc tt) as [[] [[]|e| |]]; try discriminate.
        destruct (add_rules rs gc) as [gc1 [[]|e| |]] eqn:Ea; try discriminate. intros [= <-]. apply add_rules_extends in Ea as [Hx _]; [exact Hx|exact Ht]. }
      cbn [er_cmd]. split; [apply tc_rules; [apply derive_rules; apply Hr|exact Hx]|].
      intros sg sg' Ha Htp. inversion Htp; subst. eapply alike_rules; eassumption.
  Qed.
End Step.
