(** * Programs in normalising contexts: their contexts are well-typed, and processing them terminates *)

From Verif Require Import Base LibMono ModelTerm ModelGctx ModelCommand ModelSubst ModelReduce ModelInfer ModelSyntax ModelSymbols ModelShare ModelProcess
  SpecTerm SpecConv SpecConvFacts SpecTyping SpecRed SpecSN SpecType SpecQuery SpecProcess SpecDomain SpecRec SpecTotal RedConfl Erase Inv SoundInfer
  TypeFacts DomFacts SoundDom DomUnique TotReduce TotConv TotInfer ModelMono MainKernel MainGctx MainShare MainProcess MainRun MainVerify MainTyped MainTotal.

(** ** The judgement in larger signatures *)
Lemma wt_mono sg sg' G t A : sig_mono sg sg' -> well_typed sg G t A -> well_typed sg' G t A.
Proof.
  intros M H. induction H; try (econstructor; eauto; fail).
  - constructor. apply M. assumption.
  - eapply wt_conv; [eassumption|]. eapply sig_mono_conv; eassumption.
Qed.
Lemma good_rule_mono sg sg' c r : sig_mono sg sg' -> good_rule sg c r -> good_rule sg' c r.
Proof.
  intros M (r' & Hn & H & D & l & A & H1 & H2 & H3 & H4). exists r'. split; [exact Hn|]. split; [exact H|]. exists D, l, A. repeat split; try assumption; eapply wt_mono; eassumption.
Qed.
Lemma typed_good sg c r : typed_rule sg c r -> good_rule sg c r.
Proof. intros (r' & Hn & H & D & l & A & H1 & H2 & H3 & H4 & H5). exists r'. split; [exact Hn|]. split; [exact H|]. exists D, l, A. auto. Qed.
Lemma common_typed sg c r : common_type sg c r -> typed_rule sg c r.
Proof. intros H. exists r. split; [left; reflexivity|exact H]. Qed.
Definition good_type (sg : sig) (A : tm) : Prop := A <> Kind /\ exists s, (s = Typ \/ s = Kind) /\ well_typed sg [] (strip A) s.
Lemma good_type_mono sg sg' A : sig_mono sg sg' -> good_type sg A -> good_type sg' A.
Proof. intros M (H & s & H1 & H2). split; [exact H|]. exists s. split; [exact H1|eapply wt_mono; eassumption]. Qed.
Lemma erl_not_kind t : erl t <> Kind.
Proof. intros E. apply (kf_not_kind (sterm_of_lterm t)); [apply kf_lterm|]. rewrite ers_sterm_of_lterm. exact E. Qed.

Lemma extends_good sg c A rs sg' : sig_mono sg sg' -> extends sg c A rs sg' -> good_types sg -> good_rules sg ->
  good_type sg A -> (forall l r, rs = Some l -> In r l -> good_rule sg' c r) -> good_types sg' /\ good_rules sg'.
Proof.
  intros M (Hn & HT & HR & HE) H1 H2 HA Hr. split.
  - intros d B. rewrite HT. destruct (Nat.eqb_spec d c); [intros [= <-]; eapply good_type_mono; eassumption|]. intros HB.
    apply (good_type_mono sg); [exact M|]. exact (H1 _ _ HB).
  - intros d l r. rewrite HR. destruct (Nat.eqb_spec d c) as [->|]; [intros; eapply Hr; eassumption|].
    intros. eapply good_rule_mono; [exact M|eapply H2; eassumption].
Qed.
Lemma def_good sg' c A t : sg_type sg' c = Some A -> well_typed sg' [] (strip t) (strip A) -> good_rule sg' c (MkSRule 0 [] t).
Proof.
  intros Hc Ht. exists (MkSRule 0 [] t). split; [left; reflexivity|]. split; [constructor|]. exists [], (Const c), (strip A). split; [reflexivity|].
  split; [apply (inst_symb _ c [] []); constructor|]. split; [constructor; exact Hc|exact Ht].
Qed.
Lemma lterm_of_pattern_strip p : forall t, lterm_of_pattern p = Some t -> strip (erl t) = erl t /\ no_joker (erp p).
Proof.
  induction p as [c ps IH|m|] using pattern_ind'; cbn; intros t.
  - destruct (map_opt lterm_of_pattern ps) as [ts|] eqn:E; [|discriminate]. intros [= <-]. cbn. rewrite strip_apps. cbn [strip].
    assert (X : map strip (map erl ts) = map erl ts /\ Forall no_joker (map erp ps)).
    { revert ts E. induction IH as [|p ps Hp Hps IHps]; cbn; intros ts; [intros [= <-]; split; [reflexivity|constructor]|].
      destruct (lterm_of_pattern p) eqn:E1; [|discriminate]. destruct (map_opt _ ps) eqn:E2; [|discriminate].
      intros [= <-]. cbn. destruct (Hp _ eq_refl) as [-> J]. destruct (IHps _ eq_refl) as [-> Js]. split; [reflexivity|constructor; assumption]. }
    destruct X as [-> J]. split; [reflexivity|constructor; exact J].
  - intros [= <-]. split; [reflexivity|constructor].
  - discriminate.
Qed.

(** ** Accepted commands *)
Section Step.
  Variable O : query -> nat -> bool.
  Variable n : nat.
  Variable gc : gctx.
  Hypothesis Hgc : terminating gc.
  Hypothesis Hcr : church_rosser (er_gctx gc).
  Notation K := (real_kernel O n).
  Notation sg := (er_gctx gc).
  Notation wt := (well_typed sg).

  Lemma infer_full uniq lc t ty : type_ctx sg (dctx lc) ->
    ModelInfer.run (ModelInfer.infer uniq gc n (lctx_of lc) (sterm_of_lterm t)) = Ok ty ->
    wt (dctx lc) (strip (erl t)) (strip (ers ty)) /\
    (ers ty = Kind \/ exists s, (s = Typ \/ s = Kind) /\ wt (dctx lc) (strip (ers ty)) s).
  Proof.
    destruct Hgc as [H1 H2 H3 H4 H5 H6]. intros Hc. apply (ok0_run (fun ty => wt (dctx lc) (strip (erl t)) (strip (ers ty)) /\
      (ers ty = Kind \/ exists s, (s = Typ \/ s = Kind) /\ wt (dctx lc) (strip (ers ty)) s))).
    eapply ok0_post; [|apply (proj1 (infer_wt uniq gc (good_stable _ H4) H3 H2 H5 H4 n)); [apply kf_ctx|apply kf_lterm|rewrite ctx_of; exact Hc]].
    cbn beta. intros ty' (A & _ & B). rewrite ctx_of, ers_sterm_of_lterm in *. split; [exact A|].
    destruct B as [E|B]; [left; apply strip_kind; exact E|right; exact B].
  Qed.
  Lemma check_full uniq c : chk_ok gc c -> ModelInfer.run (check_check uniq gc n c) = Ok tt ->
    wt (dctx (t_lc c)) (strip (erl (t_tm c))) (strip (erl (t_ty c))) /\
    exists s, (s = Typ \/ s = Kind) /\ wt (dctx (t_lc c)) (strip (erl (t_ty c))) s.
  Proof.
    destruct Hgc as [H1 H2 H3 H4 H5 H6]. intros [Hc HK] H.
    pose proof (ok0_run (fun b : unit => wt (dctx (t_lc c)) (strip (erl (t_tm c))) (strip (erl (t_ty c))) /\
      exists s, (s = Typ \/ s = Kind) /\ wt (dctx (t_lc c)) (strip (erl (t_ty c))) s) (check_check uniq gc n c) tt) as X. apply X; [|exact H]. clear X.
    unfold check_check. eapply ok0_bind.
    - apply ok0_and.
      + apply (proj2 (infer_wt uniq gc (good_stable _ H4) H3 H2 H5 H4 n)); [apply kf_ctx|apply kf_lterm|apply kf_lterm|rewrite ctx_of; exact Hc|].
        rewrite ctx_of, ers_sterm_of_lterm. exact HK.
      + apply (check_type uniq gc (good_stable _ H4) H3 H2 H5 H4 Hcr H6 H1 n); [apply kf_ctx|apply kf_lterm|apply kf_lterm|rewrite ctx_of; exact Hc|].
        rewrite ctx_of, ers_sterm_of_lterm. exact HK.
    - cbn beta. rewrite ctx_of, !ers_sterm_of_lterm. intros [|] [A B]; [|apply ok0_fail]. apply ok0_ret. auto.
  Qed.

  Definition new_ok (ty : typing) : Prop :=
    good_type sg (erl (t_ty ty)) /\ forall tm, t_tm ty = Some tm -> wt [] (strip (erl tm)) (strip (erl (t_ty ty))).
  Lemma infer_bind uniq t {A} (k : sterm -> M A) a : ModelInfer.run (bind (ModelInfer.infer uniq gc n [] (sterm_of_lterm t)) k) = Ok a ->
    exists ty s s', ModelInfer.run (ModelInfer.infer uniq gc n (lctx_of []) (sterm_of_lterm t)) = Ok ty /\ k ty s = Ok (a, s').
  Proof.
    intros H. apply run_ok in H. destruct H as [s H]. unfold bind in H. unfold ModelInfer.run. cbn [lctx_of map rev].
    destruct (ModelInfer.infer _ _ _ _ _ _) as [[ty s']| | |] eqn:E; try discriminate. exists ty, s', s. split; [reflexivity|exact H].
  Qed.
  Lemma intro_good it ty ochk : ModelInfer.run (kintro (O (QIntro gc it)) gc n it) = Ok (ty, ochk) ->
    match ochk with Some c => ModelInfer.run (check_check (O (QCheck gc c)) gc n c) = Ok tt | None => True end -> new_ok ty.
  Proof.
    generalize (O (QIntro gc it)) as uniq. intros uniq.
    assert (Hd : forall A, ModelInfer.run (declare uniq gc n A) = Ok (ty, ochk) -> new_ok ty).
    { intros A H. apply infer_bind in H as (k & s & s' & H & E). apply infer_full in H as [H _]; [|constructor].
      destruct (is_sort k) eqn:Es; [|discriminate]. injection E as <- <- _. split; [|discriminate]. split; [apply erl_not_kind|].
      exists (ers k). split; [|destruct k; try discriminate; exact H]. destruct k; try discriminate; cbn; auto. }
    assert (Hdef : forall A t, ochk = Some (typing_new A t) -> (exists K', wt [] (strip (erl A)) K') ->
      ModelInfer.run (check_check (O (QCheck gc (typing_new A t))) gc n (typing_new A t)) = Ok tt ->
      good_type sg (erl A) /\ wt [] (strip (erl t)) (strip (erl A))).
    { intros A t -> HK H. apply check_full in H as [H1 H2]; [|split; [constructor|exact HK]]. split; [|exact H1]. split; [apply erl_not_kind|exact H2]. }
    intros H Hchk. destruct it as [[A|] [t|]|A t|inj A]; cbn [kintro define] in H; try (eapply Hd; exact H); try discriminate.
    - apply infer_bind in H as (k & s & s' & H & E). apply infer_full in H as [H _]; [|constructor]. injection E as <- <- _.
      destruct (Hdef A t eq_refl (ex_intro _ _ H) Hchk) as [H1 H2]. split; [exact H1|]. cbn. intros tm [= <-]. exact H2.
    - apply infer_bind in H as (k & s & s' & H & E). apply infer_full in H as [H Hk]; [|constructor]. unfold bind in E.
      destruct (lterm_of_sterm k) as [k'|] eqn:Ek; cbn in E; [|discriminate]. injection E as <- <- _.
      rewrite <- (lterm_of_sterm_er _ _ Ek) in H, Hk. split.
      + split; [apply erl_not_kind|]. destruct Hk as [Hk|Hk]; [destruct (erl_not_kind _ Hk)|exact Hk].
      + cbn. intros tm [= <-]. exact H.
    - apply infer_bind in H as (k & s & s' & H & E). apply infer_full in H as [H _]; [|constructor]. injection E as <- <- _.
      destruct (Hdef A t eq_refl (ex_intro _ _ H) Hchk) as [H1 H2]. split; [exact H1|]. cbn. discriminate.
  Qed.

  Lemma rule_good r r' chk : rule_try r = Ok r' -> type_ctx sg (dctx (r_ctx r')) ->
    ModelInfer.run (rewrite (O (QRewrite gc r')) gc n r') = Ok chk -> ModelInfer.run (check_check (O (QCheck gc chk)) gc n chk) = Ok tt ->
    common_type sg (tp_symbol (r_lhs r)) (er_rule r).
  Proof.
    intros Er Hc Hw Hk. pose proof (ok0_run (chk_ok gc) _ _ (rewrite_ok0 gc Hgc _ n r' Hc) Hw) as Hok.
    apply check_full in Hk as [Hk _]; [|exact Hok]. unfold rewrite in Hw. apply run_ok in Hw. destruct Hw as [s Hw]. unfold bind in Hw.
    destruct (ModelInfer.infer _ _ _ _ _ _) as [[ty s']| | |] eqn:E; try discriminate.
    destruct (lterm_of_sterm ty) as [ty'|] eqn:El; cbn in Hw; [|discriminate]. injection Hw as <- _. cbn [t_lc t_ty t_tm] in Hk.
    assert (Hi : wt (dctx (r_ctx r')) (strip (erl (r_lhs r'))) (strip (erl ty'))).
    { rewrite (lterm_of_sterm_er _ _ El). eapply infer_full; [exact Hc|]. unfold ModelInfer.run. rewrite E. reflexivity. }
    unfold rule_try in Er. destruct (map_opt snd (r_ctx r)) as [tys|] eqn:Ec; [|discriminate].
    destruct (lterm_of_pattern _) as [lhs|] eqn:Ep; [|discriminate]. injection Er as <-. cbn [r_ctx r_lhs r_rhs] in *.
    pose proof (lterm_of_pattern_inst _ _ Ep) as Hinst. apply lterm_of_pattern_strip in Ep as [Es Hj].
    split; [inversion Hj; assumption|]. exists (dctx tys), (erl lhs), (strip (erl ty')). split; [|split; [exact Hc|split; [exact Hinst|split; [rewrite <- Es; exact Hi|exact Hk]]]].
    unfold dctx. rewrite map_length, rev_length. cbn. clear - Ec. revert tys Ec.
    induction (r_ctx r) as [|[id o] l IH]; cbn; intros tys; [intros [= <-]; reflexivity|].
    destruct o; [|discriminate]. destruct (map_opt snd l) eqn:E; [|discriminate]. intros [= <-]. cbn. f_equal; auto.
  Qed.
  Lemma rewrites_good rs : cmd_typed gc (CRules rs) ->
    rewrites K unit (fun chk gc (s : unit) => (s, ko_typing (k_check K gc chk))) rs gc tt = (tt, Ok tt) ->
    Forall (fun r => typed_rule sg (tp_symbol (r_lhs r)) (er_rule r)) rs.
  Proof.
    cbn [cmd_typed]. induction 1 as [|r rs Hc _ IH]; [constructor|]. cbn [rewrites]. destruct (rule_try r) as [r'|e| |] eqn:Er; try (intros H; constructor; [exact Hc|auto]; fail).
    destruct (k_rewrite K gc r') as [chk|e| |] eqn:E1; cbn [ko_typing res_err]; try discriminate.
    destruct (k_check K gc chk) as [[]|e| |] eqn:E2; cbn [ko_typing res_err]; try discriminate.
    intros H. constructor; [|auto]. apply common_typed. eapply rule_good; eassumption.
  Qed.

  Lemma accepted_good o cmd gc' : omits o StCheck = false -> typed_rules gc -> cmd_typed gc cmd ->
    infer_check K o cmd gc = (gc', Ok tt) ->
    good_types (er_gctx gc') /\ good_rules (er_gctx gc') /\ typed_rules gc' /\ g_eta gc' = g_eta gc.
  Proof.
    intros Ho Ht Hcmd H. destruct (infer_check_verified O n o cmd gc gc' Ho Ht H) as [Hv Ht'].
    assert (Hd : sig_dom sg).
    { intros c Hc E. apply Hc. cbn in E |- *. rewrite Ht; [reflexivity|]. destruct (get_type gc c); [discriminate|reflexivity]. }
    destruct (verified_mono _ _ _ Hv Hd) as [M _]. destruct Hgc as [G1 G2 G3 G4 G5 G6].
    assert (Eeta : g_eta gc' = g_eta gc) by (apply M).
    cut (good_types (er_gctx gc') /\ good_rules (er_gctx gc')); [tauto|].
    revert H. unfold infer_check. rewrite Ho. destruct cmd as [c it|rs]; cbn [infer_with].
    - destruct (k_intro K gc it) as [[ty chk]|e| |] eqn:E; cbn [ko_typing res_err]; try discriminate.
      intros H.
      assert (Hc : match chk with Some c => ModelInfer.run (check_check (O (QCheck gc c)) gc n c) = Ok tt | None => True end /\
        gctx_insert gc c ty (rewritable it) = (gc', None)).
      { destruct chk as [chk|].
        - destruct (k_check K gc chk) as [[]|e| |] eqn:E2; cbn [ko_typing res_err] in H; try discriminate. split; [exact E2|].
          destruct (gctx_insert gc c ty (rewritable it)) as [gc1 [e|]]; cbn in H; [discriminate|]. congruence.
        - split; [exact I|]. destruct (gctx_insert gc c ty (rewritable it)) as [gc1 [e|]]; cbn in H; [discriminate|]. congruence. }
      destruct Hc as [Hc Hi]. destruct (intro_good _ _ _ E Hc) as [N1 N2].
      apply insert_extends in Hi as [Hx _]; [|exact Ht]. eapply extends_good; [exact M|exact Hx|exact G4|exact G5|exact N1|].
      intros l r El Hin. destruct (rewritable it); [|discriminate]. injection El as <-. unfold def_rules in Hin.
      destruct (t_tm ty) as [tm|] eqn:Etm; [|destruct Hin]. destruct Hin as [<-|[]]. cbn. eapply def_good.
      + destruct Hx as (_ & HT & _). rewrite HT, Nat.eqb_refl. reflexivity.
      + eapply wt_mono; [exact M|]. apply N2. reflexivity.
    - destruct (rewrites K unit _ rs gc tt) as [[] [[]|e| |]] eqn:E; try discriminate.
      apply rewrites_good in E; [|exact Hcmd]. destruct (add_rules rs gc) as [gc1 [[]|e| |]] eqn:Ea; try discriminate. intros [= <-].
      apply add_rules_extends in Ea as [(_ & HT & HR & _) _]; [|exact Ht]. split.
      + intros c A. rewrite HT. intros HA. apply (good_type_mono sg); [exact M|]. exact (G4 _ _ HA).
      + intros c l r. rewrite HR. destruct (sg_rules sg c) as [l0|] eqn:El; [|discriminate]. intros [= <-] Hin Hu.
        eapply good_rule_mono; [exact M|]. apply in_app_or in Hin. destruct Hin as [Hin|Hin]; [eapply G5; eassumption|].
        apply rules_for_in in Hin as (v & Hv' & <- & ->). apply in_map_iff in Hv' as (r0 & <- & Hr0). rewrite Forall_forall in E.
        specialize (E _ Hr0). apply typed_good in E. unfold er_rule in E. cbn. rewrite map_length. exact E.
  Qed.
End Step.

Lemma main_intro_proper gc : terminating gc -> church_rosser (er_gctx gc) -> forall uniq uniq' n it ty ochk,
  ModelInfer.run (kintro uniq gc n it) = Ok (ty, ochk) ->
  match ochk with Some c => ModelInfer.run (check_check uniq' gc n c) = Ok tt | None => True end ->
  erl (t_ty ty) <> Kind /\ exists s, (s = Typ \/ s = Kind) /\ well_typed (er_gctx gc) [] (strip (erl (t_ty ty))) s.
Proof.
  intros Hgc Hcr uniq uniq' n it ty ochk H Hc.
  exact (proj1 (intro_good (fun q => match q with QIntro _ _ => uniq | _ => uniq' end) n gc Hgc Hcr it ty ochk H Hc)).
Qed.

(** ** Programs *)
Lemma share_no_fuel cmd st : snd (share cmd st) <> Fuel.
Proof.
  unfold share. assert (H : share_command (ps_syms st) cmd <> Fuel).
  { destruct cmd as [x args it|rs]; [apply main_share_intro|]. pose proof (main_share_rules (ps_syms st) rs) as X. intros E. rewrite E in X. exact X. }
  destruct (share_command (ps_syms st) cmd) as [[id it|rs]|e| |]; cbn; try discriminate; [|congruence].
  destruct (symbols_insert (ps_syms st) id (ps_next st)) as [syms r] eqn:E. cbn.
  unfold symbols_insert in E. injection E as _ <-. destruct (match m_find _ _ with Some m => _ | None => _ end); discriminate.
Qed.

Section Program.
  Variables (O : query -> nat -> bool) (PE : Type) (eta jobs : bool).
  Let o := Opts eta None jobs.
  Notation seq n := (infer_checks_seq PE (real_kernel O n) o _ (consume_item PE o)).

  Lemma seq_app n evs : forall evs' st st', seq n evs st = (st', [], Ok tt) -> seq n (evs ++ evs') st = seq n evs' st'.
  Proof.
    induction evs as [|ev evs IH]; intros evs' st st'; cbn [app infer_checks_seq]; [intros [= <-]; reflexivity|].
    destruct (consume_item PE o ev st) as [st1 r]. destruct (filter_infer PE o r) as [[cmd|e| |]|]; try discriminate.
    - destruct (infer_check (real_kernel O n) o cmd (ps_gc st1)) as [gc [[]|e| |]]; try discriminate. apply IH.
    - apply IH.
  Qed.

  Definition inv (st : pst) : Prop :=
    good_types (er_gctx (ps_gc st)) /\ good_rules (er_gctx (ps_gc st)) /\ typed_rules (ps_gc st).
  Lemma inv_new : inv (pst_new o).
  Proof. split; [intros c A; discriminate|]. split; [intros c rs r; discriminate|intros c _; reflexivity]. Qed.

  Lemma inv_terminating st : inv st -> eta_safe (er_gctx (ps_gc st)) -> left_linear (er_gctx (ps_gc st)) -> church_rosser (er_gctx (ps_gc st)) -> normalising (er_gctx (ps_gc st)) ->
    terminating (ps_gc st).
  Proof.
    intros (H1 & H2 & H3) He Hl Hcr Hsn. split; try assumption. apply church_rosser_pi. exact Hcr.
  Qed.
  Lemma share_gc cmd st : ps_gc (fst (share cmd st)) = ps_gc st.
  Proof. unfold share. destruct (share_command (ps_syms st) cmd) as [[id it|rs]|e| |]; reflexivity. Qed.

  Lemma accepted_inv evs : program_ok O PE o evs -> forall k st, seq k (map Ok evs) (pst_new o) = (st, [], Ok tt) -> inv st.
  Proof.
    intros Hp k.
    assert (X : forall post pre st st', evs = pre ++ post -> seq k (map Ok pre) (pst_new o) = (st, [], Ok tt) -> inv st ->
      seq k (map Ok post) st = (st', [], Ok tt) -> inv st').
    { induction post as [|ev post IH]; intros pre st st' E H Hi; [intros [= <-]; exact Hi|]. cbn [map infer_checks_seq consume_item omits o_omit o].
      assert (Hpre : forall st1, seq k [Ok ev] st = (st1, [], Ok tt) -> seq k (map Ok (pre ++ [ev])) (pst_new o) = (st1, [], Ok tt))
        by (intros st1 H1; rewrite map_app, (seq_app k _ _ _ _ H); exact H1).
      assert (E' : evs = (pre ++ [ev]) ++ post) by (rewrite <- app_assoc; exact E).
      destruct ev as [path|cmd]; cbn [from_event].
      - cbn [option_map filter_infer]. intros H'. eapply IH; [exact E'|apply Hpre; reflexivity| |exact H']. exact Hi.
      - destruct (Hp pre cmd post st E (ex_intro _ k H)) as (He & Hl & Hcr & Hsn & Hcmd). pose proof (share_gc cmd st) as Hg.
        destruct (share cmd st) as [st1 r] eqn:Es. cbn in Hg. cbn [option_map filter_infer res_err]. destruct r as [cmd'|e| |]; cbn [filter_infer res_err omits o_omit o]; try discriminate.
        destruct (infer_check (real_kernel O k) o cmd' (ps_gc st1)) as [gc [[]|e| |]] eqn:Ei; try discriminate. intros H'.
        assert (Hi' : inv (PSt (ps_syms st1) (ps_next st1) gc)).
        { rewrite Hg in Ei. pose proof Hi as (I1 & I2 & I3).
          destruct (accepted_good O k (ps_gc st) (inv_terminating st Hi He Hl Hcr Hsn) Hcr o cmd' gc eq_refl I3 (Hcmd _ _ eq_refl) Ei) as (G1 & G2 & G3 & G4).
          split; [exact G1|]. split; [exact G2|exact G3]. }
        eapply IH; [exact E'|apply Hpre|exact Hi'|exact H'].
        cbn [infer_checks_seq consume_item omits o_omit o from_event]. rewrite Es. cbn [option_map res_err filter_infer omits o_omit o]. rewrite Ei. reflexivity. }
    intros st H. eapply (X evs [] (pst_new o)); [reflexivity|reflexivity|exact inv_new|exact H].
  Qed.

  Theorem main_program_types evs st : program_ok O PE o evs -> accepted O PE o evs st ->
    good_types (er_gctx (ps_gc st)) /\ good_rules (er_gctx (ps_gc st)).
  Proof. intros Hp [k H]. destruct (accepted_inv evs Hp k st H) as (H1 & H2 & _). auto. Qed.

  Theorem main_program_returns evs : program_ok O PE o evs ->
    exists n0 r, snd r <> Fuel /\ forall n, n0 <= n -> seq n (map Ok evs) (pst_new o) = r.
  Proof.
    intros Hp.
    assert (X : forall post pre st k, evs = pre ++ post -> (forall n, k <= n -> seq n (map Ok pre) (pst_new o) = (st, [], Ok tt)) -> inv st ->
      exists n0 r, snd r <> Fuel /\ forall n, n0 <= n -> seq n (map Ok post) st = r).
    { induction post as [|ev post IH]; intros pre st k E H Hi.
      { exists 0, (st, [], Ok tt). split; [discriminate|reflexivity]. }
      cbn [map infer_checks_seq consume_item omits o_omit o].
      assert (Hpre : forall m st1, k <= m -> (forall n, m <= n -> seq n [Ok ev] st = (st1, [], Ok tt)) -> forall n, m <= n -> seq n (map Ok (pre ++ [ev])) (pst_new o) = (st1, [], Ok tt)).
      { intros m st1 Hm H1 n Hn. rewrite map_app. rewrite (seq_app n _ _ _ _ (H n ltac:(lia))). apply H1. exact Hn. }
      assert (E' : evs = (pre ++ [ev]) ++ post) by (rewrite <- app_assoc; exact E).
      destruct ev as [path|cmd]; cbn [from_event].
      - cbn [option_map filter_infer]. eapply (IH _ _ k); [exact E'|apply Hpre; [lia|reflexivity]|exact Hi].
      - destruct (Hp pre cmd post st E (ex_intro _ k (H k (le_n k)))) as (He & Hl & Hcr & Hsn & Hcmd). pose proof (share_gc cmd st) as Hg.
        pose proof (share_no_fuel cmd st) as Hf.
        destruct (share cmd st) as [st1 r] eqn:Es. cbn in Hg, Hf. destruct r as [cmd'|e| |]; cbn [option_map filter_infer res_err omits o_omit o].
        2: exists 0, (st1, map Ok post, Err (PKo e)); split; [discriminate|reflexivity].
        2: exists 0, (st1, map Ok post, Panic); split; [discriminate|reflexivity].
        2: congruence.
        specialize (Hcmd _ _ eq_refl). pose proof (inv_terminating st Hi He Hl Hcr Hsn) as Hgc.
        assert (Hctx : cmd_ctx (ps_gc st) cmd').
        { destruct cmd' as [c it|rs]; [exact I|]. cbn in Hcmd |- *. eapply Forall_impl; [|exact Hcmd]. cbn beta. intros r H1 r2 E2. rewrite E2 in H1. exact H1. }
        destruct (main_command_returns O o (ps_gc st) cmd' Hgc Hctx) as (m & [gc r] & Hr & Hm). cbn in Hr.
        destruct r as [[]|e| |].
        2: exists m, (PSt (ps_syms st1) (ps_next st1) gc, map Ok post, Err (PKo e)); split; [discriminate|intros n Hn; rewrite Hg, Hm by exact Hn; reflexivity].
        2: exists m, (PSt (ps_syms st1) (ps_next st1) gc, map Ok post, Panic); split; [discriminate|intros n Hn; rewrite Hg, Hm by exact Hn; reflexivity].
        2: congruence.
        pose proof Hi as (I1 & I2 & I3).
        destruct (accepted_good O m (ps_gc st) Hgc Hcr o cmd' gc eq_refl I3 Hcmd (Hm m (le_n m))) as (G1 & G2 & G3 & G4).
        assert (Hi' : inv (PSt (ps_syms st1) (ps_next st1) gc)) by (split; [exact G1|]; split; [exact G2|exact G3]).
        destruct (IH (pre ++ [EvCommand cmd]) (PSt (ps_syms st1) (ps_next st1) gc) (Nat.max k m)) as (n1 & r1 & Hr1 & H1); [exact E'| |exact Hi'|].
        + apply Hpre; [lia|]. intros n Hn. cbn [infer_checks_seq consume_item omits o_omit o from_event]. rewrite Es. cbn [option_map res_err filter_infer omits o_omit o]. rewrite Hg, Hm by lia. reflexivity.
        + exists (Nat.max m n1), r1. split; [exact Hr1|]. intros n Hn. rewrite Hg, Hm by lia. apply H1. lia. }
    apply (X evs [] (pst_new o) 0); [reflexivity|reflexivity|exact inv_new].
  Qed.
End Program.
