(** * Lemmas for C67: programs with and without eta *)

From Verif Require Import Base ModelTerm ModelGctx ModelCommand ModelSubst ModelReduce ModelInfer ModelSyntax ModelLex ModelParse ModelSymbols ModelShare ModelProcess ModelMain
  SpecTerm SpecConv SpecConvFacts SpecRed SpecSN SpecWhnf SpecType SpecDerive SpecDomain SpecSyntax SpecMake SpecSymbols SpecProcess SpecProgram SpecWhole SpecDef SpecEta Erase SimReduce EtaMono
  RedConfl EtaConfl SnBase SnVec SnDef MainTyped MainTerm MainKernel MainGctx MainProcess MainRun MainVerify MainProgram MainWhole MainDef.

(** ** Processing *)
Section Process.
  Variable O : query -> nat -> bool.
  Variable n : nat.
  Variable PE : Type.
  Variable jobs : bool.
  Notation K := (real_kernel O n).
  Notation K' := (real_kernel (same_sharing O) n).
  Notation o := (Opts false None jobs).
  Notation o' := (Opts true None jobs).

  Definition off (gc : gctx) : Prop := g_eta gc = false /\ left_linear (er_gctx gc) /\ typed_rules gc.
  Lemma without_with gc : g_eta gc = false -> without_eta (with_eta gc) = gc.
  Proof. destruct gc as [ty rs eta]. cbn. intros ->. reflexivity. Qed.
  Lemma k_intro_eta gc it a : off gc -> k_intro K gc it = Ok a -> k_intro K' (with_eta gc) it = Ok a.
  Proof.
    intros (H1 & H2 & _) H. unfold k_intro, k_rewrite, k_check, real_kernel, same_sharing in *. rewrite without_with by exact H1. eapply run_upto; [|exact H|exact I]. apply kintro_eta; assumption.
  Qed.
  Lemma k_rewrite_eta gc r a : off gc -> k_rewrite K gc r = Ok a -> k_rewrite K' (with_eta gc) r = Ok a.
  Proof.
    intros (H1 & H2 & _) H. unfold k_intro, k_rewrite, k_check, real_kernel, same_sharing in *. rewrite without_with by exact H1. eapply run_upto; [|exact H|exact I]. apply rewrite_eta; assumption.
  Qed.
  Lemma k_check_eta gc c a : off gc -> k_check K gc c = Ok a -> k_check K' (with_eta gc) c = Ok a.
  Proof.
    intros (H1 & H2 & _) H. unfold k_intro, k_rewrite, k_check, real_kernel, same_sharing in *. rewrite without_with by exact H1. eapply run_upto; [|exact H|exact I]. apply check_check_eta; assumption.
  Qed.
  Lemma insert_with gc c ty rw gc' : gctx_insert gc c ty rw = (gc', None) -> gctx_insert (with_eta gc) c ty rw = (with_eta gc', None).
  Proof.
    unfold gctx_insert, intro_type, intro_rules, with_eta. cbn [g_types g_rules g_eta].
    repeat (destruct (sinsert _ _ _) as [? [?|]]; cbn [g_types g_rules g_eta]; try discriminate); destruct rw; intros [= <-]; reflexivity.
  Qed.
  Lemma add_rules_with rs : forall gc gc', add_rules rs gc = (gc', Ok tt) -> add_rules rs (with_eta gc) = (with_eta gc', Ok tt).
  Proof.
    induction rs as [|r rs IH]; intros gc gc'; cbn [add_rules]; [intros [= <-]; reflexivity|].
    unfold add_rule, with_eta. cbn [g_types g_rules g_eta]. destruct (slookup (g_rules gc) _) as [l|]; cbn; [|discriminate]. apply IH.
  Qed.
  Lemma rewrites_with rs gc : off gc ->
    rewrites K unit (fun chk gc s => (s, if omits o StCheck then Ok tt else ko_typing (k_check K gc chk))) rs gc tt = (tt, Ok tt) ->
    rewrites K' unit (fun chk gc s => (s, if omits o' StCheck then Ok tt else ko_typing (k_check K' gc chk))) rs (with_eta gc) tt = (tt, Ok tt).
  Proof.
    intros Hg. induction rs as [|r rs IH]; cbn [rewrites]; [reflexivity|]. destruct (rule_try r) as [r'|e| |]; auto.
    destruct (k_rewrite K gc r') as [chk|e| |] eqn:E; cbn [ko_typing res_err]; try discriminate. apply k_rewrite_eta in E; [|exact Hg]. rewrite E. cbn [ko_typing res_err].
    change (omits o StCheck) with false. change (omits o' StCheck) with false. cbv iota.
    destruct (k_check K gc chk) as [[]|e| |] eqn:Ec; cbn [ko_typing res_err]; try discriminate. apply k_check_eta in Ec; [|exact Hg]. rewrite Ec. exact IH.
  Qed.
  Lemma infer_check_with cmd gc gc' : off gc -> infer_check K o cmd gc = (gc', Ok tt) -> infer_check K' o' cmd (with_eta gc) = (with_eta gc', Ok tt).
  Proof.
    intros Hg. unfold infer_check. destruct cmd as [c it|rs]; cbn [infer_with].
    - destruct (k_intro K gc it) as [[ty chk]|e| |] eqn:E; cbn [ko_typing res_err]; try discriminate. apply k_intro_eta in E; [|exact Hg]. rewrite E. cbn [ko_typing res_err].
      change (omits o StCheck) with false. change (omits o' StCheck) with false. cbv iota.
      assert (X : (let '(gc1, _, r) := let '(gc1, r) := ko_gctx (gctx_insert gc c ty (rewritable it)) in (gc1, tt, r) in (gc1, r)) = (gc', Ok tt) ->
        (let '(gc1, _, r) := let '(gc1, r) := ko_gctx (gctx_insert (with_eta gc) c ty (rewritable it)) in (gc1, tt, r) in (gc1, r)) = (with_eta gc', Ok tt)).
      { destruct (gctx_insert gc c ty (rewritable it)) as [gc1 [e|]] eqn:Ei; cbn [ko_gctx]; [discriminate|]. intros [= ->]. rewrite (insert_with _ _ _ _ _ Ei). reflexivity. }
      destruct chk as [chk|]; [|exact X].
      destruct (k_check K gc chk) as [[]|e| |] eqn:Ec; cbn [ko_typing res_err]; try discriminate. apply k_check_eta in Ec; [|exact Hg]. rewrite Ec. exact X.
    - destruct (rewrites K unit _ rs gc tt) as [[] [[]|e| |]] eqn:E; try discriminate. apply rewrites_with in E; [|exact Hg]. rewrite E.
      destruct (add_rules rs gc) as [gc1 [[]|e| |]] eqn:Ea; try discriminate. intros [= <-]. rewrite (add_rules_with _ _ _ Ea). reflexivity.
  Qed.
  Lemma rules_for_in c rs r : In r (rules_for c rs) -> exists v, In v rs /\ sr_args r = v_args v.
  Proof.
    induction rs as [|v rs IH]; cbn [rules_for]; [contradiction|]. destruct (_ =? _).
    - intros [<-|H]; [exists v; split; [left; reflexivity|reflexivity]|]. destruct (IH H) as (v' & H1 & H2). exists v'. split; [right; exact H1|exact H2].
    - intros H. destruct (IH H) as (v' & H1 & H2). exists v'. split; [right; exact H1|exact H2].
  Qed.
  Lemma verified_linear sg v sg' : verified sg v sg' -> linear_vcmd v -> left_linear sg -> left_linear sg'.
  Proof.
    intros H Hv Hl.
    assert (X : forall c A rs, extends sg c A rs sg' -> (forall l r, rs = Some l -> In r l -> sr_args r = []) -> left_linear sg').
    { intros c A rs (_ & _ & Hr & _) Hs d l r E Hin. rewrite Hr in E. destruct (d =? c); [|eapply Hl; eassumption].
      unfold linear. rewrite (Hs _ _ E Hin). constructor. }
    inversion H; subst; try (eapply X; [eassumption|]; intros l r; try destruct rw; intros [= <-]; cbn; intros Hin; repeat destruct Hin as [<-|Hin]; try reflexivity; contradiction).
    match goal with Hx : extends_rules _ _ _ |- _ => destruct Hx as (_ & _ & Hr & _) end.
    intros d l r E Hin. rewrite Hr in E. destruct (sg_rules sg d) as [l0|] eqn:E0; [|discriminate]. injection E as <-. apply in_app_or in Hin as [Hin|Hin].
    - eapply Hl; eassumption.
    - apply rules_for_in in Hin as (v & Hin & E). unfold linear. rewrite E. cbn in Hv. rewrite Forall_forall in Hv. apply Hv. exact Hin.
  Qed.
  Lemma verified_eta sg v sg' : verified sg v sg' -> sg_eta sg' = sg_eta sg.
  Proof. intros H. inversion H; subst; match goal with Hx : extends _ _ _ _ _ |- _ => apply Hx | Hx : extends_rules _ _ _ |- _ => apply Hx end. Qed.

  Lemma from_event_with ev st : from_event ev (PSt (ps_syms st) (ps_next st) (with_eta (ps_gc st))) =
    let '(st1, r) := from_event ev st in (PSt (ps_syms st1) (ps_next st1) (with_eta (ps_gc st1)), r).
  Proof.
    destruct ev as [p|c]; cbn; [reflexivity|]. unfold share. cbn [ps_syms ps_next ps_gc].
    destruct (share_command (ps_syms st) c) as [[id it|rs]|e| |]; reflexivity.
  Qed.
  Lemma seq_with evs : forall st st', infer_checks_seq PE K o _ (consume_item PE o) (map Ok evs) st = (st', [], Ok tt) -> off (ps_gc st) ->
    forall st0 cmds, same_syms st st0 -> share_results evs st0 = map Ok cmds -> Forall linear_vcmd (map er_cmd cmds) ->
    infer_checks_seq PE K' o' _ (consume_item PE o') (map Ok evs) (PSt (ps_syms st) (ps_next st) (with_eta (ps_gc st))) =
      (PSt (ps_syms st') (ps_next st') (with_eta (ps_gc st')), [], Ok tt).
  Proof.
    induction evs as [|ev evs IH]; intros st st'; cbn [map infer_checks_seq share_results].
    - intros [= <-]. reflexivity.
    - cbn [consume_item omits o_omit]. intros H Hg st0 cmds S Hs Hl. destruct (from_event_same ev st st0 S) as [S' E]. rewrite from_event_with.
      assert (G : ps_gc (fst (from_event ev st)) = ps_gc st).
      { destruct ev as [p|c]; cbn; [reflexivity|]. unfold share. destruct (share_command (ps_syms st) c) as [[id it|rs]|e| |]; reflexivity. }
      destruct (from_event ev st) as [st1 r]. destruct (from_event ev st0) as [st2 r']. cbn in S', E, G. subst r'.
      destruct r as [[cmd|e| |]|]; cbn in H |- *; try discriminate.
      + destruct cmds as [|cmd' cmds]; [discriminate|]. injection Hs as <- Hs. inversion Hl as [|? ? Hl1 Hl2]; subst.
        destruct (infer_check K o cmd (ps_gc st1)) as [gc [[]|e| |]] eqn:Ei; try discriminate. rewrite G in Ei |- *.
        rewrite (infer_check_with _ _ _ Hg Ei). destruct Hg as (Hg1 & Hg2 & Hg3).
        pose proof (infer_check_verified O n o cmd (ps_gc st) gc eq_refl Hg3 Ei) as [Hv Ht'].
        apply (IH _ _ H) with (st0 := st2) (cmds := cmds); [|exact S'|exact Hs|exact Hl2]. cbn. split; [|split; [|exact Ht']].
        * pose proof (verified_eta _ _ _ Hv) as E'. cbn in E'. congruence.
        * eapply verified_linear; eassumption.
      + apply (IH _ _ H) with (st0 := st2) (cmds := cmds); [rewrite G; exact Hg|exact S'|exact Hs|exact Hl].
  Qed.
  Lemma off_new : off (ps_gc (pst_new o)).
  Proof. split; [reflexivity|]. split; [|intros c _; reflexivity]. intros c rs r E. discriminate. Qed.
End Process.

(** ** Programs *)
Theorem main_eta_more junk O n jobs channel inputs srcs : Forall2 (source_of junk) inputs srcs -> linear_sources srcs ->
  kocheck junk (real_kernel O n) (Opts false None jobs) channel inputs (Ok tt) ->
  kocheck junk (real_kernel (same_sharing O) n) (Opts true None jobs) channel inputs (Ok tt).
Proof.
  intros Hs Hl. rewrite !kocheck_run. destruct (sources_opens _ _ _ Hs) as (files & Ho & Ef).
  intros (files' & Ho' & Hr). rewrite <- (opens_det_all _ _ _ Ho _ Ho') in Hr. exists files. split; [exact Ho|].
  apply run_events in Hr as (evs & E & Hr). assert (evs = program_events srcs) as -> by congruence. apply run_events. exists (program_events srcs). split; [exact E|].
  apply consume_ok_iff in Hr as (st' & Hr). apply consume_ok_iff.
  pose proof (seq_verified O n parse_error false jobs _ _ _ Hr) as X. destruct X with (st0 := pst_new (Opts false None jobs)) as (cmds & Hc & _); [apply off_new|split; reflexivity|].
  eexists. eapply (seq_with O n parse_error jobs _ _ _ Hr); [apply off_new|split; reflexivity|exact Hc|].
  apply Hl. eapply sources_elab; [eapply source_of_nonempty; exact Hs|apply at_hist_new|exact Hc].
Qed.

(** ** Comparing *)
Theorem main_eta_compares uniq gc G t u A B : definitional (er_gctx gc) -> type_ctx (er_gctx gc) G ->
  well_typed (er_gctx gc) G (strip (ers t)) A -> well_typed (er_gctx gc) G (strip (ers u)) B ->
  exists n0 b, (forall n, n0 <= n -> ModelInfer.run (convertible uniq gc n t u) = Ok b) /\ (b = true <-> conv (er_gctx gc) (ers t) (ers u)).
Proof.
  intros Hd HG Ht Hu. apply main_convertible_decides; [apply definitional_linear|apply definitional_orthogonal|apply definitional_safe| |]; try exact Hd.
  - exact (definitional_normalising _ Hd _ _ _ HG Ht).
  - exact (definitional_normalising _ Hd _ _ _ HG Hu).
Qed.
Theorem main_eta_expands uniq gc G t u A B : definitional (er_gctx gc) -> g_eta gc = true -> type_ctx (er_gctx gc) G ->
  well_typed (er_gctx gc) G (strip (ers t)) A -> well_typed (er_gctx gc) G (strip (ers u)) B ->
  strip (ers u) = ULam (App (lift 1 (strip (ers t))) (Var 0)) ->
  exists n0, forall n, n0 <= n -> ModelInfer.run (convertible uniq gc n t u) = Ok true.
Proof.
  intros Hd He HG Ht Hu E. destruct (main_eta_compares uniq gc G t u A B Hd HG Ht Hu) as (n0 & b & H & Hb). exists n0. intros n Hn. rewrite (H n Hn). f_equal. apply Hb.
  eapply SpecConv.conv_trans; [apply conv_strip|]. eapply SpecConv.conv_trans; [|apply conv_sym, conv_strip]. rewrite E. apply SpecConv.conv_eta. exact He.
Qed.

(** ** The kernel *)
Theorem main_eta_whnf uniq gc n t : left_linear (er_gctx gc) -> g_eta gc = false ->
  ModelInfer.run (whnf uniq (with_eta gc) n t) = ModelInfer.run (whnf uniq gc n t).
Proof. intros Hl He. symmetry. apply run_eqm. apply whnf_eta; assumption. Qed.
Theorem main_eta_convertible uniq gc n t u : left_linear (er_gctx gc) -> g_eta gc = false ->
  ModelInfer.run (convertible uniq gc n t u) = Ok true -> ModelInfer.run (convertible uniq (with_eta gc) n t u) = Ok true.
Proof. intros Hl He H. eapply run_upto; [apply conv_eta; assumption|exact H|reflexivity]. Qed.
Theorem main_eta_infer uniq gc n lc t A : left_linear (er_gctx gc) -> g_eta gc = false ->
  ModelInfer.run (ModelInfer.infer uniq gc n lc t) = Ok A -> ModelInfer.run (ModelInfer.infer uniq (with_eta gc) n lc t) = Ok A.
Proof. intros Hl He H. eapply run_upto; [apply infer_eta; assumption|exact H|exact I]. Qed.
Theorem main_eta_check uniq gc n lc t A : left_linear (er_gctx gc) -> g_eta gc = false ->
  ModelInfer.run (ModelInfer.check uniq gc n lc t A) = Ok true -> ModelInfer.run (ModelInfer.check uniq (with_eta gc) n lc t A) = Ok true.
Proof. intros Hl He H. eapply run_upto; [apply infer_eta; assumption|exact H|reflexivity]. Qed.

(** ** Typability *)
Lemma rule_free_linear srcs : without_rules srcs -> linear_sources srcs.
Proof.
  intros Hw vs H. unfold elaborates in H.
  induction H as [ops n|ops n m cs vs ops1 n1 srcs vs' H1 H2 IH]; [constructor|]. apply Forall_app. split.
  - assert (Hc : forall rs, ~ In (PRules rs) cs) by (intros rs Hin; exact (Hw m cs rs (or_introl eq_refl) Hin)). clear - H1 Hc.
    induction H1 as [|o1 k1 c v o2 k2 cs vs o3 k3 H _ IH]; [constructor|]. constructor; [|apply IH; intros rs Hin; apply (Hc rs); right; exact Hin].
    destruct H as [c x args it it' R|c rules rules' R E]; [exact I|]. destruct c as [y ar i|rs]; cbn in E; [destruct (scope_args [] ar); discriminate|].
    exfalso. apply (Hc rs). left. reflexivity.
  - apply IH. intros m' cs' rs Hin. apply (Hw m' cs' rs). right. exact Hin.
Qed.
Lemma results_linear junk inputs files evs : Forall2 (opens junk) inputs files -> files_events parse_error files = Some evs ->
  Forall (fun r => match r with Ok c => linear_vcmd (er_cmd c) | _ => True end) (share_results evs (pst_new (Opts false None false))) ->
  exists srcs, Forall2 (source_of junk) inputs srcs /\ linear_sources srcs.
Proof.
  intros H1 H2 H3. destruct (opens_sources _ _ _ H1 _ H2) as (srcs & Hs & ->). exists srcs. split; [exact Hs|]. intros vs Hv.
  destruct (elab_sources_share srcs (source_of_nonempty _ _ _ Hs) [] 0 (pst_new (Opts false None false)) vs (at_hist_new _) Hv) as (cmds & H5 & <-).
  rewrite H5, Forall_map in H3. rewrite Forall_map. exact H3.
Qed.
Theorem main_eta_typable junk inputs srcs : Forall2 (source_of junk) inputs srcs -> without_rules srcs ->
  typable_sources false srcs -> typable_sources true srcs.
Proof.
  intros Hs Hw Ht. destruct (main_whole_accepts junk (fun _ _ => true) false false false inputs srcs Hs Hw) as (n0 & H & _).
  specialize (H n0 (le_n _)). apply H in Ht. apply main_eta_more with (srcs := srcs) in Ht; [|exact Hs|apply rule_free_linear; exact Hw].
  destruct (main_whole_accepts junk (same_sharing (fun _ _ => true)) true false false inputs srcs Hs Hw) as (_ & _ & H'). exact (H' _ Ht).
Qed.
