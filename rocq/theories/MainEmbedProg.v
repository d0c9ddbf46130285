(** * Lemmas for C82: programs *)

From Verif Require Import Base LibMono ModelTerm ModelGctx ModelCommand ModelSubst ModelReduce ModelInfer ModelSyntax ModelSymbols ModelShare ModelLex ModelParse ModelMake ModelProcess ModelMain
  SpecTerm SpecConv SpecQuery SpecSyntax SpecSymbols SpecShare SpecProcess SpecDecide SpecMake SpecParse SpecProgram SpecWhole SpecEmbed
  Erase RefMap MainKernel MainGctx MainProcess MainRun MainVerify MainDecide MainProgram MainWhole MainAlpha MainAlphaProg MainEmbed.

(** ** Sequences of shared commands *)
Fixpoint cmds_run (K : kernel) (o : opts) (cmds : list command) (gc : gctx) : gctx * res ko_error unit :=
  match cmds with
  | [] => (gc, Ok tt)
  | cmd :: cmds => match infer_check K o cmd gc with (gc, Ok _) => cmds_run K o cmds gc | (gc, e) => (gc, e) end
  end.
Lemma seq_cmds K eta jobs evs : forall st cmds, share_results evs st = map Ok cmds ->
  snd (infer_checks_seq parse_error K (Opts eta None jobs) _ (consume_item parse_error (Opts eta None jobs)) (map Ok evs) st) = res_err PKo (snd (cmds_run K (Opts eta None jobs) cmds (ps_gc st))) /\
  Forall proper_cmd cmds.
Proof.
  set (o := Opts eta None jobs).
  assert (G : forall evs s n g g', share_results evs (PSt s n g) = share_results evs (PSt s n g')).
  { clear. induction evs as [|ev evs IH]; intros s n g g'; [reflexivity|]. cbn [share_results].
    destruct ev as [p|c]; cbn [from_event ps_syms ps_next ps_gc]; [apply IH|]. unfold share. cbn [ps_syms ps_next ps_gc].
    destruct (share_command s c) as [[x it|rs]|e| |]; [destruct (symbols_insert s x n)|..]; cbn; f_equal; apply IH. }
  induction evs as [|ev evs IH]; intros st cmds; cbn [share_results map infer_checks_seq].
  { destruct cmds; [|discriminate]. intros _. split; [reflexivity|constructor]. }
  cbn [consume_item o omits o_omit]. change (omits o StShare) with false. cbn match.
  destruct ev as [p|c]; cbn [from_event].
  { cbn [option_map filter_infer]. intros H. specialize (IH _ _ H). exact IH. }
  pose proof (fun st' cmd' => share_proper c st st' cmd') as P.
  assert (Gc : ps_gc (fst (share c st)) = ps_gc st) by (unfold share; destruct (share_command _ c) as [[x it|rs]|e| |]; [destruct (symbols_insert _ x _)|..]; reflexivity).
  destruct (share c st) as [st' r]. cbn [fst] in Gc. destruct cmds as [|cmd cmds]; [discriminate|]. cbn [map]. intros H. injection H as Hr H. subst r.
  cbn [option_map res_err filter_infer]. change (omits o StInfer) with false. cbn match. cbn [cmds_run]. rewrite Gc.
  destruct (infer_check K o cmd (ps_gc st)) as [gc e]. rewrite (G evs _ _ (ps_gc st') gc) in H || (destruct st' as [s' n' g']; cbn [ps_syms ps_next ps_gc] in *; rewrite (G evs _ _ g' gc) in H).
  specialize (IH _ _ H) as [IH1 IH2]. cbn [ps_gc] in IH1. split; [|constructor; [exact (P _ _ eq_refl)|exact IH2]].
  destruct e as [[]|e| |]; try reflexivity. exact IH1.
Qed.

Section Run.
  Variable f : nat -> nat.
  Hypothesis Hf : injective f.
  Variables (O1 O2 : query -> nat -> bool) (n1 n2 : nat) (o : opts).
  Lemma cmds_embed vs vs' : embeds f vs vs' -> forall cs cs' g1 g2, map er_cmd cs = vs -> map er_cmd cs' = vs' -> Forall proper_cmd cs -> Forall proper_cmd cs' -> gemb f g1 g2 ->
    snd (cmds_run (real_kernel O2 n2) o cs' g2) = Ok tt ->
    snd (cmds_run (real_kernel O1 n1) o cs g1) = Fuel \/
    snd (cmds_run (real_kernel O1 n1) o cs g1) = Ok tt /\ gemb f (fst (cmds_run (real_kernel O1 n1) o cs g1)) (fst (cmds_run (real_kernel O2 n2) o cs' g2)).
  Proof.
    induction 1 as [|v vs vs' _ IH|v' vs vs' Ha _ IH]; intros cs cs' g1 g2 E E' P P' G.
    - destruct cs; [|discriminate]. destruct cs'; [|discriminate]. right. auto.
    - destruct cs as [|c cs]; [discriminate|]. destruct cs' as [|c' cs']; [discriminate|]. injection E as E1 E2. injection E' as E3 E4. cbn [cmds_run].
      apply Forall_cons_iff in P as [P1 P2], P' as [P3 P4]. rewrite <- E1 in E3. symmetry in E3. pose proof (gemb_infer_check f Hf O1 O2 n1 n2 o g1 g2 c c' G E3 P1 P3) as S.
      destruct (infer_check (real_kernel O1 n1) o c g1) as [g1' r1], (infer_check (real_kernel O2 n2) o c' g2) as [g2' r2]. unfold emb_step in S. cbn [fst snd] in S.
      destruct r2 as [[]|e| |]; try discriminate. destruct S as [->|[S|[-> S]]]; [left; reflexivity|discriminate|]. apply IH; auto.
    - destruct cs' as [|c' cs']; [discriminate|]. injection E' as E3 E4. cbn [cmds_run]. apply Forall_cons_iff in P' as [P3 P4].
      destruct (infer_check (real_kernel O2 n2) o c' g2) as [g2' r2] eqn:S. destruct r2 as [[]|e| |]; try discriminate. apply IH; auto. rewrite <- E3 in Ha. eapply gemb_skip; eassumption.
  Qed.
End Run.
Lemma gemb_new f o o' : o_eta o = o_eta o' -> gemb f (ps_gc (pst_new o)) (ps_gc (pst_new o')).
Proof.
  intros E. split; [split; discriminate|]. split; [split; discriminate|]. split; [reflexivity|]. split; [reflexivity|]. cbn. congruence.
Qed.

(** ** The programs *)
Lemma res_err_ok {E E' A} (h : E -> E') (r : res E A) a : res_err h r = Ok a -> r = Ok a.
Proof. destruct r; cbn; congruence. Qed.
Section Programs.
  Variables (f : nat -> nat) (srcs srcs' : list source) (vs vs' : list vcmd).
  Hypotheses (Hf : injective f) (He : elaborates srcs vs) (He' : elaborates srcs' vs') (Hm : embeds f vs vs').
  Variables (O1 O2 : query -> nat -> bool) (n1 n2 : nat) (eta : bool).
  Notation seq O n src := (snd (infer_checks_seq parse_error (real_kernel O n) (Opts eta None false) _ (consume_item parse_error (Opts eta None false)) (map Ok (program_events src)) (pst_new (Opts eta None false)))).
  Lemma embed_seq : Forall (fun src => Forall nonempty (snd src)) srcs -> Forall (fun src => Forall nonempty (snd src)) srcs' ->
    seq O2 n2 srcs' = Ok tt -> seq O1 n1 srcs = Ok tt \/ seq O1 n1 srcs = Fuel.
  Proof.
    intros Hn Hn' H. destruct (elab_sources_share srcs Hn [] 0 (pst_new (Opts eta None false)) vs (at_hist_new _) He) as (cs & E & Ev).
    destruct (elab_sources_share srcs' Hn' [] 0 (pst_new (Opts eta None false)) vs' (at_hist_new _) He') as (cs' & E' & Ev').
    destruct (seq_cmds (real_kernel O1 n1) eta false _ _ _ E) as [S P], (seq_cmds (real_kernel O2 n2) eta false _ _ _ E') as [S' P']. rewrite S' in H. rewrite S.
    apply res_err_ok in H.
    destruct (cmds_embed f Hf O1 O2 n1 n2 (Opts eta None false) vs vs' Hm cs cs' _ _ Ev Ev' P P' (gemb_new f _ _ eq_refl) H) as [X|[X _]]; rewrite X; auto.
  Qed.
End Programs.
Theorem main_embed f junk junk' O1 O2 n1 n2 eta jobs channel inputs inputs' srcs srcs' vs vs' r :
  injective f -> Forall2 (source_of junk) inputs srcs -> Forall2 (source_of junk') inputs' srcs' -> elaborates srcs vs -> elaborates srcs' vs' -> embeds f vs vs' ->
  kocheck junk' (real_kernel O2 n2) (Opts eta None jobs) channel inputs' (Ok tt) ->
  kocheck junk (real_kernel O1 n1) (Opts eta None false) false inputs r -> r = Ok tt \/ r = Fuel.
Proof.
  intros Hf H H' He He' Hm Hk Hk'. apply kocheck_events in Hk as (srcs1 & Hs & Hk). destruct (sources_opens _ _ _ Hs) as (files1 & Ho1 & E1), (sources_opens _ _ _ H') as (files & Ho & E).
  rewrite <- (opens_det_all _ _ _ Ho _ Ho1), E in E1. injection E1 as E1. rewrite <- E1 in Hk.
  apply consume_ok_iff in Hk as (st & Hk). apply (kocheck_seq _ _ _ _ _ _ H) in Hk'. subst r.
  change (infer_checks_seq parse_error (real_kernel O2 n2) (Opts eta None jobs) _ (consume_item parse_error (Opts eta None jobs)) (map Ok (program_events srcs')) (pst_new (Opts eta None jobs)))
    with (infer_checks_seq parse_error (real_kernel O2 n2) (Opts eta None false) _ (consume_item parse_error (Opts eta None false)) (map Ok (program_events srcs')) (pst_new (Opts eta None false))) in Hk.
  apply (embed_seq f srcs srcs' vs vs' Hf He He' Hm O1 O2 n1 n2 eta (source_of_nonempty _ _ _ H) (source_of_nonempty _ _ _ H')). rewrite Hk. reflexivity.
Qed.
Theorem main_embed_web f junk junk' O1 O2 n1 n2 eta modules modules' srcs srcs' vs vs' r :
  injective f -> Forall2 (web_source junk) modules srcs -> Forall2 (web_source junk') modules' srcs' -> elaborates srcs vs -> elaborates srcs' vs' -> embeds f vs vs' ->
  web_check junk' (real_kernel O2 n2) (Opts eta None false) modules' (Ok tt) ->
  web_check junk (real_kernel O1 n1) (Opts eta None false) modules r -> r = Ok tt \/ r = Fuel.
Proof.
  intros Hf H H' He He' Hm Hk Hk'. apply (web_seq _ _ _ _ _ _ _ H) in Hk'. apply (web_seq _ _ _ _ _ _ _ H') in Hk. subst r.
  exact (embed_seq f srcs srcs' vs vs' Hf He He' Hm O1 O2 n1 n2 eta (web_source_nonempty _ _ _ H) (web_source_nonempty _ _ _ H') Hk).
Qed.
(** without rules, checking the smaller program ends *)
Theorem main_embed_simple f junk junk' O1 O2 n2 eta jobs jobs' channel channel' inputs inputs' srcs srcs' vs vs' :
  injective f -> Forall2 (source_of junk) inputs srcs -> Forall2 (source_of junk') inputs' srcs' -> elaborates srcs vs -> elaborates srcs' vs' -> embeds f vs vs' -> without_rules srcs ->
  kocheck junk' (real_kernel O2 n2) (Opts eta None jobs') channel' inputs' (Ok tt) ->
  exists n0, forall n, n0 <= n -> kocheck junk (real_kernel O1 n) (Opts eta None jobs) channel inputs (Ok tt).
Proof.
  intros Hf H H' He He' Hm Hw Hk. destruct (main_whole_decides junk O1 eta inputs srcs H Hw) as (n0 & r & R1 & R2 & Hr & _ & Ht).
  destruct (main_whole_accepts junk O1 eta jobs channel inputs srcs H Hw) as (n1 & Ha & _). exists n1. intros n Hn. apply Ha; [exact Hn|]. apply Ht.
  assert (X : kocheck junk (real_kernel O1 n0) (Opts eta None false) false inputs r) by (apply Hr; [lia|reflexivity]).
  destruct (main_embed f junk junk' O1 O2 n0 n2 eta jobs' channel' inputs inputs' srcs srcs' vs vs' r Hf H H' He He' Hm Hk X) as [Y|Y]; [exact Y|contradiction].
Qed.
(** what is rejected stays rejected *)
Theorem main_embed_rejected f junk junk' O1 O2 n1 n2 eta jobs channel inputs inputs' srcs srcs' vs vs' r :
  injective f -> Forall2 (source_of junk) inputs srcs -> Forall2 (source_of junk') inputs' srcs' -> elaborates srcs vs -> elaborates srcs' vs' -> embeds f vs vs' ->
  kocheck junk (real_kernel O1 n1) (Opts eta None false) false inputs r -> r <> Ok tt -> r <> Fuel ->
  ~ kocheck junk' (real_kernel O2 n2) (Opts eta None jobs) channel inputs' (Ok tt).
Proof. intros Hf H H' He He' Hm Hk R1 R2 Hk'. destruct (main_embed f junk junk' O1 O2 n1 n2 eta jobs channel inputs inputs' srcs srcs' vs vs' r Hf H H' He He' Hm Hk' Hk); contradiction. Qed.
