(** * kocheck decides programs without rewrite rules (C62) *)

From Verif Require Import Base LibMono ModelTerm ModelGctx ModelCommand ModelSubst ModelReduce ModelInfer ModelSyntax ModelSymbols ModelShare ModelLex ModelParse ModelProcess
  SpecTerm SpecConv SpecConvFacts SpecTyping SpecRed SpecSN SpecType SpecQuery SpecProcess SpecDomain SpecTotal SpecDerive SpecDecide SpecDef SpecSyntax SpecProgram SpecWhole SpecWholeRec RedConfl Erase Inv SoundInfer
  TypeFacts DomFacts SoundDom DomUnique DeriveFacts KernelFacts TotInfer MainKernel MainGctx MainShare MainProcess MainRun MainVerify MainTyped MainTotal MainProgTotal MainDecide MainAlike ModelMain MainProgram SamplesProg SnBase SnDef MainDef.

Section Step.
  Variables (O : query -> nat -> bool) (eta jobs : bool).
  Let o := Opts eta None jobs.

  Definition dinv (gc : gctx) : Prop := definitional (er_gctx gc) /\ typed_rules gc /\ proper_gctx gc.
  Lemma command_step gc c it : dinv gc -> intro_all proper_l it ->
    exists n0 gc' r, (forall n, n0 <= n -> infer_check (real_kernel O n) o (CIntro c it) gc = (gc', r)) /\
    match r with
    | Ok _ => dinv gc' /\ typable (er_gctx gc) (er_cmd (CIntro c it)) (er_gctx gc') /\
              (forall sg sg', alike sg (er_gctx gc) -> typable sg (er_cmd (CIntro c it)) sg' -> alike sg' (er_gctx gc'))
    | Err _ => forall sg sg', alike sg (er_gctx gc) -> ~ typable sg (er_cmd (CIntro c it)) sg'
    | _ => False
    end.
  Proof.
    intros (Hd & Ht & Hp) Hit.
    destruct (step_decides O eta jobs gc (CIntro c it) (definitional_terminating gc Hd) (definitional_church_rosser _ Hd) Ht Hp I Hit) as (n0 & gc' & r & H & Hr).
    exists n0, gc', r. split; [exact H|]. destruct r as [[]|e| |]; try contradiction.
    - destruct Hr as ((_ & Hp') & Htp & Hal). specialize (H n0 (le_n _)). destruct (intro_definitional O n0 o gc c it gc' eq_refl Ht Hd H) as [Hd' Ht'].
      split; [split; [exact Hd'|split; [exact Ht'|exact Hp']]|]. split; [inversion Htp; subst; assumption|].
      intros sg sg' Ha X. apply (Hal sg sg' Ha). apply tc_intro. exact X.
    - intros sg sg' Ha X. apply (Hr sg sg' Ha). apply tc_intro. exact X.
  Qed.
End Step.

(** ** Programs *)
Lemma share_total x args it st : snd (share (PIntro x args it) st) <> Panic /\ snd (share (PIntro x args it) st) <> Fuel.
Proof.
  unfold share. destruct (main_share_intro (ps_syms st) x args it) as (_ & _ & H1 & H2).
  pose proof (share_pintro_ok (ps_syms st) x args it) as Hok.
  destruct (share_command (ps_syms st) (PIntro x args it)) as [c|e| |]; cbn; try tauto; [|split; discriminate].
  destruct Hok as (_ & it' & -> & _). destruct (symbols_insert (ps_syms st) x (ps_next st)) as [syms r] eqn:E. cbn.
  unfold symbols_insert in E. injection E as _ <-. destruct (match m_find _ _ with Some m => _ | None => _ end); split; discriminate.
Qed.
Section Program.
  Variables (O : query -> nat -> bool) (PE : Type) (eta jobs : bool).
  Let o := Opts eta None jobs.
  Notation seq n := (infer_checks_seq PE (real_kernel O n) o _ (consume_item PE o)).

  Lemma seq_whole evs : forall st, rule_free evs -> dinv (ps_gc st) -> forall st0, same_syms st st0 ->
    exists n0 st' rest r, (forall n, n0 <= n -> seq n (map Ok evs) st = (st', rest, r)) /\
    match r with
    | Ok _ => rest = [] /\ exists cmds, share_results evs st0 = map Ok cmds /\ typable_all (er_gctx (ps_gc st)) (map er_cmd cmds) (er_gctx (ps_gc st'))
    | Err _ => forall cmds sg sg', alike sg (er_gctx (ps_gc st)) -> share_results evs st0 = map Ok cmds -> ~ typable_all sg (map er_cmd cmds) sg'
    | _ => False
    end.
  Proof.
    induction evs as [|ev evs IH]; intros st Hf Hi st0 S.
    - exists 0, st, [], (Ok tt). split; [reflexivity|]. split; [reflexivity|]. exists []. split; [reflexivity|constructor].
    - pose proof (rule_free_cons _ _ Hf) as Hf'. destruct (from_event_same ev st st0 S) as [S' E].
      assert (G : ps_gc (fst (from_event ev st)) = ps_gc st).
      { destruct ev as [p|c]; cbn; [reflexivity|]. unfold share. destruct (share_command (ps_syms st) c) as [[id it|rs]|e| |]; reflexivity. }
      destruct ev as [path|[x args it|rs]]; [| |destruct (Hf rs); left; reflexivity].
      + cbn [from_event fst snd] in S', E, G. destruct (IH (PSt (set_path (ps_syms st) path) (ps_next st) (ps_gc st)) Hf' Hi _ S') as (n0 & st' & rest & r & H & Hr).
        exists n0, st', rest, r. split; [exact H|]. exact Hr.
      + pose proof (share_total x args it st) as [T1 T2]. pose proof (share_intro_cmd x args it st) as Hsh. pose proof (share_proper (PIntro x args it) st) as Hsp.
        cbn [share_results map infer_checks_seq consume_item omits o_omit o from_event] in *.
        destruct (share (PIntro x args it) st) as [st1 r1]. destruct (share (PIntro x args it) st0) as [st2 r2]. cbn in S', E, G, T1, T2. injection E as <-.
        destruct r1 as [cmd|e| |]; try contradiction; [destruct (Hsh _ _ eq_refl) as (c & it' & ->); pose proof (Hsp _ _ eq_refl) as Pit; cbn in Pit|];
          cbn [option_map res_err filter_infer omits o_omit o].
        * destruct (command_step O eta jobs (ps_gc st1) c it' ltac:(rewrite G; exact Hi) Pit) as (n1 & gc' & r & H & Hr). fold o in H.
          destruct r as [[]|e| |]; try contradiction.
          -- destruct Hr as (Hi' & Htp & Hal). destruct (IH (PSt (ps_syms st1) (ps_next st1) gc') Hf' Hi' st2 S') as (n2 & st' & rest & r & H2 & Hr2).
             exists (Nat.max n1 n2), st', rest, r. split; [intros n Hn; rewrite H by lia; apply H2; lia|]. rewrite <- G. cbn [ps_gc] in Hr2.
             destruct r as [[]|e| |]; try contradiction.
             ++ destruct Hr2 as (-> & cmds & Es & Ht). split; [reflexivity|]. exists (CIntro c it' :: cmds). cbn [map]. rewrite Es. split; [reflexivity|econstructor; eassumption].
             ++ intros [|cmd cmds] sg sg' Ha; [discriminate|]. cbn [map]. intros [= <- Es] Ht. inversion Ht as [|? ? sg1 ? ? X1 X2]; subst.
                exact (Hr2 cmds sg1 sg' (Hal _ _ Ha X1) Es X2).
          -- exists n1. do 3 eexists. split; [intros n Hn; rewrite H by lia; reflexivity|]. cbn [res_err]. rewrite <- G.
             intros [|cmd cmds] sg sg' Ha; [discriminate|]. cbn [map]. intros [= <- Es] Ht. inversion Ht as [|? ? sg1 ? ? X1 X2]; subst. exact (Hr sg sg1 Ha X1).
        * exists 0. do 3 eexists. split; [intros n Hn; reflexivity|]. cbn. intros [|cmd cmds]; discriminate.
  Qed.
  Lemma dinv_new : dinv (ps_gc (pst_new o)).
  Proof. split; [apply df_empty; reflexivity|]. split; [intros c _; reflexivity|split; intros c; discriminate]. Qed.
  Lemma seq_whole_new evs : rule_free evs -> exists n0 st rest r, (forall n, n0 <= n -> seq n (map Ok evs) (pst_new o) = (st, rest, r)) /\
    r <> Fuel /\ r <> Panic /\
    (r = Ok tt <-> exists cmds sg, share_results evs (pst_new o) = map Ok cmds /\ typable_all (empty_sig eta) (map er_cmd cmds) sg).
  Proof.
    intros Hf. destruct (seq_whole evs (pst_new o) Hf dinv_new (pst_new o) (conj eq_refl eq_refl)) as (n0 & st & rest & r & H & Hr). exists n0, st, rest, r. split; [exact H|].
    change (er_gctx (ps_gc (pst_new o))) with (empty_sig eta) in Hr.
    destruct r as [[]|e| |]; try contradiction; (split; [discriminate|]); (split; [discriminate|]).
    - split; [intros _|reflexivity]. destruct Hr as (_ & cmds & H1 & H2). eauto.
    - split; [discriminate|]. intros (cmds & sg & H1 & H2). exfalso. refine (Hr cmds _ sg _ H1 H2). apply alike_refl. intros c A. discriminate.
  Qed.
End Program.

(** ** kocheck *)
Lemma without_rules_free srcs : without_rules srcs -> rule_free (program_events srcs).
Proof.
  intros H rs Hin. unfold program_events in Hin. apply in_flat_map in Hin as ([m cs] & H1 & H2). cbn in H2. destruct H2 as [H2|H2]; [discriminate|].
  apply in_map_iff in H2 as (c & E & Hc). destruct c as [x args it|rs']; cbn in E; [destruct (scope_args [] args); discriminate|]. exact (H m cs rs' H1 Hc).
Qed.
Lemma run_seq K eta files evs : forall st r, all_events parse_error files = Some evs ->
  (run_files parse_error K (Opts eta None false) files st r <-> snd (infer_checks_seq parse_error K (Opts eta None false) _ (consume_item parse_error (Opts eta None false)) evs st) = r).
Proof.
  revert evs. induction files as [|[[path|e| |] items] files IH]; intros evs st r; cbn [all_events]; try discriminate.
  - intros [= <-]. cbn. split; [intros H; inversion H; reflexivity|intros <-; constructor].
  - destruct (all_events parse_error files) as [evs'|] eqn:E'; [|discriminate]. cbn [option_map]. intros [= <-].
    match goal with |- _ <-> snd (infer_checks_seq _ _ _ _ _ ?l _) = _ => change l with (Ok (EvModule path) :: (map (fun r => res_err PParse (res_map EvCommand r)) items ++ evs')) end.
    rewrite seq_module by reflexivity. rewrite (MainProcess.seq_app). rewrite seq_ev. split.
    + intros H. inversion H as [| |? ? ? ? st1 ? X Hn|? ? ? ? st1 ? X Y]; subst.
      * destruct X as [rest X]. unfold with_path. rewrite X. destruct r as [[]|e| |]; try discriminate; reflexivity.
      * destruct X as [rest X]. unfold with_path. rewrite X. apply (IH _ _ _ eq_refl). exact Y.
    + unfold with_path. destruct (infer_checks_seq parse_error K _ _ (run_item _ _) items _) as [[st1 rest] r1] eqn:X.
      destruct r1 as [[]|e| |].
      * intros Y. eapply ModelProcess.run_ok; [exists rest; exact X|]. apply (IH _ _ _ eq_refl). exact Y.
      * cbn. intros <-. eapply ModelProcess.run_err; [exists rest; exact X|reflexivity].
      * cbn. intros <-. eapply ModelProcess.run_err; [exists rest; exact X|reflexivity].
      * cbn. intros <-. eapply ModelProcess.run_err; [exists rest; exact X|reflexivity].
Qed.
Lemma opens_det junk input f1 f2 : opens junk input f1 -> opens junk input f2 -> f1 = f2.
Proof.
  intros H1 H2. destruct H1; inversion H2; subst; try congruence. assert (m0 = m) as -> by congruence. f_equal.
  eapply results_det; eassumption.
Qed.
Lemma opens_det_all junk inputs fs1 : Forall2 (opens junk) inputs fs1 -> forall fs2, Forall2 (opens junk) inputs fs2 -> fs1 = fs2.
Proof. induction 1 as [|input f inputs fs H _ IH]; intros fs2 H2; inversion H2; subst; [reflexivity|]. f_equal; [eapply opens_det; eassumption|auto]. Qed.
Lemma events_all files : forall evs, files_events parse_error files = Some evs -> all_events parse_error files = Some (map Ok evs).
Proof.
  induction files as [|[[path|e| |] items] files IH]; intros evs; cbn [files_events all_events]; try discriminate.
  - intros [= <-]. reflexivity.
  - destruct (file_commands parse_error items) as [evs1|] eqn:E1; [|discriminate].
    destruct (files_events parse_error files) as [evs2|]; [|discriminate]. intros [= <-]. rewrite (IH _ eq_refl).
    apply file_commands_ok in E1 as (l & -> & ->). unfold file_events. cbn. rewrite map_app, !map_map. reflexivity.
Qed.
Lemma typable_share eta srcs o : Forall (fun src => Forall nonempty (snd src)) srcs ->
  (exists cmds sg, share_results (program_events srcs) (pst_new o) = map Ok cmds /\ typable_all (empty_sig eta) (map er_cmd cmds) sg) <-> typable_sources eta srcs.
Proof.
  intros Hn. split.
  - intros (cmds & sg & H1 & H2). exists (map er_cmd cmds), sg. split; [|exact H2]. eapply sources_elab; [exact Hn|apply at_hist_new|exact H1].
  - intros (vs & sg & H1 & H2). destruct (elab_sources_share srcs Hn [] 0 (pst_new o) vs (at_hist_new _) H1) as (cmds & H3 & <-). eauto.
Qed.

(** Sequential processing of the commands in the sources has a result, which is success iff [P]. *)
Definition seq_decides (O : query -> nat -> bool) (eta jobs : bool) (srcs : list source) (P : Prop) : Prop :=
  exists n0 st rest r, (forall n, n0 <= n -> infer_checks_seq parse_error (real_kernel O n) (Opts eta None jobs) _ (consume_item parse_error (Opts eta None jobs))
      (map Ok (program_events srcs)) (pst_new (Opts eta None jobs)) = (st, rest, r)) /\
    r <> Fuel /\ r <> Panic /\ (r = Ok tt <-> P).
Lemma whole_decides junk O eta inputs srcs P : Forall2 (source_of junk) inputs srcs -> seq_decides O eta false srcs P ->
  exists n0 r, r <> Fuel /\ r <> Panic /\
    (forall n, n0 <= n -> forall r', kocheck junk (real_kernel O n) (Opts eta None false) false inputs r' <-> r' = r) /\
    (forall n r', kocheck junk (real_kernel O n) (Opts eta None false) false inputs r' -> r' = r \/ r' = Fuel) /\
    (r = Ok tt <-> P).
Proof.
  intros Hs (n0 & st & rest & r & H & H1 & H2 & H4). exists n0, r. split; [exact H1|]. split; [exact H2|].
  destruct (sources_opens _ _ _ Hs) as (files & Ho & Ef). apply events_all in Ef.
  assert (X : forall n r', kocheck junk (real_kernel O n) (Opts eta None false) false inputs r' <->
    snd (infer_checks_seq parse_error (real_kernel O n) (Opts eta None false) _ (consume_item parse_error (Opts eta None false)) (map Ok (program_events srcs)) (pst_new (Opts eta None false))) = r').
  { intros n r'. pose proof (run_seq (real_kernel O n) eta files _ (pst_new (Opts eta None false)) r' Ef) as X. rewrite <- X. split.
    - intros (files' & Ho' & Hr). rewrite <- (opens_det_all _ _ _ Ho _ Ho') in Hr. exact Hr.
    - intros Hr. exists files. split; [exact Ho|exact Hr]. }
  split; [|split; [|exact H4]].
  - intros n Hnn r'. rewrite X, (H n Hnn). cbn. split; congruence.
  - intros n r' Hk. apply X in Hk. subst r'.
    pose proof (seq_mono O n (Nat.max n n0) ltac:(lia) parse_error (Opts eta None false) (map Ok (program_events srcs)) (pst_new (Opts eta None false))) as E.
    rewrite (H (Nat.max n n0) ltac:(lia)) in E.
    destruct (infer_checks_seq _ _ _ _ _ _ _) as [[st1 rest1] r1]. cbn [snd] in *. destruct r1 as [[]|e| |]; try (left; specialize (E ltac:(discriminate)); congruence). right. reflexivity.
Qed.
Lemma whole_accepts junk O eta jobs channel inputs srcs P : Forall2 (source_of junk) inputs srcs -> seq_decides O eta jobs srcs P ->
  exists n0, (forall n, n0 <= n -> kocheck junk (real_kernel O n) (Opts eta None jobs) channel inputs (Ok tt) <-> P) /\
    (forall n, kocheck junk (real_kernel O n) (Opts eta None jobs) channel inputs (Ok tt) -> P).
Proof.
  intros Hs (n0 & st & rest & r & H & _ & _ & H3).
  assert (X : forall n, kocheck junk (real_kernel O n) (Opts eta None jobs) channel inputs (Ok tt) <->
    exists st', infer_checks_seq parse_error (real_kernel O n) (Opts eta None jobs) _ (consume_item parse_error (Opts eta None jobs)) (map Ok (program_events srcs)) (pst_new (Opts eta None jobs)) = (st', [], Ok tt)).
  { intros n. rewrite kocheck_run. destruct (sources_opens _ _ _ Hs) as (files & Ho & Ef). split.
    - intros (files' & Ho' & Hr). rewrite <- (opens_det_all _ _ _ Ho _ Ho') in Hr. apply run_events in Hr as (evs & E & Hr).
      assert (evs = program_events srcs) as -> by congruence. apply consume_ok_iff. exact Hr.
    - intros Hr. exists files. split; [exact Ho|]. apply run_events. exists (program_events srcs). split; [exact Ef|]. apply consume_ok_iff. exact Hr. }
  assert (Y : forall n, kocheck junk (real_kernel O n) (Opts eta None jobs) channel inputs (Ok tt) -> P).
  { intros n Hk. apply X in Hk as (st' & Hk). apply H3.
    pose proof (seq_mono O n (Nat.max n n0) ltac:(lia) parse_error (Opts eta None jobs) (map Ok (program_events srcs)) (pst_new (Opts eta None jobs))) as E. rewrite Hk in E. specialize (E ltac:(discriminate)).
    rewrite (H (Nat.max n n0) ltac:(lia)) in E. congruence. }
  exists n0. split; [|exact Y]. intros n Hnn. split; [apply Y|]. intros Ht. apply X. exists st. rewrite (H n Hnn). apply H3 in Ht. subst r.
  specialize (H n Hnn). pose proof (seq_ok_rest _ _ _ _ _ _ _ _ _ H) as ->. reflexivity.
Qed.

(** ** koweb *)
Lemma web_det_all junk modules es1 : Forall2 (web_produce junk) modules es1 -> forall es2, Forall2 (web_produce junk) modules es2 -> es1 = es2.
Proof.
  induction 1 as [|md e modules es H _ IH]; intros es2 H2; inversion H2 as [|? e2 ? ? H3 H4]; subst; [reflexivity|]. f_equal; [|auto].
  destruct H as [name text items H]. inversion H3; subst. f_equal. eapply results_det; eassumption.
Qed.
Lemma whole_web junk O eta modules srcs P : Forall2 (web_source junk) modules srcs -> seq_decides O eta false srcs P ->
  exists n0 r, r <> Fuel /\ r <> Panic /\
    (forall n, n0 <= n -> forall r', web_check junk (real_kernel O n) (Opts eta None false) modules r' <-> r' = r) /\
    (r = Ok tt <-> P).
Proof.
  intros Hs (n0 & st & rest & r & H & H1 & H2 & H3). exists n0, r. split; [exact H1|]. split; [exact H2|]. split; [|exact H3].
  destruct (web_sources _ _ _ Hs) as (evss & Ho & Ef). intros n Hnn r'. split.
  - intros (evss' & Ho' & st' & rest' & Hr). rewrite <- (web_det_all _ _ _ Ho _ Ho'), Ef, (H n Hnn) in Hr. congruence.
  - intros ->. exists evss. split; [exact Ho|]. exists st, rest. rewrite Ef. exact (H n Hnn).
Qed.

(** ** Programs without rewrite rules *)
Lemma whole_seq O eta jobs srcs : Forall (fun src => Forall nonempty (snd src)) srcs -> without_rules srcs -> seq_decides O eta jobs srcs (typable_sources eta srcs).
Proof.
  intros Hn Hw. destruct (seq_whole_new O parse_error eta jobs (program_events srcs) (without_rules_free _ Hw)) as (n0 & st & rest & r & H & H1 & H2 & H3).
  exists n0, st, rest, r. rewrite (typable_share eta srcs _ Hn) in H3. auto.
Qed.
Theorem main_whole_decides junk O eta inputs srcs : Forall2 (source_of junk) inputs srcs -> without_rules srcs ->
  exists n0 r, r <> Fuel /\ r <> Panic /\
    (forall n, n0 <= n -> forall r', kocheck junk (real_kernel O n) (Opts eta None false) false inputs r' <-> r' = r) /\
    (forall n r', kocheck junk (real_kernel O n) (Opts eta None false) false inputs r' -> r' = r \/ r' = Fuel) /\
    (r = Ok tt <-> typable_sources eta srcs).
Proof. intros Hs Hw. apply (whole_decides junk O eta inputs srcs); [exact Hs|]. apply whole_seq; [exact (source_of_nonempty _ _ _ Hs)|exact Hw]. Qed.
Theorem main_whole_accepts junk O eta jobs channel inputs srcs : Forall2 (source_of junk) inputs srcs -> without_rules srcs ->
  exists n0, (forall n, n0 <= n -> kocheck junk (real_kernel O n) (Opts eta None jobs) channel inputs (Ok tt) <-> typable_sources eta srcs) /\
    (forall n, kocheck junk (real_kernel O n) (Opts eta None jobs) channel inputs (Ok tt) -> typable_sources eta srcs).
Proof. intros Hs Hw. apply (whole_accepts junk O eta jobs channel inputs srcs); [exact Hs|]. apply whole_seq; [exact (source_of_nonempty _ _ _ Hs)|exact Hw]. Qed.
Theorem main_whole_web junk O eta modules srcs : Forall2 (web_source junk) modules srcs -> without_rules srcs ->
  exists n0 r, r <> Fuel /\ r <> Panic /\
    (forall n, n0 <= n -> forall r', web_check junk (real_kernel O n) (Opts eta None false) modules r' <-> r' = r) /\
    (r = Ok tt <-> typable_sources eta srcs).
Proof. intros Hs Hw. apply (whole_web junk O eta modules srcs); [exact Hs|]. apply whole_seq; [exact (web_source_nonempty _ _ _ Hs)|exact Hw]. Qed.

(** For examples *)
Lemma free_without_rules srcs : rule_free (program_events srcs) -> without_rules srcs.
Proof.
  intros H m cs rs H1 H2. apply (H (map scope_rule rs)). unfold program_events. apply in_flat_map. exists (m, cs). split; [exact H1|]. right.
  apply in_map_iff. exists (PRules rs). split; [reflexivity|exact H2].
Qed.
Lemma whole_sources junk inputs files evs : Forall2 (opens junk) inputs files -> files_events parse_error files = Some evs -> rule_free evs ->
  exists srcs, Forall2 (source_of junk) inputs srcs /\ without_rules srcs.
Proof.
  intros H1 H2 H3. destruct (opens_sources _ _ _ H1 _ H2) as (srcs & H4 & ->). exists srcs. split; [exact H4|apply free_without_rules; exact H3].
Qed.
