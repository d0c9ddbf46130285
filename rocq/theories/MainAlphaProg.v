(** * Lemmas for C79: programs *)

From Verif Require Import Base LibMono ModelTerm ModelGctx ModelCommand ModelSubst ModelReduce ModelInfer ModelSyntax ModelSymbols ModelShare ModelLex ModelParse ModelMake ModelProcess ModelMain
  SpecTerm SpecConv SpecQuery SpecSyntax SpecSymbols SpecShare SpecProcess SpecDecide SpecMake SpecParse SpecProgram SpecWhole SpecAlpha
  Erase MainKernel MainGctx MainProcess MainRun MainVerify MainDecide MainProgram MainWhole MainAlpha MainAlphaSyn.

Lemma er_intro_la it : er_intro (la_intro it) = er_intro it.
Proof. destruct it as [[A|] [t|]|A t|inj A]; cbn; rewrite ?erl_la; reflexivity. Qed.
Lemma er_vr_la r : er_vr (la_rule r) = er_vr r.
Proof.
  unfold er_vr, la_rule. cbn [r_ctx r_lhs r_rhs]. rewrite erl_la, map_map. f_equal. apply map_ext. intros [x [A|]]; cbn; rewrite ?erl_la; reflexivity.
Qed.
Lemma share_same c1 c2 st1 st2 : pa_cmd c1 = pa_cmd c2 -> ps_syms st1 = ps_syms st2 -> ps_next st1 = ps_next st2 ->
  ps_syms (fst (share c1 st1)) = ps_syms (fst (share c2 st2)) /\ ps_next (fst (share c1 st1)) = ps_next (fst (share c2 st2)) /\
  ps_gc (fst (share c1 st1)) = ps_gc st1 /\ ps_gc (fst (share c2 st2)) = ps_gc st2 /\
  match snd (share c1 st1), snd (share c2 st2) with
  | Ok a, Ok b => er_cmd a = er_cmd b
  | Err e, Err e' => e = e'
  | Panic, Panic | Fuel, Fuel => True
  | _, _ => False
  end.
Proof.
  intros E Es En. pose proof (share_command_pa (ps_syms st1) c1) as H1. pose proof (share_command_pa (ps_syms st1) c2) as H2. rewrite E, H2 in H1. clear H2.
  unfold share. rewrite <- Es, <- En.
  destruct (share_command (ps_syms st1) c1) as [a|e| |], (share_command (ps_syms st1) c2) as [b|e'| |]; try discriminate.
  - injection H1 as H1. destruct a as [x it|rs], b as [y jt|ss]; try discriminate.
    + injection H1 as E1 E2. subst y. destruct (symbols_insert (ps_syms st1) x (ps_next st1)) as [syms r]. cbn [fst snd ps_syms ps_next ps_gc].
      do 4 (split; [reflexivity|]). destruct r; cbn [res_map res_err]; auto. cbn [er_cmd]. f_equal.
      change (er_intro it = er_intro jt). rewrite <- (er_intro_la it), <- (er_intro_la jt), E2. reflexivity.
    + injection H1 as H1. cbn [fst snd]. split; [exact Es|]. split; [exact En|]. split; [reflexivity|]. split; [reflexivity|]. cbn [er_cmd]. f_equal. change (map er_vr rs = map er_vr ss).
      assert (X : forall l, map er_vr l = map er_vr (map la_rule l)) by (intros l; rewrite map_map; apply map_ext; intros r; symmetry; apply er_vr_la).
      rewrite (X rs), (X ss), H1. reflexivity.
  - injection H1 as H1. cbn [fst snd]. split; [exact Es|]. split; [exact En|]. split; [reflexivity|]. split; [reflexivity|]. congruence.
  - cbn [fst snd]. repeat split; assumption.
  - cbn [fst snd]. repeat split; assumption.
Qed.

Definition same_ev (ev1 ev2 : event) : Prop :=
  match ev1, ev2 with
  | EvModule p, EvModule q => p = q
  | EvCommand c, EvCommand d => pa_cmd c = pa_cmd d
  | _, _ => False
  end.
Definition same_st (st1 st2 : pst) : Prop := ps_syms st1 = ps_syms st2 /\ ps_next st1 = ps_next st2 /\ geq (ps_gc st1) (ps_gc st2).

Section Seq.
  Variables (O1 O2 : query -> nat -> bool) (n1 n2 : nat) (o : opts).
  Notation seq O n := (infer_checks_seq parse_error (real_kernel O n) o _ (consume_item parse_error o)).
  Lemma seq_same evs1 evs2 : Forall2 same_ev evs1 evs2 -> forall st1 st2, same_st st1 st2 ->
    snd (seq O1 n1 (map Ok evs1) st1) = Fuel \/ snd (seq O2 n2 (map Ok evs2) st2) = Fuel \/ snd (seq O1 n1 (map Ok evs1) st1) = snd (seq O2 n2 (map Ok evs2) st2).
  Proof.
    induction 1 as [|ev1 ev2 evs1 evs2 Hev _ IH]; intros st1 st2 (S1 & S2 & G); cbn [map infer_checks_seq]; [right; right; reflexivity|].
    cbn [consume_item]. destruct (omits o StShare).
    { cbn [filter_infer]. apply IH. split; [exact S1|]. split; assumption. }
    destruct ev1 as [p|c1], ev2 as [q|c2]; cbn [same_ev] in Hev; try contradiction; cbn [from_event].
    { subst q. cbn [option_map filter_infer]. apply IH. split; [cbn; congruence|]. split; [exact S2|exact G]. }
    pose proof (share_same c1 c2 st1 st2 Hev S1 S2) as (X1 & X2 & X3 & X4 & X5).
    pose proof (fun st' cmd' => share_proper c1 st1 st' cmd') as P1. pose proof (fun st' cmd' => share_proper c2 st2 st' cmd') as P2.
    destruct (share c1 st1) as [st1' r1], (share c2 st2) as [st2' r2]. cbn [fst snd] in *.
    destruct r1 as [a|e| |], r2 as [b|e'| |]; try contradiction; cbn [option_map res_err filter_infer]; try (right; right; cbn; congruence).
    destruct (omits o StInfer).
    { apply IH. split; [exact X1|]. split; [exact X2|]. rewrite X3, X4. exact G. }
    assert (G' : geq (ps_gc st1') (ps_gc st2')) by (rewrite X3, X4; exact G).
    pose proof (geq_infer_check O1 O2 n1 n2 o _ _ a b G' X5 (P1 _ _ eq_refl) (P2 _ _ eq_refl)) as St.
    destruct (infer_check (real_kernel O1 n1) o a (ps_gc st1')) as [g1 r1], (infer_check (real_kernel O2 n2) o b (ps_gc st2')) as [g2 r2]. destruct St as [F|[F|[F1 F2]]]; cbn [fst snd] in *.
    - subst r1. left. reflexivity.
    - subst r2. right. left. reflexivity.
    - subst r2. destruct r1 as [[]|e| |]; try (right; right; reflexivity). apply IH. split; [exact X1|]. split; [exact X2|]. apply F2. reflexivity.
  Qed.
End Seq.

Lemma geq_new o : geq (ps_gc (pst_new o)) (ps_gc (pst_new o)).
Proof.
  assert (P : proper_gctx (ps_gc (pst_new o))) by (split; discriminate). repeat (split; [exact P||reflexivity|]). reflexivity.
Qed.
Lemma same_st_new o : same_st (pst_new o) (pst_new o).
Proof. split; [reflexivity|]. split; [reflexivity|]. apply geq_new. Qed.
Lemma alpha_events srcs srcs' : alpha_sources srcs srcs' -> Forall2 same_ev (program_events srcs) (program_events srcs').
Proof.
  induction 1 as [|[m cs] [m' cs'] srcs srcs' [Hm H] _ IH]; [constructor|]. cbn in Hm, H. subst m'. unfold program_events. cbn [flat_map].
  apply Forall2_app; [|exact IH]. constructor; [reflexivity|]. clear IH. induction H as [|c c' cs cs' Hc _ IH]; constructor; [|exact IH]. apply alpha_scope_command. exact Hc.
Qed.

(** ** The programs *)
Lemma kocheck_seq junk K eta inputs srcs r : Forall2 (source_of junk) inputs srcs ->
  (kocheck junk K (Opts eta None false) false inputs r <->
   snd (infer_checks_seq parse_error K (Opts eta None false) _ (consume_item parse_error (Opts eta None false)) (map Ok (program_events srcs)) (pst_new (Opts eta None false))) = r).
Proof.
  intros Hs. destruct (sources_opens _ _ _ Hs) as (files & Ho & Ef). apply events_all in Ef.
  pose proof (run_seq K eta files _ (pst_new (Opts eta None false)) r Ef) as X. rewrite <- X. split.
  - intros (files' & Ho' & Hr). rewrite <- (opens_det_all _ _ _ Ho _ Ho') in Hr. exact Hr.
  - intros Hr. exists files. split; [exact Ho|exact Hr].
Qed.
Lemma web_seq junk K eta om modules srcs r : Forall2 (web_source junk) modules srcs ->
  (web_check junk K (Opts eta om false) modules r <->
   snd (infer_checks_seq parse_error K (Opts eta om false) _ (consume_item parse_error (Opts eta om false)) (map Ok (program_events srcs)) (pst_new (Opts eta om false))) = r).
Proof.
  intros Hs. destruct (web_sources _ _ _ Hs) as (evss & Hp & E).
  assert (D : forall evss', Forall2 (web_produce junk) modules evss' -> evss' = evss).
  { clear - Hp. induction Hp as [|md evs modules evss H _ IH]; intros evss' H'; inversion H' as [|? evs' ? evss2 H1 H2]; subst; [reflexivity|]. f_equal; [|apply IH; exact H2].
    destruct H as [name text items Hi]. inversion H1 as [? ? items' Hi']; subst. rewrite (results_det _ _ _ Hi _ Hi'). reflexivity. }
  unfold web_check, consume, infer_checks. cbn [o_jobs]. split.
  - intros (evss' & H1 & st & rest & H2). rewrite (D _ H1), E in H2. rewrite H2. reflexivity.
  - intros H. exists evss. split; [exact Hp|]. rewrite E. destruct (infer_checks_seq _ _ _ _ _ _ _) as [[st rest] r']. cbn in H. subst r'. eauto.
Qed.

Lemma main_alpha_verdict junk junk' O1 O2 n1 n2 eta inputs inputs' srcs srcs' r r' :
  Forall2 (source_of junk) inputs srcs -> Forall2 (source_of junk') inputs' srcs' -> alpha_sources srcs srcs' ->
  kocheck junk (real_kernel O1 n1) (Opts eta None false) false inputs r -> kocheck junk' (real_kernel O2 n2) (Opts eta None false) false inputs' r' ->
  r = Fuel \/ r' = Fuel \/ r = r'.
Proof.
  intros H H' Ha Hk Hk'. apply (kocheck_seq _ _ _ _ _ _ H) in Hk. apply (kocheck_seq _ _ _ _ _ _ H') in Hk'. subst r r'. apply seq_same; [|apply same_st_new]. apply alpha_events. exact Ha.
Qed.
Lemma main_alpha_web junk junk' O1 O2 n1 n2 eta om modules modules' srcs srcs' r r' :
  Forall2 (web_source junk) modules srcs -> Forall2 (web_source junk') modules' srcs' -> alpha_sources srcs srcs' ->
  web_check junk (real_kernel O1 n1) (Opts eta om false) modules r -> web_check junk' (real_kernel O2 n2) (Opts eta om false) modules' r' ->
  r = Fuel \/ r' = Fuel \/ r = r'.
Proof.
  intros H H' Ha Hk Hk'. apply (web_seq _ _ _ _ _ _ _ H) in Hk. apply (web_seq _ _ _ _ _ _ _ H') in Hk'. subst r r'. apply seq_same; [|apply same_st_new]. apply alpha_events. exact Ha.
Qed.
(** acceptance with threads or a channel: the other program is not rejected *)
Lemma main_alpha_accepted junk junk' O1 O2 n1 n2 eta jobs channel inputs inputs' srcs srcs' r' :
  Forall2 (source_of junk) inputs srcs -> Forall2 (source_of junk') inputs' srcs' -> alpha_sources srcs srcs' ->
  kocheck junk (real_kernel O1 n1) (Opts eta None jobs) channel inputs (Ok tt) -> kocheck junk' (real_kernel O2 n2) (Opts eta None false) false inputs' r' ->
  r' = Ok tt \/ r' = Fuel.
Proof.
  intros H H' Ha Hk Hk'. apply kocheck_events in Hk as (srcs1 & Hs & Hk). destruct (sources_opens _ _ _ Hs) as (files1 & Ho1 & E1), (sources_opens _ _ _ H) as (files & Ho & E).
  rewrite <- (opens_det_all _ _ _ Ho _ Ho1), E in E1. injection E1 as E1. rewrite <- E1 in Hk.
  apply consume_ok_iff in Hk as (st & Hk). apply (kocheck_seq _ _ _ _ _ _ H') in Hk'. subst r'.
  change (infer_checks_seq parse_error (real_kernel O1 n1) (Opts eta None jobs) _ (consume_item parse_error (Opts eta None jobs)) (map Ok (program_events srcs)) (pst_new (Opts eta None jobs)))
    with (infer_checks_seq parse_error (real_kernel O1 n1) (Opts eta None false) _ (consume_item parse_error (Opts eta None false)) (map Ok (program_events srcs)) (pst_new (Opts eta None false))) in Hk.
  pose proof (seq_same O1 O2 n1 n2 (Opts eta None false) _ _ (alpha_events _ _ Ha) _ _ (same_st_new (Opts eta None false))) as X. rewrite Hk in X. cbn [snd] in X. destruct X as [X|[X|X]]; [discriminate|right; exact X|left; congruence].
Qed.
(** without rules: the same programs are accepted *)
Lemma without_rules_alpha srcs srcs' : alpha_sources srcs srcs' -> without_rules srcs -> without_rules srcs'.
Proof.
  intros H Hw m cs rs Hi Hr. apply alpha_sources_sym in H. revert Hw. induction H as [|[m1 cs1] [m2 cs2] srcs1 srcs2 [Hm Hc] _ IH]; [destruct Hi|]. cbn in Hm, Hc. intros Hw.
  destruct Hi as [[= -> ->]|Hi]; [|apply IH; [exact Hi|]; intros m0 cs0 rs0 H0; apply (Hw m0 cs0 rs0); right; exact H0].
  assert (X : exists rs', In (PRules rs') cs2).
  { clear - Hc Hr. induction Hc as [|c c' cs cs' H _ IH]; [destruct Hr|]. destruct Hr as [->|Hr]; [inversion H; subst; eexists; left; reflexivity|]. destruct (IH Hr) as [rs' X]. exists rs'. right. exact X. }
  destruct X as [rs' X]. exact (Hw m2 cs2 rs' (or_introl eq_refl) X).
Qed.
Lemma main_alpha_simple junk junk' O1 O2 eta jobs jobs' channel channel' inputs inputs' srcs srcs' :
  Forall2 (source_of junk) inputs srcs -> Forall2 (source_of junk') inputs' srcs' -> alpha_sources srcs srcs' -> without_rules srcs ->
  ((exists n, kocheck junk (real_kernel O1 n) (Opts eta None jobs) channel inputs (Ok tt)) <->
   (exists n, kocheck junk' (real_kernel O2 n) (Opts eta None jobs') channel' inputs' (Ok tt))).
Proof.
  intros H H' Ha Hw. assert (T : typable_sources eta srcs <-> typable_sources eta srcs').
  { unfold typable_sources. split; intros (vs & sg & E & Ht); exists vs, sg; (split; [apply (main_alpha_elaborates srcs srcs' vs Ha); exact E|exact Ht]). }
  destruct (main_whole_accepts junk O1 eta jobs channel inputs srcs H Hw) as (n0 & A1 & A2).
  destruct (main_whole_accepts junk' O2 eta jobs' channel' inputs' srcs' H' (without_rules_alpha _ _ Ha Hw)) as (n0' & B1 & B2). split; intros [n Hk].
  - exists n0'. apply B1; [lia|]. apply T. exact (A2 n Hk).
  - exists n0. apply A1; [lia|]. apply T. exact (B2 n Hk).
Qed.
(** only sharing: accepted or not *)
Lemma main_alpha_infer junk junk' K K' eta eta' jobs jobs' channel channel' inputs inputs' srcs srcs' :
  Forall2 (source_of junk) inputs srcs -> Forall2 (source_of junk') inputs' srcs' -> alpha_sources srcs srcs' ->
  (kocheck junk K (Opts eta (Some StInfer) jobs) channel inputs (Ok tt) <-> kocheck junk' K' (Opts eta' (Some StInfer) jobs') channel' inputs' (Ok tt)).
Proof.
  assert (X : forall junk junk' K K' eta eta' jobs jobs' channel channel' inputs inputs' srcs srcs',
    Forall2 (source_of junk) inputs srcs -> Forall2 (source_of junk') inputs' srcs' -> alpha_sources srcs srcs' ->
    kocheck junk K (Opts eta (Some StInfer) jobs) channel inputs (Ok tt) -> kocheck junk' K' (Opts eta' (Some StInfer) jobs') channel' inputs' (Ok tt)).
  { clear. intros junk junk' K K' eta eta' jobs jobs' channel channel' inputs inputs' srcs srcs' H H' Ha Hk. apply main_kocheck_infer.
    apply kocheck_events in Hk as (srcs1 & Hs & Hk). destruct (sources_opens _ _ _ Hs) as (files1 & Ho1 & E1), (sources_opens _ _ _ H) as (files & Ho & E).
    rewrite <- (opens_det_all _ _ _ Ho _ Ho1), E in E1. injection E1 as E1. rewrite <- E1 in Hk.
    apply events_infer in Hk as [vs Hk]; [|eapply source_of_nonempty; exact H]. exists srcs', vs. split; [exact H'|]. apply (main_alpha_elaborates srcs srcs' vs Ha). exact Hk. }
  intros H H' Ha. split; eapply X; eauto using alpha_sources_sym.
Qed.
