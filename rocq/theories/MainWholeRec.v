(** * kocheck decides programs with recursive functions (C65, C69) *)

From Verif Require Import Base LibMono ModelTerm ModelGctx ModelCommand ModelSubst ModelReduce ModelInfer ModelSyntax ModelSymbols ModelShare ModelLex ModelParse ModelProcess
  SpecTerm SpecConv SpecConvFacts SpecTyping SpecRed SpecSN SpecType SpecQuery SpecProcess SpecDomain SpecTotal SpecDerive SpecDecide SpecRec SpecRecProg SpecSyntax SpecProgram SpecWhole SpecWholeRec RedConfl Erase Inv
  TypeFacts DomFacts MainKernel MainGctx MainShare MainProcess MainRun MainVerify MainTyped MainTotal MainProgTotal MainDecide MainAlike ModelMain MainProgram SamplesProg SnBase SnRec MainDef MainRec MainWhole.

Lemma share_total_all cmd st : snd (share cmd st) <> Panic /\ snd (share cmd st) <> Fuel.
Proof.
  destruct cmd as [x args it|rs]; [apply share_total|]. unfold share. pose proof (main_share_rules (ps_syms st) rs) as H.
  destruct (share_command (ps_syms st) (PRules rs)) as [[c it|rs']|e| |]; cbn; try contradiction; split; discriminate.
Qed.

(** Rules that are annotated according to the specification *)
Lemma annotated_typed gc rs : Forall (annotated (er_gctx gc)) (map (fun r => er_vrule r) rs) -> cmd_typed gc (CRules rs) /\ cmd_args (CRules rs).
Proof.
  cbn. rewrite Forall_map, !Forall_forall. intros H. split; intros r Hr; destruct (H _ Hr) as (H1 & H2 & H3).
  - destruct (rule_try r) as [r'|e| |] eqn:E.
    + destruct (try_ctx _ _ E) as (Hc & _). destruct (H2 (try_checked _ _ E)) as (D & H4 & H5). rewrite <- (rule_ctx_det _ _ _ H4 Hc). exact H5.
    + rewrite er_rule_v. apply H3. intros Hc. apply checked_try in Hc as [r' E']. congruence.
    + rewrite er_rule_v. apply H3. intros Hc. apply checked_try in Hc as [r' E']. congruence.
    + rewrite er_rule_v. apply H3. intros Hc. apply checked_try in Hc as [r' E']. congruence.
  - cbn in H1. intros E. apply H1. rewrite E. reflexivity.
Qed.

Lemma typable_app sg vs sg1 v sg2 : typable_cmds sg vs sg1 -> typable_cmd sg1 v sg2 -> typable_cmds sg (vs ++ [v]) sg2.
Proof. induction 1; intros Hv; cbn; econstructor; try eassumption; [constructor|auto]. Qed.

Section Program.
  Variable P : sig -> Prop.
  Hypothesis HP : normal_class P.
  Variables (O : query -> nat -> bool) (PE : Type) (jobs : bool).
  Let o := Opts false None jobs.
  Notation seq n := (infer_checks_seq PE (real_kernel O n) o _ (consume_item PE o)).

  (** The condition on sources, for events *)
  Definition recursive_events (evs : list event) : Prop :=
    forall pre cmd post cmds sg, evs = pre ++ EvCommand cmd :: post -> share_results pre (pst_new o) = map Ok cmds ->
      typable_cmds (empty_sig false) (map er_cmd cmds) sg ->
      P sg /\ forall rs, snd (share cmd (share_state pre (pst_new o))) = Ok (CRules rs) -> Forall (annotated sg) (map (fun r => er_vrule r) rs).

  Lemma seq_rec evs : forall pre cmds0 st, recursive_events (pre ++ evs) -> rinv st -> proper_gctx (ps_gc st) ->
    same_syms st (share_state pre (pst_new o)) -> share_results pre (pst_new o) = map Ok cmds0 -> typable_cmds (empty_sig false) (map er_cmd cmds0) (er_gctx (ps_gc st)) ->
    exists n0 st' rest r, (forall n, n0 <= n -> seq n (map Ok evs) st = (st', rest, r)) /\
    match r with
    | Ok _ => rest = [] /\ exists cmds, share_results evs (share_state pre (pst_new o)) = map Ok cmds /\ typable_cmds (er_gctx (ps_gc st)) (map er_cmd cmds) (er_gctx (ps_gc st'))
    | Err _ => forall cmds sg sg', alike sg (er_gctx (ps_gc st)) -> share_results evs (share_state pre (pst_new o)) = map Ok cmds -> ~ typable_cmds sg (map er_cmd cmds) sg'
    | _ => False
    end.
  Proof.
    induction evs as [|ev evs IH]; intros pre cmds0 st Hrec Hi Hp S Hs0 Ht0.
    - exists 0, st, [], (Ok tt). split; [reflexivity|]. split; [reflexivity|]. exists []. split; [reflexivity|constructor].
    - destruct (from_event_same ev st _ S) as [S' E].
      assert (Epre : share_state (pre ++ [ev]) (pst_new o) = fst (from_event ev (share_state pre (pst_new o)))).
      { clear. generalize (pst_new o). induction pre as [|e pre IH]; intros st; cbn; [reflexivity|apply IH]. }
      assert (Hrec' : recursive_events ((pre ++ [ev]) ++ evs)) by (rewrite <- app_assoc; exact Hrec).
      pose proof Hi as (I1 & I2 & I3 & I4). destruct (from_event_fresh ev st I3) as (F1 & F2 & F3).
      assert (G : ps_gc (fst (from_event ev st)) = ps_gc st).
      { destruct ev as [p|c]; cbn; [reflexivity|]. unfold share. destruct (share_command (ps_syms st) c) as [[id it|rs]|e| |]; reflexivity. }
      destruct ev as [path|cmd].
      + rewrite <- Epre in S'. cbn [from_event fst snd] in S', E, G, F1.
        destruct (IH (pre ++ [EvModule path]) cmds0 (PSt (set_path (ps_syms st) path) (ps_next st) (ps_gc st)) Hrec') as (n0 & st' & rest & r & H & Hr); try assumption.
        * split; [exact I1|]. split; [exact I2|]. split; [exact F1|exact I4].
        * rewrite share_results_app, Hs0. cbn. apply app_nil_r.
        * exists n0, st', rest, r. split; [exact H|]. rewrite Epre in Hr. exact Hr.
      + destruct (Hrec pre cmd evs cmds0 _ eq_refl Hs0 Ht0) as [Hst Hann]. destruct (built_terminating P HP _ I1 Hst) as [Hgc Hcr].
        pose proof (share_total_all cmd st) as [T1 T2]. pose proof (share_proper cmd st) as Hsp.
        rewrite <- Epre in S'. cbn [share_results map infer_checks_seq consume_item omits o_omit o from_event] in *.
        assert (Hres : share_results (pre ++ [EvCommand cmd]) (pst_new o) = share_results pre (pst_new o) ++ [snd (share cmd (share_state pre (pst_new o)))]).
        { rewrite share_results_app. cbn. destruct (share cmd (share_state pre (pst_new o))). reflexivity. }
        destruct (share cmd st) as [st1 r1]. destruct (share cmd (share_state pre (pst_new o))) as [st2 r2] eqn:Es2. cbn in S', E, G, T1, T2, F1, F2, F3, Hann, Hres, Epre. injection E as <-.
        destruct r1 as [cmd'|e| |]; try contradiction; cbn [option_map res_err filter_infer omits o_omit o].
        * pose proof (Hsp _ _ eq_refl) as Pc. assert (Hty : cmd_typed (ps_gc st) cmd' /\ cmd_args cmd').
          { destruct cmd' as [c it|rs]; [split; exact I|]. apply annotated_typed. apply Hann. reflexivity. }
          destruct Hty as [Hty Har]. destruct (F3 cmd' eq_refl) as [_ F4].
          destruct (step_decides O false jobs (ps_gc st1) cmd') as (n1 & gc' & r & H & Hr); try (rewrite G; assumption); [exact Pc|]. fold o in H. rewrite G in Hr.
          destruct r as [[]|e| |]; try contradiction.
          -- destruct Hr as ((Ht' & Hp') & Htp & Hal).
             assert (Hi' : rinv (PSt (ps_syms st1) (ps_next st1) gc')).
             { pose proof (H n1 (le_n _)) as Ei. rewrite G in Ei. destruct (step_built P HP O n1 o (ps_gc st) cmd' gc' eq_refl I2 I1 Hst Hty Har) as (G1 & G2 & G3).
               - intros c it -> d Hd. destruct (F4 c it eq_refl) as [<- _]. apply I4. exact Hd.
               - exact Ei.
               - split; [exact G1|]. split; [exact G2|]. split; [exact F1|]. intros d Hd. apply G3 in Hd. destruct Hd as [Hd|[it ->]].
                 + apply I4 in Hd. cbn. lia.
                 + apply (F4 d it eq_refl). }
             destruct (IH (pre ++ [EvCommand cmd]) (cmds0 ++ [cmd']) (PSt (ps_syms st1) (ps_next st1) gc') Hrec' Hi' Hp') as (n2 & st' & rest & r & H2 & Hr2).
             ++ exact S'.
             ++ rewrite Hres, Hs0, map_app. reflexivity.
             ++ rewrite map_app. eapply typable_app; eassumption.
             ++ rewrite Epre in Hr2.
                exists (Nat.max n1 n2), st', rest, r. split; [intros n Hn; rewrite H by lia; apply H2; lia|]. cbn [ps_gc] in Hr2.
                destruct r as [[]|e| |]; try contradiction.
                ** destruct Hr2 as (-> & cmds & Es & Ht). split; [reflexivity|]. exists (cmd' :: cmds). cbn [map]. rewrite Es. split; [reflexivity|econstructor; eassumption].
                ** intros [|cmd2 cmds] sg sg' Ha; [discriminate|]. cbn [map]. intros [= <- Es] Ht. inversion Ht as [|? ? sg1 ? ? X1 X2]; subst.
                   exact (Hr2 cmds sg1 sg' (Hal _ _ Ha X1) Es X2).
          -- exists n1. do 3 eexists. split; [intros n Hn; rewrite H by lia; reflexivity|]. cbn [res_err].
             intros [|cmd2 cmds] sg sg' Ha; [discriminate|]. cbn [map]. intros [= <- Es] Ht. inversion Ht as [|? ? sg1 ? ? X1 X2]; subst. exact (Hr sg sg1 Ha X1).
        * exists 0. do 3 eexists. split; [intros n Hn; reflexivity|]. cbn. intros [|cmd2 cmds]; discriminate.
  Qed.
  Lemma seq_rec_new evs : recursive_events evs -> exists n0 st rest r, (forall n, n0 <= n -> seq n (map Ok evs) (pst_new o) = (st, rest, r)) /\
    r <> Fuel /\ r <> Panic /\
    (r = Ok tt <-> exists cmds sg, share_results evs (pst_new o) = map Ok cmds /\ typable_cmds (empty_sig false) (map er_cmd cmds) sg).
  Proof.
    intros Hf. destruct (seq_rec evs [] [] (pst_new o) Hf (rinv_new jobs) (proj2 (proj2 (dinv_new false jobs))) (conj eq_refl eq_refl) eq_refl (tpc_nil _)) as (n0 & st & rest & r & H & Hr).
    exists n0, st, rest, r. split; [exact H|]. cbn [share_state] in Hr.
    change (er_gctx (ps_gc (pst_new o))) with (empty_sig false) in Hr.
    destruct r as [[]|e| |]; try contradiction; (split; [discriminate|]); (split; [discriminate|]).
    - split; [intros _|reflexivity]. destruct Hr as (_ & cmds & H1 & H2). eauto.
    - split; [discriminate|]. intros (cmds & sg & H1 & H2). exfalso. refine (Hr cmds _ sg _ H1 H2). apply alike_refl. intros c A. discriminate.
  Qed.
End Program.

(** ** Sources *)
Lemma events_split srcs : forall pre cmd post, program_events srcs = pre ++ EvCommand cmd :: post ->
  exists srcs1 m cs1 c cs2 srcs2, srcs = srcs1 ++ (m, cs1 ++ c :: cs2) :: srcs2 /\ cmd = scope_command c /\ pre = program_events (srcs1 ++ [(m, cs1)]).
Proof.
  induction srcs as [|[m cs] srcs IH]; intros pre cmd post E; [destruct pre; discriminate|].
  cbn [program_events flat_map source_events] in E. destruct pre as [|e pre]; [discriminate|]. cbn in E. injection E as <- E.
  assert (X : (exists cs1 c cs2, cs = cs1 ++ c :: cs2 /\ cmd = scope_command c /\ pre = map (fun c => EvCommand (scope_command c)) cs1) \/
    exists pre2, pre = map (fun c => EvCommand (scope_command c)) cs ++ pre2 /\ program_events srcs = pre2 ++ EvCommand cmd :: post).
  { clear IH. revert pre E. induction cs as [|c cs IH]; intros pre E; [right; exists pre; split; [reflexivity|exact E]|].
    destruct pre as [|e pre]; cbn in E; injection E as E1 E2.
    - left. exists [], c, cs. split; [reflexivity|]. split; [congruence|reflexivity].
    - destruct (IH pre E2) as [(cs1 & c' & cs2 & -> & -> & ->)|(pre2 & -> & H)].
      + left. exists (c :: cs1), c', cs2. subst e. auto.
      + right. exists pre2. subst e. auto. }
  destruct X as [(cs1 & c & cs2 & -> & -> & ->)|(pre2 & -> & H)].
  - exists [], m, cs1, c, cs2, srcs. split; [reflexivity|]. split; [reflexivity|]. cbn. rewrite app_nil_r. reflexivity.
  - destruct (IH _ _ _ H) as (srcs1 & m' & cs1 & c & cs2 & srcs2 & -> & -> & ->). exists ((m, cs) :: srcs1), m', cs1, c, cs2, srcs2.
    split; [reflexivity|]. split; [reflexivity|]. reflexivity.
Qed.
Lemma events_app srcs srcs' : program_events (srcs ++ srcs') = program_events srcs ++ program_events srcs'.
Proof. apply flat_map_app. Qed.
Lemma recursive_share P srcs jobs : Forall (fun src => Forall nonempty (snd src)) srcs -> sources_in P srcs -> recursive_events P jobs (program_events srcs).
Proof.
  intros Hn Hr pre cmd post cmds sg E Hs Ht. apply events_split in E as (srcs1 & m & cs1 & c & cs2 & srcs2 & -> & -> & ->).
  rewrite Forall_app in Hn. destruct Hn as [N1 N2]. inversion N2 as [|? ? N3 N4]; subst. cbn in N3. rewrite Forall_app in N3. destruct N3 as [N3 N5]. inversion N5 as [|? ? N6 N7]; subst.
  assert (Hn1 : Forall (fun src : source => Forall nonempty (snd src)) (srcs1 ++ [(m, cs1)])) by (apply Forall_app; split; [exact N1|repeat constructor; exact N3]).
  assert (Hn2 : Forall (fun src : source => Forall nonempty (snd src)) (srcs1 ++ [(m, cs1 ++ [c])])).
  { apply Forall_app; split; [exact N1|]. constructor; [|constructor]. cbn. apply Forall_app. split; [exact N3|repeat constructor; exact N6]. }
  assert (He : elaborates (srcs1 ++ [(m, cs1)]) (map er_cmd cmds)) by (eapply sources_elab; [exact Hn1|apply at_hist_new|exact Hs]).
  destruct (Hr srcs1 m cs1 c cs2 srcs2 _ sg eq_refl He Ht) as [H1 H2]. split; [exact H1|]. intros rs Hsh. apply H2.
  change [VRules (map (fun r => er_vrule r) rs)] with (map er_cmd [CRules rs]). rewrite <- map_app.
  eapply sources_elab; [exact Hn2|apply (at_hist_new (Opts false None jobs))|].
  assert (Ee : program_events (srcs1 ++ [(m, cs1 ++ [c])]) = program_events (srcs1 ++ [(m, cs1)]) ++ [EvCommand (scope_command c)]).
  { rewrite !events_app, <- app_assoc. f_equal. cbn. rewrite !app_nil_r, map_app. reflexivity. }
  rewrite Ee, share_results_app, Hs, map_app. f_equal. cbn. destruct (share (scope_command c) _) as [st r]. cbn in Hsh. rewrite Hsh. reflexivity.
Qed.
Lemma typable_program_share srcs o : Forall (fun src => Forall nonempty (snd src)) srcs ->
  (exists cmds sg, share_results (program_events srcs) (pst_new o) = map Ok cmds /\ typable_cmds (empty_sig false) (map er_cmd cmds) sg) <-> typable_program srcs.
Proof.
  intros Hn. split.
  - intros (cmds & sg & H1 & H2). exists (map er_cmd cmds), sg. split; [|exact H2]. eapply sources_elab; [exact Hn|apply at_hist_new|exact H1].
  - intros (vs & sg & H1 & H2). destruct (elab_sources_share srcs Hn [] 0 (pst_new o) vs (at_hist_new _) H1) as (cmds & H3 & <-). eauto.
Qed.
Lemma rec_seq_decides P (HP : normal_class P) O jobs srcs : Forall (fun src => Forall nonempty (snd src)) srcs -> sources_in P srcs -> seq_decides O false jobs srcs (typable_program srcs).
Proof.
  intros Hn Hw. destruct (seq_rec_new P HP O parse_error jobs (program_events srcs) (recursive_share _ _ _ Hn Hw)) as (n0 & st & rest & r & H & H1 & H2 & H3).
  exists n0, st, rest, r. rewrite (typable_program_share srcs _ Hn) in H3. auto.
Qed.

Theorem main_rec_decides P (HP : normal_class P) junk O inputs srcs : Forall2 (source_of junk) inputs srcs -> sources_in P srcs ->
  exists n0 r, r <> Fuel /\ r <> Panic /\
    (forall n, n0 <= n -> forall r', kocheck junk (real_kernel O n) (Opts false None false) false inputs r' <-> r' = r) /\
    (forall n r', kocheck junk (real_kernel O n) (Opts false None false) false inputs r' -> r' = r \/ r' = Fuel) /\
    (r = Ok tt <-> typable_program srcs).
Proof. intros Hs Hw. apply (whole_decides junk O false inputs srcs); [exact Hs|]. apply (rec_seq_decides P HP); [exact (source_of_nonempty _ _ _ Hs)|exact Hw]. Qed.
Theorem main_rec_accepts P (HP : normal_class P) junk O jobs channel inputs srcs : Forall2 (source_of junk) inputs srcs -> sources_in P srcs ->
  exists n0, (forall n, n0 <= n -> kocheck junk (real_kernel O n) (Opts false None jobs) channel inputs (Ok tt) <-> typable_program srcs) /\
    (forall n, kocheck junk (real_kernel O n) (Opts false None jobs) channel inputs (Ok tt) -> typable_program srcs).
Proof. intros Hs Hw. apply (whole_accepts junk O false jobs channel inputs srcs); [exact Hs|]. apply (rec_seq_decides P HP); [exact (source_of_nonempty _ _ _ Hs)|exact Hw]. Qed.
Theorem main_rec_web P (HP : normal_class P) junk O modules srcs : Forall2 (web_source junk) modules srcs -> sources_in P srcs ->
  exists n0 r, r <> Fuel /\ r <> Panic /\
    (forall n, n0 <= n -> forall r', web_check junk (real_kernel O n) (Opts false None false) modules r' <-> r' = r) /\
    (r = Ok tt <-> typable_program srcs).
Proof. intros Hs Hw. apply (whole_web junk O false modules srcs); [exact Hs|]. apply (rec_seq_decides P HP); [exact (web_source_nonempty _ _ _ Hs)|exact Hw]. Qed.
