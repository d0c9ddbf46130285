(** * A test for texts of programs with recursive functions *)

From Verif Require Import Base LibMono ModelTerm ModelGctx ModelCommand ModelSubst ModelReduce ModelInfer ModelSyntax ModelSymbols ModelShare ModelLex ModelParse ModelProcess
  SpecTerm SpecConv SpecConvFacts SpecTyping SpecRed SpecSN SpecType SpecQuery SpecProcess SpecDomain SpecTotal SpecDerive SpecDecide SpecRec SpecRecProg SpecSyntax SpecProgram SpecWhole SpecWholeRec RedConfl Erase Inv
  TypeFacts DomFacts DeriveFacts MainKernel MainGctx MainShare MainProcess MainRun MainVerify MainTyped MainTotal MainProgTotal MainDecide MainAlike ModelMain MainProgram SamplesProg SnBase SnRec MainDef MainRec MainWhole MainWholeRec RecCheck.

(** ** Signatures that differ in the types of symbols defined without types only *)
Definition defined (sg : sig) (c : nat) : Prop := exists r, rule_of sg c r /\ sr_args r = [].
Definition same (sg sg' : sig) : Prop :=
  (forall c, sg_type sg' c = sg_type sg c \/ defined sg c) /\ (forall c, sg_rules sg' c = sg_rules sg c) /\ sg_eta sg' = sg_eta sg /\ alike sg sg' /\ alike sg' sg.
Lemma same_rule sg sg' c r : same sg sg' -> rule_of sg c r -> rule_of sg' c r.
Proof. intros (_ & H & _) (rs & H1 & H2). exists rs. rewrite H. auto. Qed.
Lemma same_defined sg sg' c : same sg sg' -> defined sg c -> defined sg' c.
Proof. intros S (r & H1 & H2). exists r. split; [eapply same_rule; eassumption|exact H2]. Qed.
Lemma same_sym sg sg' : same sg sg' -> same sg' sg.
Proof.
  intros S. pose proof S as (H1 & H2 & H3 & H4 & H5). split; [|auto]. intros c. destruct (H1 c) as [H|H]; [left; symmetry; exact H|right; eapply same_defined; eassumption].
Qed.
Lemma same_no_rule sg sg' c : same sg sg' -> no_rule sg c -> no_rule sg' c.
Proof. intros S H r Hr. apply (H r). eapply same_rule; [apply same_sym; exact S|exact Hr]. Qed.
Lemma same_type sg sg' c A : same sg sg' -> no_rule sg c -> sg_type sg c = Some A -> sg_type sg' c = Some A.
Proof. intros (H & _) Hn HA. destruct (H c) as [E|(r & Hr & _)]; [congruence|destruct (Hn _ Hr)]. Qed.
Lemma same_base sg sg' t : same sg sg' -> base sg t -> base sg' t.
Proof. intros S (c & H1 & H2). exists c. split; [exact H1|eapply same_no_rule; eassumption]. Qed.
Lemma same_first_order sg sg' t : same sg sg' -> first_order sg t -> first_order sg' t.
Proof. intros S. induction 1; [apply fo_base|apply fo_pi]; eauto using same_base. Qed.
Lemma same_data sg sg' p : same sg sg' -> data sg p -> data sg' p.
Proof.
  intros S. induction p as [c ps IH|m|] using pat_ind'; intros H; inversion H; subst; [|constructor|constructor].
  eapply data_symb; [eapply same_no_rule; eassumption|eapply same_type; eassumption|eapply same_first_order; eassumption|].
  rewrite Forall_forall in *. eauto.
Qed.
Lemma same_complete sg sg' : same sg sg' -> complete sg -> complete sg'.
Proof.
  intros S (H1 & core & E & Ho & H2 & H3). pose proof (same_sym _ _ S) as S'. split; [intros c r Hr; eapply H1, same_rule; eassumption|].
  exists core. split; [destruct S as (_ & _ & -> & _); exact E|]. split; [exact Ho|]. split; [intros c r Hr; eapply same_rule; [exact S|auto]|]. intros c r Hr. apply H3. eapply same_rule; eassumption.
Qed.
Lemma same_left_linear sg sg' : same sg sg' -> left_linear sg -> left_linear sg'.
Proof. intros (_ & E & _) H c rs r Hc. rewrite E in Hc. apply (H c rs r Hc). Qed.
(** What the rules of a symbol with arguments say may depend on the type of the symbol. *)
Lemma same_rules sg sg' (Q Q' : nat -> srule -> Prop) n c : same sg sg' -> (forall r, Q c r -> length (sr_args r) = n) ->
  (forall r, sg_type sg' c = sg_type sg c -> Q c r -> Q' c r) ->
  (forall r, rule_of sg c r -> sr_args r = []) \/ (forall r, rule_of sg c r -> Q c r) -> (forall r, rule_of sg' c r -> sr_args r = []) \/ (forall r, rule_of sg' c r -> Q' c r).
Proof.
  intros S Hn HQ H. pose proof (same_sym _ _ S) as S'. destruct H as [H|H]; [left; intros r Hr; eapply H, same_rule; eassumption|].
  destruct (proj1 S c) as [E|(r0 & Hr0 & E0)]; [right; intros r Hr; apply (HQ _ E), H; eapply same_rule; eassumption|]. left. intros r Hr.
  pose proof (Hn _ (H _ Hr0)) as N0. rewrite E0 in N0. pose proof (Hn _ (H _ (same_rule _ _ _ _ S' Hr))) as N. destruct (sr_args r); [reflexivity|cbn in *; congruence].
Qed.
Lemma same_structural sg sg' : same sg sg' -> structural sg -> structural sg'.
Proof.
  intros S (H1 & H2 & n & k & H3). split; [eapply same_left_linear; eassumption|]. split; [eapply same_complete; eassumption|].
  exists n, k. intros c. refine (same_rules sg sg' (fun c r => structural_rule sg c (n c) (k c) r) (fun c r => structural_rule sg' c (n c) (k c) r) (n c) c S _ _ (H3 c)).
  - intros r (_ & E & _). exact E.
  - intros r Et ((A & E & B) & L & D & G). split; [exists A; split; [congruence|eapply same_base; eassumption]|]. split; [exact L|]. split; [|exact G].
    rewrite Forall_forall in *. eauto using same_data.
Qed.
Lemma same_ctx sg sg' G : same sg sg' -> type_ctx sg G -> type_ctx sg' G.
Proof. intros (_ & _ & _ & S & _). induction 1; constructor; [assumption|]. eapply alike_wt; eassumption. Qed.
Lemma same_annotated sg sg' v : same sg sg' -> annotated sg v -> annotated sg' v.
Proof.
  intros S (H1 & H2 & H3). split; [exact H1|]. split.
  - intros Hc. destruct (H2 Hc) as (D & H4 & H5). exists D. split; [exact H4|eapply same_ctx; eassumption].
  - intros Hc. destruct (H3 Hc) as (r & Hn & Hj & D & l & A & K1 & K2 & K3 & K4 & K5). exists r. split; [exact Hn|]. split; [exact Hj|]. exists D, l, A.
    split; [exact K1|]. split; [eapply same_ctx; eassumption|]. split; [exact K3|]. destruct S as (_ & _ & _ & S & _). split; eapply alike_wt; eassumption.
Qed.

Lemma extends_mono sg c A rs sg' : sg_rules sg c = None -> extends sg c A rs sg' -> sig_mono sg sg'.
Proof.
  intros Hn (H0 & T & R & E). split; [|split; [|exact E]].
  - intros d B. rewrite T. destruct (Nat.eqb_spec d c) as [->|]; [congruence|auto].
  - intros d l r. rewrite R. destruct (Nat.eqb_spec d c) as [->|]; [congruence|eauto].
Qed.
Lemma typable_extends sg c it sg' : typable sg (VIntro c it) sg' -> exists A rs s, extends sg c A rs sg' /\ (s = Typ \/ s = Kind) /\ well_typed sg [] (strip A) s.
Proof.
  intros H. inversion H as [? ? A ? (_ & s & Hs & Hd) Hx|? A ? (_ & s & Hs & Hd) Hx|? A ? ? (_ & s & Hs & Hd) _ Hx|? A ? ? (_ & _ & s & Hs & Hw) Hx|? A ? ? (_ & s & Hs & Hd) _ Hx]; subst.
  all: do 3 eexists; split; [exact Hx|]; split; [exact Hs|]; first [exact Hw|exact (derives_wt _ _ _ _ Hd)].
Qed.
Lemma alike_step sg0 sg cmd sg0' sg' : (forall c, sg_type sg c = None -> sg_rules sg c = None) -> alike sg0 sg -> alike sg' sg0' ->
  typable_cmd sg0 cmd sg0' -> typable_cmd sg cmd sg' -> alike sg0' sg'.
Proof.
  intros Ht Ha (E' & R' & N' & T') H0 H.
  assert (X : sig_mono sg sg' /\ forall d A, sg_type sg0' d = Some A -> exists s, (s = Typ \/ s = Kind) /\ well_typed sg [] (strip A) s).
  { inversion H0 as [c it ? X0|rs ? _ X0]; subst; inversion H as [? ? ? X|? ? _ X]; subst.
    - apply typable_extends in X0 as (A0 & rs0 & s0 & (_ & Y1 & _) & Y2 & Y3). apply typable_extends in X as (A1 & rs1 & s1 & Z & _).
      split; [eapply extends_mono; [apply Ht; apply Z|exact Z]|]. intros d A. rewrite Y1. destruct (d =? c); [intros [= <-]; exists s0; split; [exact Y2|eapply alike_wt; eassumption]|].
      intros HA. destruct Ha as (_ & _ & _ & Ha). destruct (Ha _ _ HA) as (? & s & _ & _ & K1 & K2). eauto.
    - split; [eapply rules_mono; eassumption|]. destruct X0 as (_ & Y1 & _). intros d A. rewrite Y1. intros HA. destruct Ha as (_ & _ & _ & Ha). destruct (Ha _ _ HA) as (? & s & _ & _ & K1 & K2). eauto. }
  destruct X as [M X]. split; [congruence|]. split; [intros c; symmetry; apply R'|]. split.
  - intros c Hc. destruct (sg_type sg' c) as [A|] eqn:EA; [|reflexivity]. destruct (T' _ _ EA) as (A0 & s & K & _). congruence.
  - intros c A0 H1. destruct (sg_type sg' c) as [A|] eqn:EA; [|rewrite (N' _ EA) in H1; discriminate]. destruct (T' _ _ EA) as (A0' & s & K1 & K2 & _). rewrite H1 in K1. injection K1 as <-.
    destruct (X _ _ H1) as (s' & K3 & K4). exists A, s'. split; [reflexivity|]. split; [|split; [exact K3|eapply wt_mono; eassumption]].
    apply conv_sym. clear - E' R' K2. induction K2; try (econstructor; eauto; congruence).
Qed.
Lemma same_step sg0 sg cmd sg0' sg' : same sg0 sg -> (forall c, sg_type sg0 c = None -> sg_rules sg0 c = None) -> alike sg' sg0' ->
  typable_cmd sg0 (er_cmd cmd) sg0' -> typable_cmd sg (er_cmd cmd) sg' -> same sg0' sg'.
Proof.
  intros (T & R & E & A1 & A2) Ht Hal H H'.
  assert (Hal' : alike sg0' sg').
  { eapply alike_step; [|exact A1|exact Hal|exact H|exact H']. intros c Hc. rewrite R. apply Ht. apply A2. exact Hc. }
  assert (X : forall d, sg_type sg' d = sg_type sg0' d \/ defined sg0' d); [|split; [exact X|]; split; [intros c; symmetry; apply Hal|]; split; [symmetry; apply Hal|auto]].
  destruct cmd as [c it|rs]; cbn [er_cmd] in H, H'; inversion H as [? ? ? X|? ? _ X]; subst; inversion H' as [? ? ? X'|? ? _ X']; subst.
  - assert (Y : forall A A' rs, extends sg0 c A rs sg0' -> extends sg c A' rs sg' -> A' = A \/ defined sg0' c -> forall d, sg_type sg' d = sg_type sg0' d \/ defined sg0' d).
    { intros A A' rs Hx (_ & T2 & R2 & E2) Hc d. pose proof Hx as (N & T1 & R1 & E1). rewrite T1, T2. destruct (Nat.eqb_spec d c) as [->|Hd]; [destruct Hc as [->|Hc]; auto|].
      destruct (T d) as [Hd'|(r & (l & L1 & L2) & L3)]; [left; exact Hd'|right]. exists r. split; [|exact L3]. exists l. rewrite R1. destruct (Nat.eqb_spec d c); [contradiction|]. auto. }
    destruct it as [[A|] [t|]|A t|inj A]; cbn in X, X'; inversion X; subst; inversion X'; subst; try (eapply Y; [eassumption|eassumption|left; reflexivity]).
    eapply Y; [eassumption|eassumption|]. right. exists (MkSRule 0 [] (erl t)). split; [|reflexivity]. match goal with Hx : extends sg0 c _ _ sg0' |- _ => destruct Hx as (_ & _ & R1 & _) end.
    eexists. rewrite R1, Nat.eqb_refl. split; [reflexivity|]. split; [left; reflexivity|]. intros m. cbn. split; [lia|intros []].
  - destruct X as (_ & T1 & R1 & E1), X' as (_ & T2 & R2 & E2). intros d. rewrite T1, T2. destruct (T d) as [Hd|(r & (l & L1 & L2 & L3) & L4)]; [left; exact Hd|right].
    exists r. split; [|exact L4]. eexists. rewrite R1, L1. split; [reflexivity|]. split; [apply in_or_app; auto|exact L3].
Qed.
Lemma typable_snoc sg vs v sg2 : typable_cmds sg (vs ++ [v]) sg2 -> exists sg1, typable_cmds sg vs sg1 /\ typable_cmd sg1 v sg2.
Proof.
  revert sg. induction vs as [|w vs IH]; cbn; intros sg H; inversion H as [|? ? sg1 ? ? H1 H2]; subst.
  - inversion H2; subst. exists sg. split; [constructor|exact H1].
  - destruct (IH _ H2) as (sg3 & H3 & H4). exists sg3. split; [econstructor; eassumption|exact H4].
Qed.

Section Program.
  Variable P : sig -> Prop.
  Hypothesis HP : normal_class P.
  Hypothesis Hsame : forall sg sg', same sg sg' -> P sg -> P sg'.
  Variables (O : query -> nat -> bool) (PE : Type) (jobs : bool).
  Let o := Opts false None jobs.
  Notation seq n := (infer_checks_seq PE (real_kernel O n) o _ (consume_item PE o)).

  Lemma share_state_snoc pre ev st : share_state (pre ++ [ev]) st = fst (from_event ev (share_state pre st)).
  Proof. revert st. induction pre as [|e pre IH]; intros st; cbn; [reflexivity|apply IH]. Qed.

  Lemma typable_accepted evs : program_in P O PE o evs -> forall pre post cmds sg, evs = pre ++ post ->
    share_results pre (pst_new o) = map Ok cmds -> typable_cmds (empty_sig false) (map er_cmd cmds) sg ->
    exists st, accepted O PE o pre st /\ same_syms st (share_state pre (pst_new o)) /\ same (er_gctx (ps_gc st)) sg /\ proper_gctx (ps_gc st).
  Proof.
    intros Hst. induction pre as [|ev pre IH] using rev_ind; intros post cmds sg E Hs Ht.
    - destruct cmds; [|discriminate]. inversion Ht; subst. exists (pst_new o). split; [exists 0; reflexivity|]. split; [split; reflexivity|].
      split; [|apply (dinv_new false jobs)]. split; [left; reflexivity|]. split; [reflexivity|]. split; [reflexivity|]. split; apply alike_refl; intros c A; discriminate.
    - rewrite <- app_assoc in E. cbn in E. rewrite share_results_app in Hs. cbn [share_results] in Hs. rewrite share_state_snoc.
      destruct ev as [path|cmd]; cbn [from_event] in Hs |- *.
      + rewrite app_nil_r in Hs. destruct (IH _ _ _ E Hs Ht) as (st & [k A] & S & Hsm & Hp). exists (PSt (set_path (ps_syms st) path) (ps_next st) (ps_gc st)).
        split; [|split; [exact (proj1 (from_event_same (EvModule path) st _ S))|split; [exact Hsm|exact Hp]]].
        exists k. rewrite map_app. etransitivity; [apply (seq_app O PE false jobs k (map Ok pre) (map Ok [EvModule path]) (pst_new o) st A)|]. reflexivity.
      + destruct (share cmd (share_state pre (pst_new o))) as [st2 r2] eqn:Es2. cbn [fst] in *.
        assert (X : exists cmds0 cmd', cmds = cmds0 ++ [cmd'] /\ share_results pre (pst_new o) = map Ok cmds0 /\ r2 = Ok cmd').
        { clear - Hs. destruct cmds as [|cmd' cmds0 _] using rev_ind; [destruct (share_results pre (pst_new o)); discriminate|]. exists cmds0, cmd'.
          rewrite map_app in Hs. apply app_inj_tail in Hs as [H1 H2]. auto. }
        destruct X as (cmds0 & cmd' & -> & Hs0 & ->). rewrite map_app in Ht. apply typable_snoc in Ht as (sg1 & Ht0 & Hcmd).
        destruct (IH _ _ _ E Hs0 Ht0) as (st & A & S & Hsm & Hp). destruct (Hst pre cmd post st E A) as [Hstr Hty].
        assert (Hb : rinv st).
        { destruct A as [k A]. apply (accepted_built P HP O PE jobs pre) with (k := k); [|exact A]. apply (program_prefix P O PE jobs pre (EvCommand cmd :: post)). fold o. rewrite <- E. exact Hst. }
        pose proof Hb as (I1 & I2 & I3 & I4). destruct (built_terminating P HP _ I1 Hstr) as [Hgc Hcr].
        destruct (from_event_same (EvCommand cmd) st _ S) as [S' Er]. cbn [from_event] in S', Er. rewrite Es2 in S', Er. pose proof (share_gc cmd st) as Hg. pose proof (share_proper cmd st) as Hsp.
        destruct (share cmd st) as [st1 r1] eqn:Es1. cbn in S', Er, Hg. injection Er as ->. destruct (Hty _ _ eq_refl) as [Hty' Har].
        destruct (step_decides O false jobs (ps_gc st) cmd' Hgc Hcr I2 Hp Hty' (Hsp _ _ eq_refl)) as (n1 & gc' & r & H & Hr). fold o in H.
        assert (Hal : alike sg1 (er_gctx (ps_gc st))) by apply Hsm.
        destruct r as [[]|e| |]; try contradiction; [|destruct (Hr _ _ Hal Hcmd)]. destruct Hr as ((_ & Hp') & Htp & Hal2).
        exists (PSt (ps_syms st1) (ps_next st1) gc'). split; [|split; [exact S'|split; [|exact Hp']]].
        * destruct A as [k A]. exists (Nat.max k n1).
          assert (Ak : seq (Nat.max k n1) (map Ok pre) (pst_new o) = (st, [], Ok tt)).
          { etransitivity; [apply (seq_mono O k (Nat.max k n1) ltac:(lia) PE o (map Ok pre) (pst_new o)); fold o; rewrite A; discriminate|exact A]. }
          rewrite map_app. etransitivity; [apply (seq_app O PE false jobs _ _ (map Ok [EvCommand cmd]) _ _ Ak)|].
          cbn [map infer_checks_seq consume_item omits o_omit o from_event].
          rewrite Es1. cbn [option_map res_err filter_infer omits o_omit o]. rewrite Hg. pose proof (H (Nat.max k n1) ltac:(lia)) as Hk. unfold o in Hk. rewrite Hk. reflexivity.
        * eapply same_step; [exact Hsm| |exact (Hal2 _ _ Hal Hcmd)|exact Htp|exact Hcmd]. intros c. cbn. intros Hc. rewrite I2; [reflexivity|]. destruct (get_type (ps_gc st) c); [discriminate|reflexivity].
  Qed.
  Lemma typed_annotated gc rs : cmd_typed gc (CRules rs) -> cmd_args (CRules rs) -> Forall (annotated (er_gctx gc)) (map (fun r => er_vrule r) rs).
  Proof.
    cbn. rewrite Forall_map, !Forall_forall. intros H Ha r Hr. specialize (H _ Hr). split; [|split].
    - cbn. intros Em. apply (Ha _ Hr). destruct (tp_args (r_lhs r)); [reflexivity|discriminate].
    - intros Hc. destruct (checked_try _ Hc) as [r' E]. rewrite E in H. destruct (try_ctx _ _ E) as (H1 & _). eauto.
    - intros Hc. rewrite <- er_rule_v. destruct (rule_try r) as [r'|e| |] eqn:E; [destruct Hc; eapply try_checked; eassumption|..]; exact H.
  Qed.
  Lemma structural_recursive evs : program_in P O PE o evs -> recursive_events P jobs evs.
  Proof.
    intros Hst pre cmd post cmds sg E Hs Ht. destruct (typable_accepted evs Hst pre _ cmds sg E Hs Ht) as (st & A & S & Hsm & Hp).
    destruct (Hst pre cmd post st E A) as [Hstr Hty]. split; [eapply Hsame; eassumption|]. intros rs Hsh.
    destruct (from_event_same (EvCommand cmd) st _ S) as [_ Er]. cbn [from_event] in Er. fold o in Hsh.
    destruct (share cmd (share_state pre (pst_new o))) as [st2 r2]. destruct (share cmd st) as [st1 r1]. cbn in Er, Hsh. injection Er as ->. subst r2.
    destruct (Hty _ _ eq_refl) as [Hty' Har]. pose proof (typed_annotated _ _ Hty' Har) as H. rewrite Forall_forall in *. eauto using same_annotated.
  Qed.
End Program.

Lemma share_recursive P srcs jobs : Forall (fun src => Forall nonempty (snd src)) srcs -> recursive_events P jobs (program_events srcs) -> sources_in P srcs.
Proof.
  intros Hn Hr srcs1 m cs1 c cs2 srcs2 vs sg -> He Ht. set (o := Opts false None jobs).
  rewrite Forall_app in Hn. destruct Hn as [N1 N2]. inversion N2 as [|? ? N3 N4]; subst. cbn in N3. rewrite Forall_app in N3. destruct N3 as [N3 N5]. inversion N5 as [|? ? N6 N7]; subst.
  assert (Hn1 : Forall (fun src : source => Forall nonempty (snd src)) (srcs1 ++ [(m, cs1)])) by (apply Forall_app; split; [exact N1|repeat constructor; exact N3]).
  assert (Hn2 : Forall (fun src : source => Forall nonempty (snd src)) (srcs1 ++ [(m, cs1 ++ [c])])).
  { apply Forall_app; split; [exact N1|]. constructor; [|constructor]. cbn. apply Forall_app. split; [exact N3|repeat constructor; exact N6]. }
  destruct (elab_sources_share _ Hn1 [] 0 (pst_new o) vs (at_hist_new _) He) as (cmds & Hs & Ev).
  assert (Ee : program_events (srcs1 ++ [(m, cs1 ++ [c])]) = program_events (srcs1 ++ [(m, cs1)]) ++ [EvCommand (scope_command c)]).
  { rewrite !events_app, <- app_assoc. f_equal. cbn. rewrite !app_nil_r, map_app. reflexivity. }
  destruct (Hr (program_events (srcs1 ++ [(m, cs1)])) (scope_command c) (map (fun c => EvCommand (scope_command c)) cs2 ++ program_events srcs2) cmds sg) as [H1 H2].
  - rewrite !events_app, <- !app_assoc. f_equal. cbn. rewrite !app_nil_r, map_app, <- app_assoc. reflexivity.
  - exact Hs.
  - rewrite Ev. exact Ht.
  - split; [exact H1|]. intros rs He2. destruct (elab_sources_share _ Hn2 [] 0 (pst_new o) _ (at_hist_new _) He2) as (cmds2 & Hs2 & Ev2).
    rewrite Ee, share_results_app, Hs in Hs2. cbn in Hs2. destruct cmds2 as [|cmd2 cmds2 _] using rev_ind; [destruct vs; discriminate|].
    rewrite !map_app in *. apply app_inj_tail in Ev2 as [_ Ev2]. cbn in Ev2. destruct cmd2 as [c' it|rs']; cbn in Ev2; [discriminate|]. injection Ev2 as <-.
    apply H2. destruct (share (scope_command c) _) as [st r]. cbn in Hs2 |- *. apply app_inj_tail in Hs2 as [_ Hs2]. exact Hs2.
Qed.

(** The test of [RecCheck] *)
Definition eventsb (classb : gctx -> bool) (O : query -> nat -> bool) (uniq : nat -> bool) (n : nat) (evs : list event) : bool :=
  programb classb O parse_error false uniq n evs (pst_new (Opts false None false)).
Section Events.
  Variable P : sig -> Prop.
  Hypothesis HP : normal_class P.
  Hypothesis Hsame : forall sg sg', same sg sg' -> P sg -> P sg'.
  Variable classb : gctx -> bool.
  Hypothesis classb_ok : forall gc, classb gc = true -> P (er_gctx gc).
  Theorem main_class_events junk O uniq n inputs srcs : Forall2 (source_of junk) inputs srcs -> eventsb classb O uniq n (program_events srcs) = true -> sources_in P srcs.
  Proof.
    intros Hs H. apply (share_recursive P srcs false (source_of_nonempty _ _ _ Hs)). apply (structural_recursive P HP Hsame O parse_error false).
    eapply main_classb; eassumption.
  Qed.
  Lemma class_sources junk O uniq n inputs files evs : Forall2 (opens junk) inputs files -> files_events parse_error files = Some evs -> eventsb classb O uniq n evs = true ->
    exists srcs, Forall2 (source_of junk) inputs srcs /\ sources_in P srcs.
  Proof.
    intros H1 H2 H3. destruct (opens_sources _ _ _ H1 _ H2) as (srcs & H4 & ->). exists srcs. split; [exact H4|eapply main_class_events; eassumption].
  Qed.
End Events.
Definition main_eventsb := main_class_events structural structural_class same_structural structuralb structuralb_ok.
Definition rec_sources := class_sources structural structural_class same_structural structuralb structuralb_ok.
