(** * Lemmas for C43-C46: programs *)

From Verif Require Import Base ModelTerm ModelGctx ModelCommand ModelInfer ModelSyntax ModelLex ModelParse ModelMake ModelPath
  ModelSymbols ModelShare ModelProcess ModelMain
  SpecTerm SpecConv SpecTyping SpecQuery SpecParse SpecSyntax SpecSymbols SpecShare SpecProcess SpecMake SpecProgram Erase
  ParseAuto ParseLex ParseTerm ParseCmd ParsePrint ParseScope MainParse MainLines MainReads MainMake MainPath MainSymbols MainShare MainProcess MainRun MainVerify.

(** ** The grammar of the lazy parser *)
Local Notation srunS := (srun symb scope_symb).
Local Notation lrunS := (lrun symb scope_symb).

Lemma srun_sinv toks : Forall (fun t => is_comment t = false) toks -> forall pre st ctx st' ctx' rest, sinv pre st ctx ->
  srunS st ctx toks = (RState symb st' ctx', rest) -> sinv (pre ++ toks) st' ctx'.
Proof.
  intros H. induction H as [|tok toks Hc H IH]; intros pre st ctx st' ctx' rest Hi.
  - cbn. intros [= <- <- _]. rewrite app_nil_r. exact Hi.
  - rewrite srun_cons by exact Hc. pose proof (sstep_sound pre st ctx tok Hc Hi) as Hs.
    destruct (sstep symb scope_symb st ctx tok) as [st1 ctx1|c1 ctx1|e ctx1|ctx1]; cbn [s_then]; try discriminate.
    intros E. change (tok :: toks) with ([tok] ++ toks). rewrite app_assoc. eapply IH; eassumption.
Qed.

Lemma comment_last_app t1 t2 : comment_last (t1 ++ t2) -> comment_last t2.
Proof. intros H a k b ->. apply (H (t1 ++ a) k b). rewrite app_assoc. reflexivity. Qed.

(** a list of tokens contains no comment, or ends with an open comment *)
Lemma comment_last_cases toks : comment_last toks ->
  Forall (fun t => is_comment t = false) toks \/ exists a k, toks = a ++ [TComment (S k)].
Proof.
  induction toks as [|tok toks IH]; intros H; [left; constructor|].
  destruct (is_comment tok) eqn:Et.
  - right. destruct tok as [ | | | | | | | | | | | | | | |s1|[|o1]|]; try discriminate.
    + destruct (H [] 0 toks eq_refl) as [_ H']. congruence.
    + destruct (H [] (S o1) toks eq_refl) as [-> _]. exists [], o1. reflexivity.
  - destruct (IH (comment_last_tail _ _ H)) as [H'|(a & k & ->)].
    + left. constructor; assumption.
    + right. exists (tok :: a), k. reflexivity.
Qed.

Lemma sinv_cinit pre st ctx : sinv pre st ctx -> ps_cmd st = CInit -> gpragmas pre.
Proof.
  intros (p & q & -> & Hp & Hq) E. rewrite E in Hp, Hq. cbn in Hq. destruct Hq as (-> & _). rewrite app_nil_r.
  inversion Hp; subst. assumption.
Qed.

Lemma srun_cmd_clean toks c ctx' rest : ~ In (TComment 0) toks ->
  srunS pstate_default tctx_default toks = (RCmd symb c ctx', rest) -> ctx' = tctx_default.
Proof. intros Hn E. apply (srun_sound _ Hn [] _ _ _ _ _ sinv_init E). Qed.

Lemma comment_last_0 toks : comment_last toks -> ~ In (TComment 0) toks.
Proof. intros H Hi. apply in_split in Hi as (a & b & ->). destruct (H a 0 b eq_refl) as [_ H']. congruence. Qed.

Lemma lrun_gsource n : forall toks, length toks <= n -> comment_last toks -> forall st' o' ctx' buf,
  lrunS pstate_default tctx_default [] 0 toks = (Ok (st', o'), ctx', buf) -> fin symb st' o' = None ->
  gsource toks (rev buf).
Proof.
  induction n as [|n IH]; intros toks Hl Hc st' o' ctx' buf E Hf.
  - destruct toks; [|cbn in Hl; lia]. cbn in E. injection E as <- <- <- <-. constructor. constructor.
  - destruct toks as [|tok toks]; [cbn in E; injection E as <- <- <- <-; constructor; constructor|].
    pose proof (lrun_srun symb scope_symb (tok :: toks) Hc pstate_default tctx_default 0) as Hr.
    pose proof (srun_shorter symb scope_symb (tok :: toks) pstate_default tctx_default ltac:(discriminate)) as Hlt.
    destruct (srunS pstate_default tctx_default (tok :: toks)) as [[st1 ctx1|c ctx1|e ctx1|ctx1] rest] eqn:Es; cbn [fst snd] in *.
    + destruct Hr as [x Hx]. rewrite E in Hx. injection Hx as -> -> -> ->. constructor.
      unfold fin in Hf. destruct (ps_cmd st1) eqn:Ec; try discriminate. destruct x; [|discriminate].
      destruct (comment_last_cases _ Hc) as [Hn|(a & k & Ea)].
      * pose proof (srun_sinv _ Hn [] _ _ _ _ _ sinv_init Es) as Hi. exact (sinv_cinit _ _ _ Hi Ec).
      * exfalso. rewrite Ea, lrun_app in E. destruct (lrunS pstate_default tctx_default [] 0 a) as [[[[st2 o2]|e| |] ctx2] buf2]; discriminate.
    + destruct Hr as [Hr Hc1]. rewrite E in Hr. pose proof (srun_cmd_clean _ _ _ _ (comment_last_0 _ Hc) Es) as ->.
      destruct (srun_sound _ (comment_last_0 _ Hc) [] _ _ _ _ _ sinv_init Es) as (_ & p & ts & E1 & Hp & Hg). cbn [app] in E1.
      rewrite E1. rewrite lrun_buf in Hr. destruct (lrunS pstate_default tctx_default [] 0 rest) as [[r2 ctx2] b2] eqn:E2.
      injection Hr as <- <- ->. rewrite rev_app_distr. cbn [rev app]. constructor; [exact Hp|exact Hg|].
      eapply IH; [|exact Hc1|exact E2|exact Hf]. lia.
    + rewrite E in Hr. discriminate.
    + rewrite E in Hr. discriminate.
Qed.

Lemma gpragmas_comments ps : gpragmas ps -> Forall (fun t => is_comment t = false) ps.
Proof.
  intros H. induction H as [|ts ts' Hts H IH]; [constructor|]. constructor; [reflexivity|]. apply Forall_app. split.
  - eapply Forall_impl; [|exact Hts]. intros t [_ Ht]. destruct t; try reflexivity. exfalso. eapply Ht. reflexivity.
  - constructor; [reflexivity|exact IH].
Qed.

Lemma gsource_lrun toks cs : gsource toks cs -> comment_last toks ->
  lrunS pstate_default tctx_default [] 0 toks = (Ok (pstate_default, 0), tctx_default, rev cs).
Proof.
  intros H. induction H as [ps Hp|ps ts c ts' cs Hp Hg H IH]; intros Hc.
  - pose proof (lrun_srun symb scope_symb ps Hc pstate_default tctx_default 0) as Hr.
    pose proof (srun_pragmas ps Hp []) as E. rewrite app_nil_r in E. rewrite E in Hr. cbn in Hr. destruct Hr as [x Hx].
    rewrite (lrun_no_comment symb scope_symb ps (gpragmas_comments ps Hp) _ _ _ _ _ _ _ Hx) in Hx. exact Hx.
  - pose proof (lrun_srun symb scope_symb (ps ++ ts ++ ts') Hc pstate_default tctx_default 0) as Hr.
    rewrite (srun_pragmas ps Hp), (srun_command ts c Hg) in Hr. destruct Hr as [-> Hc'].
    rewrite lrun_buf, (IH Hc'). reflexivity.
Qed.

Lemma gsource_det toks cs cs' : comment_last toks -> gsource toks cs -> gsource toks cs' -> cs = cs'.
Proof.
  intros Hc H H'. apply gsource_lrun in H; [|exact Hc]. apply gsource_lrun in H'; [|exact Hc]. rewrite H in H'.
  injection H' as E. rewrite <- (rev_involutive cs), E. apply rev_involutive.
Qed.

(** exactly the texts of this grammar are accepted *)
Lemma main_source junk lines cs :
  outcome (lazy_next scope_symb junk) (lazy_new lines) cs None <-> exists toks, reads junk 0 lines toks /\ gsource toks cs.
Proof.
  destruct (reads_total junk lines 0) as [toks Ht].
  pose proof (lazy_reads junk symb scope_symb lines 0 toks Ht pstate_default tctx_default (ok_default symb)) as H2.
  fold (lazy_new lines : lazy symb) in H2.
  pose proof (reads_comment_last junk _ _ _ Ht) as Hc.
  pose proof (strict_lrun symb scope_symb (length toks) toks tctx_default (le_n _) Hc) as H1. split.
  - intros H. exists toks. split; [exact Ht|].
    destruct (lrunS pstate_default tctx_default [] 0 toks) as [[[[st1 o1]|e| |] ctx1] buf1] eqn:E; cbn [lazy_agrees strict_agrees] in H1, H2.
    + destruct (outcome_det _ _ _ _ H2 _ _ H) as [-> Hf]. eapply lrun_gsource; eauto.
    + destruct H2 as (l1 & l2 & _ & H2). destruct (outcome_det _ _ _ _ H2 _ _ H) as [_ Hf]. discriminate.
    + contradiction.
    + contradiction.
  - intros (toks' & Ht' & H). rewrite (reads_det junk _ _ _ Ht' _ Ht) in H.
    rewrite (gsource_lrun _ _ H Hc) in H2. cbn [lazy_agrees] in H2. rewrite rev_involutive in H2. exact H2.
Qed.

(** ** Sharing is elaboration *)
Lemma denotes_ext R R' t : (forall s, R s = R' s) -> forall u, denotes R t u -> denotes R' t u.
Proof.
  intros HR. induction t as [h args Hh Hargs] using pterm_ind'. intros u Hu.
  inversion Hu as [h1 args1 t ts D1 F1]; subst. clear Hu. constructor.
  - destruct h as [[c|n|]|x [ty|] tm|x ty tm]; cbn in Hh; inversion D1; subst; try (constructor; fail).
    + constructor. rewrite <- HR. assumption.
    + destruct Hh. constructor; auto.
    + destruct Hh. constructor; auto.
    + destruct Hh. constructor; auto.
  - clear - F1 Hargs. induction F1; constructor; inversion Hargs; subst; auto.
Qed.
Lemma elab_opt_ext R R' o o' : (forall s, R s = R' s) -> elab_opt R o o' -> elab_opt R' o o'.
Proof. intros HR H. inversion H; subst; constructor. eapply denotes_ext; eauto. Qed.
Lemma elab_intro_ext R R' it it' : (forall s, R s = R' s) -> elab_intro R it it' -> elab_intro R' it it'.
Proof. intros HR H. inversion H; subst; constructor; eauto using denotes_ext, elab_opt_ext. Qed.
Lemma elab_rule_ext R R' r r' : (forall s, R s = R' s) -> elab_rule R r r' -> elab_rule R' r r'.
Proof.
  intros HR H. destruct H. econstructor; eauto using denotes_ext.
  match goal with H : Forall2 _ _ _ |- _ => induction H; constructor; eauto using elab_opt_ext end.
Qed.

Lemma names_resolve ops : meaning_in ops (resolve (symhist ops)).
Proof. intros s c. unfold resolve. apply main_get. Qed.
Lemma names_eq ops R : meaning_in ops R -> forall s, R s = resolve (symhist ops) s.
Proof.
  intros H s. pose proof (names_resolve ops s) as H'. destruct (resolve (symhist ops) s) as [c|] eqn:E.
  - apply H. apply H'. reflexivity.
  - destruct (R s) as [c|] eqn:E'; [|reflexivity]. apply H in E'. apply H' in E'. discriminate.
Qed.

(** definitions have a type or a term *)
Definition nonempty (c : pcommand (pterm symb)) : Prop :=
  forall x args it, scope_command c = PIntro x args it -> it <> IDefinition None None.

Section Elab.
  Variable syms : symbols.
  Notation R := (resolve syms).
  Notation er_intro it := (map_type erl (map_term erl it)).

  Lemma den_opt_elab o o' : den_opt syms o o' -> elab_opt R o (option_map erl o').
  Proof. destruct o, o'; cbn; try contradiction; constructor; assumption. Qed.
  Lemma den_intro_elab it it' : den_intro syms it it' -> elab_intro R it (er_intro it').
  Proof.
    destruct it as [ty tm|ty tm|inj ty]; destruct it' as [ty' tm'|ty' tm'|inj' ty']; cbn [den_intro]; try contradiction.
    - intros [H1 H2]. apply den_opt_elab in H1, H2. destruct ty', tm'; cbn in *; constructor; assumption.
    - intros [H1 H2]. cbn. constructor; assumption.
    - intros [-> H]. cbn. constructor; assumption.
  Qed.
  Lemma elab_opt_det o o1 o2 : elab_opt R o o1 -> elab_opt R o o2 -> o1 = o2.
  Proof. intros H1 H2. inversion H1; subst; inversion H2; subst; [reflexivity|]. f_equal. eapply denotes_det; eauto. Qed.
  Lemma elab_intro_det it i1 i2 : elab_intro R it i1 -> elab_intro R it i2 -> i1 = i2.
  Proof.
    intros H1 H2. inversion H1; subst; inversion H2; subst; f_equal; eauto using elab_opt_det; eapply denotes_det; eauto.
  Qed.
  Lemma elab_opt_consts o o' : elab_opt R o o' -> Forall (fun s => R s <> None) (opt_consts o).
  Proof. intros H. inversion H; subst; cbn; [constructor|]. eapply denotes_resolved; eauto. Qed.
  Lemma elab_intro_consts it it' : elab_intro R it it' -> Forall (fun s => R s <> None) (intro_consts it).
  Proof.
    intros H. inversion H; subst; cbn [intro_consts]; try apply Forall_app; eauto using elab_opt_consts, denotes_resolved.
  Qed.

  Lemma share_elab_intro x args it x' r : it <> IDefinition None None ->
    share_command syms (PIntro x args it) = Ok (CIntro x' r) -> x' = x /\ elab_intro R (nest args it) (er_intro r).
  Proof.
    intros Hit E. apply (main_params syms x args it _ Hit) in E. apply main_share_intro_struct in E as [-> E].
    split; [reflexivity|]. apply den_intro_elab. exact E.
  Qed.
  Lemma elab_share_intro x args it it' : it <> IDefinition None None -> elab_intro R (nest args it) it' ->
    exists r, share_command syms (PIntro x args it) = Ok (CIntro x r) /\ er_intro r = it'.
  Proof.
    intros Hit H.
    assert (E : exists r, share_command syms (PIntro x [] (nest args it)) = Ok r).
    { apply main_share_intro. cbn [command_consts flat_map app]. eapply elab_intro_consts. exact H. }
    destruct E as [r E]. pose proof (proj2 (main_params syms x args it r Hit) E) as E'.
    destruct r as [x' r|rs].
    - apply main_share_intro_struct in E as [-> E]. exists r. split; [exact E'|]. eapply elab_intro_det; [|exact H]. apply den_intro_elab. exact E.
    - cbn in E. apply res_bind_ok in E as (? & _ & E). discriminate.
  Qed.

  Notation er_vrule r := (VRule (map (fun x => option_map erl (snd x)) (r_ctx r))
      (tp_symbol (r_lhs r)) (map erp (tp_args (r_lhs r))) (erl (r_rhs r))).
  Lemma share_elab_rule r r' : share_rule syms r = Ok r' -> elab_rule R r (er_vrule r').
  Proof.
    intros E. apply main_share_rule in E as (H1 & H2 & lhs & H3 & H4 & _). destruct r as [ctx l rhs]. cbn [pr_ctx pr_lhs pr_rhs] in *.
    econstructor; try eassumption. clear - H1. induction H1 as [|x y l l' [_ H] H1 IH]; constructor; [|exact IH].
    apply den_opt_elab. exact H.
  Qed.
  Lemma elab_rule_consts r v : elab_rule R r v -> Forall (fun s => R s <> None) (rule_consts r).
  Proof.
    intros H. destruct H as [ctx ctx' lhs lhs' c ps rhs rhs' H1 H2 H3 H4]. unfold rule_consts. cbn [pr_ctx pr_lhs pr_rhs].
    apply Forall_app. split; [|apply Forall_app; split; eapply denotes_resolved; eauto].
    clear - H1. revert ctx' H1. induction ctx as [|[x o] ctx IH]; intros ctx' H1; cbn; [constructor|].
    cbn in H1. inversion H1; subst. apply Forall_app. split; [|eauto]. eapply elab_opt_consts; eauto.
  Qed.
  Lemma elab_share_rule r v : elab_rule R r v -> exists r', share_rule syms r = Ok r' /\ er_vrule r' = v.
  Proof.
    intros H. pose proof (elab_rule_consts _ _ H) as Hc. destruct H as [ctx ctx' lhs lhs' c ps rhs rhs' H1 H2 H3 H4].
    destruct (main_share_rule_complete syms (MkPRule ctx lhs rhs) lhs' c ps Hc H2 H3) as (r' & E & <- & <-).
    exists r'. split; [exact E|]. apply main_share_rule in E as (F1 & F2 & _). cbn [pr_ctx pr_rhs] in *.
    rewrite (denotes_det _ _ _ _ F2 H4). f_equal.
    clear - F1 H1. revert ctx' H1. induction F1 as [|x y l l' [_ H] F1 IH]; intros ctx' H1; cbn in H1; inversion H1; subst; cbn; [reflexivity|].
    f_equal; [|eauto]. eapply elab_opt_det; [|eassumption]. apply den_opt_elab. exact H.
  Qed.
  Lemma map_res_forall2 {E A B} (f : A -> res E B) l : forall l', Forall2 (fun a b => f a = Ok b) l l' -> map_res f l = Ok l'.
  Proof. intros l' H. induction H as [|a b l l' H _ IH]; cbn; [reflexivity|]. rewrite H, IH. reflexivity. Qed.
  Lemma share_elab_rules rules r : share_command syms (PRules rules) = Ok r ->
    exists rules', r = CRules rules' /\ Forall2 (elab_rule R) rules (map (fun r => er_vrule r) rules').
  Proof.
    cbn. intros E. apply res_bind_ok in E as (rules' & E & [= <-]). exists rules'. split; [reflexivity|].
    apply map_res_ok in E. clear - E. induction E; cbn; constructor; auto using share_elab_rule.
  Qed.
  Lemma elab_share_rules rules vs : Forall2 (elab_rule R) rules vs ->
    exists rules', share_command syms (PRules rules) = Ok (CRules rules') /\ map (fun r => er_vrule r) rules' = vs.
  Proof.
    intros H. assert (E : exists rules', map_res (share_rule syms) rules = Ok rules' /\ map (fun r => er_vrule r) rules' = vs).
    { induction H as [|r v rules vs H _ (rules' & E & <-)]; [exists []; auto|]. destruct (elab_share_rule _ _ H) as (r' & E' & <-).
      exists (r' :: rules'). cbn. rewrite E', E. auto. }
    destruct E as (rules' & E & <-). exists rules'. cbn. rewrite E. auto.
  Qed.
End Elab.

(** the state that corresponds to a history *)
Definition at_hist (st : pst) (ops : list symop) (n : nat) : Prop := ps_syms st = symhist ops /\ ps_next st = n.

Lemma share_elab ops n c st st' cmd : at_hist st ops n -> nonempty c ->
  share (scope_command c) st = (st', Ok cmd) ->
  exists ops' n', elab_command ops n c (er_cmd cmd) ops' n' /\ at_hist st' ops' n'.
Proof.
  intros [Hs Hn] Hc. unfold share. destruct (scope_command c) as [x args it|rules] eqn:Ec.
  - destruct (share_command (ps_syms st) (PIntro x args it)) as [[id r|rs]|e| |] eqn:E; try discriminate.
    + apply share_elab_intro in E as [-> E]; [|eapply Hc; exact Ec].
      pose proof (main_insert ops x n) as (_ & HI & _). cbn zeta in HI.
      cbv zeta. rewrite Hs in E. rewrite Hs, Hn. destruct (symbols_insert (symhist ops) x n) as [syms r1] eqn:Ei. cbn [snd] in HI.
      intros H. injection H as <- H. destruct r1 as [d|[]| |]; cbn in H; try discriminate. injection H as <-.
      assert (d = n) as ->.
      { unfold symbols_insert in Ei. destruct (match m_find _ _ with Some _ => _ | None => _ end); congruence. }
      exists (ops ++ [Insert x n]), (S n). split.
      * cbn [er_cmd]. eapply el_intro; [exact Ec|apply names_resolve|exact E|]. apply HI. reflexivity.
      * split; cbn [ps_syms ps_next]; [|reflexivity]. rewrite hist_snoc. cbn [symstep]. rewrite Ei. reflexivity.
    + cbn in E. apply res_bind_ok in E as (? & _ & E). apply res_bind_ok in E as (? & _ & E). discriminate.
  - destruct (share_command (ps_syms st) (PRules rules)) as [r|e| |] eqn:E; try discriminate.
    apply share_elab_rules in E as (rules' & -> & E). intros [= <- <-]. exists ops, n. split; [|split; assumption].
    rewrite Hs in E. cbn [er_cmd]. eapply el_rules; [exact Ec|apply names_resolve|exact E].
Qed.

Lemma elab_share ops n c st v ops' n' : at_hist st ops n -> nonempty c -> elab_command ops n c v ops' n' ->
  exists st' cmd, share (scope_command c) st = (st', Ok cmd) /\ er_cmd cmd = v /\ at_hist st' ops' n'.
Proof.
  intros [Hs Hn] Hc H. unfold share. destruct H as [c x args it it' R Ec HR E HU|c rules rules' R Ec HR E]; rewrite Ec.
  - apply (elab_intro_ext R (resolve (ps_syms st))) in E; [|rewrite Hs; apply names_eq; exact HR].
    destruct (elab_share_intro (ps_syms st) x args it it' (Hc _ _ _ Ec) E) as (r & -> & <-).
    pose proof (main_insert ops x n) as (_ & HI & _). cbn zeta in HI. apply HI in HU.
    cbv zeta. rewrite Hs, Hn. destruct (symbols_insert (symhist ops) x n) as [syms r1] eqn:Ei. cbn [snd] in HU. subst r1.
    eexists _, _. split; [reflexivity|]. split; [reflexivity|]. split; cbn [ps_syms ps_next]; [|reflexivity]. rewrite hist_snoc. cbn [symstep]. rewrite Ei. reflexivity.
  - assert (E' : Forall2 (elab_rule (resolve (ps_syms st))) rules rules').
    { clear - E HR Hs. induction E; constructor; auto. eapply elab_rule_ext; [|eassumption]. rewrite Hs. apply names_eq. exact HR. }
    destruct (elab_share_rules _ _ _ E') as (rs & -> & <-). eexists _, _. split; [reflexivity|]. split; [reflexivity|]. split; assumption.
Qed.

(** the events of a program *)
Definition source_events (src : source) : list event := EvModule (fst src) :: map (fun c => EvCommand (scope_command c)) (snd src).
Definition program_events (srcs : list source) : list event := flat_map source_events srcs.

Lemma share_results_app evs : forall evs' st,
  share_results (evs ++ evs') st = share_results evs st ++ share_results evs' (share_state evs st).
Proof.
  induction evs as [|ev evs IH]; intros evs' st; cbn [app share_results share_state]; [reflexivity|].
  destruct (from_event ev st) as [st1 [r|]]; cbn [fst]; rewrite IH; reflexivity.
Qed.

Lemma commands_elab cs : Forall nonempty cs -> forall ops n st cmds, at_hist st ops n ->
  share_results (map (fun c => EvCommand (scope_command c)) cs) st = map Ok cmds ->
  exists ops' n', elab_commands ops n cs (map er_cmd cmds) ops' n' /\
    at_hist (share_state (map (fun c => EvCommand (scope_command c)) cs) st) ops' n'.
Proof.
  intros Hc. induction Hc as [|c cs Hc _ IH]; intros ops n st cmds Ha; cbn [map share_results share_state].
  - destruct cmds; [|discriminate]. intros _. exists ops, n. split; [constructor|exact Ha].
  - cbn [from_event]. destruct (share (scope_command c) st) as [st1 r] eqn:E. cbn [fst]. destruct cmds as [|cmd cmds]; [discriminate|].
    cbn [map]. intros H. injection H as -> H.
    destruct (share_elab _ _ _ _ _ _ Ha Hc E) as (ops1 & n1 & H1 & Ha1). destruct (IH _ _ _ _ Ha1 H) as (ops2 & n2 & H2 & Ha2).
    exists ops2, n2. split; [|exact Ha2]. econstructor; eassumption.
Qed.
Lemma elab_commands_share cs : Forall nonempty cs -> forall ops n st vs ops' n', at_hist st ops n ->
  elab_commands ops n cs vs ops' n' ->
  exists cmds, share_results (map (fun c => EvCommand (scope_command c)) cs) st = map Ok cmds /\ map er_cmd cmds = vs /\
    at_hist (share_state (map (fun c => EvCommand (scope_command c)) cs) st) ops' n'.
Proof.
  intros Hc. induction Hc as [|c cs Hc _ IH]; intros ops n st vs ops' n' Ha H; inversion H as [|? ? ? v ops1 n1 ? vs1 ? ? H1 H2]; subst; cbn [map share_results share_state].
  - exists []. auto.
  - destruct (elab_share _ _ _ _ _ _ _ Ha Hc H1) as (st1 & cmd & E & <- & Ha1). cbn [from_event]. rewrite E. cbn [fst].
    destruct (IH _ _ _ _ _ _ Ha1 H2) as (cmds & -> & <- & Ha2). exists (cmd :: cmds). auto.
Qed.

Lemma set_path_hist st ops n m : at_hist st ops n ->
  at_hist (PSt (set_path (ps_syms st) m) (ps_next st) (ps_gc st)) (ops ++ [SetPath m]) n.
Proof. intros [H1 H2]. split; cbn; [|exact H2]. rewrite hist_snoc. cbn. rewrite H1. reflexivity. Qed.

Lemma program_results m cs srcs st (st1 := PSt (set_path (ps_syms st) m) (ps_next st) (ps_gc st)) (evs := map (fun c => EvCommand (scope_command c)) cs) :
  share_results (program_events ((m, cs) :: srcs)) st =
  share_results evs st1 ++ share_results (program_events srcs) (share_state evs st1).
Proof. unfold program_events. cbn [flat_map]. rewrite share_results_app. reflexivity. Qed.
Lemma sources_elab srcs : Forall (fun src => Forall nonempty (snd src)) srcs -> forall ops n st cmds, at_hist st ops n ->
  share_results (program_events srcs) st = map Ok cmds -> elab_sources ops n srcs (map er_cmd cmds).
Proof.
  intros Hc. induction Hc as [|[m cs] srcs Hc _ IH]; intros ops n st cmds Ha.
  - cbn. destruct cmds; [|discriminate]. intros _. constructor.
  - rewrite program_results. intros H. symmetry in H.
    apply map_eq_app in H as (c1 & c2 & -> & H1 & H2). symmetry in H1, H2.
    apply (set_path_hist _ _ _ m) in Ha.
    destruct (commands_elab _ Hc _ _ _ _ Ha H1) as (ops1 & n1 & E1 & Ha1).
    rewrite map_app. econstructor; [exact E1|]. eapply IH; eassumption.
Qed.
Lemma elab_sources_share srcs : Forall (fun src => Forall nonempty (snd src)) srcs -> forall ops n st vs, at_hist st ops n ->
  elab_sources ops n srcs vs -> exists cmds, share_results (program_events srcs) st = map Ok cmds /\ map er_cmd cmds = vs.
Proof.
  intros Hc. induction Hc as [|[m cs] srcs Hc _ IH]; intros ops n st vs Ha H;
    inversion H as [|? ? ? ? vs1 ops1 n1 ? vs2 H1 H2]; subst.
  - exists []. auto.
  - rewrite program_results. cbn [snd] in Hc.
    apply (set_path_hist _ _ _ m) in Ha. destruct (elab_commands_share _ Hc _ _ _ _ _ _ Ha H1) as (c1 & -> & <- & Ha1).
    destruct (IH _ _ _ _ Ha1 H2) as (c2 & E2 & <-). exists (c1 ++ c2). rewrite !map_app, E2. auto.
Qed.

Lemma gcommand_nonempty ts c : gcommand ts c -> nonempty c.
Proof.
  intros H x args it. destruct H as [pre y ats args' ts it' Hi Ha|ts rules Hr]; cbn; [|discriminate].
  destruct (scope_args [] args') as [args1 e]. intros [= _ _ <-]. destruct Hi; discriminate.
Qed.
Lemma gsource_nonempty ts cs : gsource ts cs -> Forall nonempty cs.
Proof. intros H. induction H as [|ps ts c ts' cs Hp Hg H IH]; constructor; [eapply gcommand_nonempty; eauto|exact IH]. Qed.
Lemma gfile_gsource ts cs : gfile ts cs -> gsource ts cs.
Proof. intros H. induction H; econstructor; eauto. constructor. Qed.

(** ** Accepted files *)
Lemma results_outcome {S} (next : S -> res parse_error (option scoped) * S) s l :
  results next s (map Ok l) <-> outcome next s l None.
Proof.
  split.
  - intros H. remember (map Ok l) as items eqn:E. revert l E. induction H as [s H|s c s' items H H' IH|s e H|s H|s H]; intros [|i l]; cbn; intros E; try discriminate.
    + apply outcome_end. exact H.
    + injection E as <- ->. eapply outcome_ok; eauto.
  - remember (@None parse_error) as r eqn:Er. intros H. induction H as [s H|s e H|s i s1 l r H H' IH]; cbn; [|discriminate|].
    + apply results_end. exact H.
    + eapply results_ok; eauto.
Qed.
Lemma results_det {S} (next : S -> res parse_error (option scoped) * S) s l : results next s l -> forall l', results next s l' -> l' = l.
Proof.
  intros H. induction H as [s H|s c s' items H H' IH|s e H|s H|s H]; intros l' R;
    inversion R as [s0 R1|s0 c0 s1 l0 R1 R2|s0 e0 R1|s0 R1|s0 R1]; subst; try rewrite H in R1; try rewrite R1 in H; try discriminate; cbn in *; try congruence.
  injection R1 as <- <-. f_equal. apply IH. exact R2.
Qed.

Lemma reaches_outcome {S I E} (next : S -> res E (option I) * S) s l s' : reaches next s l s' ->
  (fst (next s') = Ok None \/ exists e, fst (next s') = Err e) -> exists l' r, outcome next s l' r.
Proof.
  intros H. induction H as [s|s i s1 l s2 H H' IH|s e s1 l s2 H H' IH]; intros He.
  - destruct He as [He|[e He]]; [exists [], None|exists [], (Some e)]; [apply outcome_end|apply outcome_err]; exact He.
  - destruct (IH He) as (l' & r & Ho). exists (i :: l'), r. eapply outcome_ok; eassumption.
  - exists [], (Some e). apply outcome_err. rewrite H. reflexivity.
Qed.
Lemma lazy_outcome {A} (scope : symb -> tctx A -> A) junk lines : exists l r, outcome (lazy_next scope junk) (lazy_new lines) l r.
Proof.
  destruct (lazy_ends_or_repeats A scope junk lines) as [(l & s & H1 & H2)|(l & s & H1 & H2)].
  - eapply reaches_outcome; [exact H1|]. left. exact H2.
  - eapply reaches_outcome; [exact H1|]. right. exists ExpectedInput. rewrite H2. reflexivity.
Qed.
Lemma strict_outcome {A} (scope : symb -> tctx A -> A) p : exists l r, outcome (strict_next scope) p l r.
Proof. destruct (strict_yields A scope p) as (l & (s & H1 & H2) & _). eapply reaches_outcome; [exact H1|]. left. exact H2. Qed.

Lemma outcome_atom_lazy junk lines l : outcome (lazy_next scope_atom junk) (lazy_new lines) l None <->
  exists cs, outcome (lazy_next scope_symb junk) (lazy_new lines) cs None /\ l = map scope_command cs.
Proof.
  split.
  - intros H. destruct (lazy_outcome scope_symb junk lines) as (cs & r & Hc). pose proof (main_scoping_lazy _ _ _ _ Hc) as H'.
    destruct (outcome_det _ _ _ _ H _ _ H') as [<- <-]. eauto.
  - intros (cs & H & ->). apply main_scoping_lazy. exact H.
Qed.
Lemma outcome_atom_strict junk s l : outcome (strict_next scope_atom) (strict_new junk s) l None <->
  exists cs, outcome (strict_next scope_symb) (strict_new junk s) cs None /\ l = map scope_command cs.
Proof.
  split.
  - intros H. destruct (strict_outcome scope_symb (strict_new junk s)) as (cs & r & Hc). pose proof (main_scoping_strict _ _ _ Hc) as H'.
    destruct (outcome_det _ _ _ _ H _ _ H') as [<- <-]. eauto.
  - intros (cs & H & ->). apply main_scoping_strict. exact H.
Qed.

(** ** Lines *)
Lemma unix_line l : ~ In LF l -> unix l = l.
Proof.
  induction l as [|c l IH]; intros H; [reflexivity|]. cbn [unix]. assert (Hl : ~ In LF l) by (intros Hi; apply H; right; exact Hi).
  destruct l as [|d l]; [reflexivity|]. rewrite (IH Hl).
  destruct (Ascii.eqb_spec d "010") as [->|]; [exfalso; apply Hl; left; reflexivity|]. rewrite andb_false_r. reflexivity.
Qed.
Lemma unix_step c d s : Ascii.eqb c "013" && Ascii.eqb d "010" = false -> unix (c :: d :: s) = c :: unix (d :: s).
Proof. intros E. cbn [unix]. rewrite E. reflexivity. Qed.
Lemma unix_lf l s : ~ In LF l -> (forall l', l <> l' ++ [CR]) -> unix (l ++ LF :: s) = l ++ LF :: unix s.
Proof.
  induction l as [|c l IH]; intros H Hc; cbn [app].
  - cbn [unix]. destruct s as [|d s]; reflexivity.
  - assert (Hl : ~ In LF l) by (intros Hi; apply H; right; exact Hi).
    assert (Hc' : forall l', l <> l' ++ [CR]) by (intros l' ->; apply (Hc (c :: l')); reflexivity).
    specialize (IH Hl Hc'). destruct l as [|d l]; cbn [app] in *.
    + rewrite unix_step, IH; [reflexivity|]. destruct (Ascii.eqb_spec c "013") as [->|]; [|reflexivity]. exfalso. apply (Hc []). reflexivity.
    + rewrite unix_step, IH; [reflexivity|]. destruct (Ascii.eqb_spec d "010") as [->|]; [exfalso; apply Hl; left; reflexivity|apply andb_false_r].
Qed.
Lemma unix_crlf l s : ~ In LF l -> unix (l ++ CR :: LF :: s) = l ++ LF :: unix s.
Proof.
  induction l as [|c l IH]; intros H; cbn [app].
  - transitivity (unix (LF :: s)); [reflexivity|]. apply (unix_lf [] s); [intros []|]. intros [|? ?]; discriminate.
  - assert (Hl : ~ In LF l) by (intros Hi; apply H; right; exact Hi). specialize (IH Hl).
    destruct l as [|d l]; cbn [app] in *; (rewrite unix_step, IH; [reflexivity|]).
    + change (Ascii.eqb CR "010") with false. apply andb_false_r.
    + destruct (Ascii.eqb_spec d "010") as [->|]; [exfalso; apply Hl; left; reflexivity|apply andb_false_r].
Qed.
Lemma lines_unix s ls : lines_of s ls -> splits (unix s) ls.
Proof.
  intros H. induction H as [|l Hn Hl|l s ls Hn Hc H IH|l s ls Hn H IH].
  - constructor.
  - rewrite unix_line by exact Hn. constructor. exact Hn.
  - rewrite unix_lf by assumption. constructor; assumption.
  - rewrite unix_crlf by assumption. constructor; assumption.
Qed.
Lemma text_splits text : splits (unix text) (text_lines text).
Proof. apply lines_unix. apply text_lines_of. Qed.

(** ** Files of an accepted run *)

Lemma parse_text_source junk text l :
  parse_text junk text (map Ok l) <-> exists toks cs, read_as junk text toks /\ gsource toks cs /\ l = map scope_command cs.
Proof.
  unfold parse_text. rewrite results_outcome, outcome_atom_lazy. split.
  - intros (cs & H & ->). apply main_source in H as (toks & H1 & H2). exists toks, cs. split; [|auto].
    exists (text_lines text). split; [apply text_splits|exact H1].
  - intros (toks & cs & (lines & Hs & Hr) & H & ->). exists cs. split; [|reflexivity]. apply main_source. exists toks. split; [|exact H].
    exact (reads_splits junk _ _ Hs _ (text_splits text) _ _ Hr).
Qed.

Lemma file_commands_ok {PE} items : forall evs, file_commands PE items = Some evs <-> exists l, items = map Ok l /\ evs = map EvCommand l.
Proof.
  intros evs. split.
  - revert evs. induction items as [|[c|e| |] items IH]; intros evs; cbn [file_commands]; try discriminate.
    + intros [= <-]. exists []. auto.
    + destruct (file_commands PE items) as [evs'|]; [|discriminate]. cbn. intros [= <-].
      destruct (IH evs' eq_refl) as (l & -> & ->). exists (c :: l). auto.
  - intros (l & -> & ->). induction l as [|c l IH]; [reflexivity|]. cbn. rewrite IH. reflexivity.
Qed.

Lemma opens_sources junk inputs files : Forall2 (opens junk) inputs files -> forall evs,
  files_events parse_error files = Some evs ->
  exists srcs, Forall2 (source_of junk) inputs srcs /\ evs = program_events srcs.
Proof.
  intros H. induction H as [|input file inputs files H _ IH]; intros evs; cbn [files_events].
  - intros [= <-]. exists []. split; [constructor|reflexivity].
  - destruct H as [path contents Hp|path m Hp|path text m stdin items Hp Hi]; try discriminate.
    destruct (file_commands parse_error items) as [evs1|] eqn:E1; [|discriminate].
    destruct (files_events parse_error files) as [evs2|]; [|discriminate]. intros [= <-].
    apply file_commands_ok in E1 as (l & -> & ->).
    apply parse_text_source in Hi as (toks & cs & Hr & Hg & ->).
    destruct (IH _ eq_refl) as (srcs & Hs & ->).
    exists ((m, cs) :: srcs). split.
    + constructor; [|exact Hs]. exists text, toks. split; [reflexivity|]. split; [|auto].
      cbn. apply main_module_path. unfold path_read in Hp. destruct (module_path path); [|discriminate]. injection Hp as -> _. reflexivity.
    + unfold program_events. cbn [flat_map source_events fst snd app]. rewrite map_map. reflexivity.
Qed.
Lemma sources_opens junk inputs srcs : Forall2 (source_of junk) inputs srcs ->
  exists files, Forall2 (opens junk) inputs files /\ files_events parse_error files = Some (program_events srcs).
Proof.
  intros H. induction H as [|[path contents] [m cs] inputs srcs H _ IH].
  - exists []. split; [constructor|reflexivity].
  - destruct H as (text & toks & Ht & Hm & Hr & Hg). cbn in Ht, Hm, Hg. subst contents.
    destruct IH as (files & Ho & Hf).
    exists ((Ok m, map Ok (map scope_command cs)) :: files). split.
    + constructor; [|exact Ho]. apply main_module_path in Hm. eapply opens_text.
      * unfold path_read. rewrite Hm. reflexivity.
      * apply parse_text_source. eauto.
    + cbn [files_events]. rewrite Hf.
      rewrite (proj2 (file_commands_ok (map Ok (map scope_command cs)) (map EvCommand (map scope_command cs)))) by eauto.
      unfold program_events. cbn [flat_map source_events fst snd app]. rewrite map_map. reflexivity.
Qed.
Lemma source_of_nonempty junk inputs srcs : Forall2 (source_of junk) inputs srcs -> Forall (fun src => Forall nonempty (snd src)) srcs.
Proof.
  intros H. induction H as [|input src inputs srcs (text & toks & _ & _ & _ & H) _ IH]; constructor; [|exact IH].
  eapply gsource_nonempty. exact H.
Qed.

(** ** Runs in terms of events *)
Lemma consume_events K o evs : consume parse_error K o evs (Ok tt) -> exists evs', evs = map Ok evs'.
Proof.
  intros H. destruct o as [eta om jobs].
  assert (X : Forall (fun r => is_ok r = true) evs).
  { apply (main_omit_share parse_error K eta jobs). destruct (main_omit_consume parse_error K eta jobs evs) as (H1 & H2 & H3).
    destruct om as [[]|]; auto. }
  clear H. induction X as [|[ev|e| |] evs H _ (evs' & ->)]; try discriminate; [exists []|exists (ev :: evs')]; reflexivity.
Qed.
Lemma run_events K o files : run parse_error K o files (Ok tt) <->
  exists evs, files_events parse_error files = Some evs /\ consume parse_error K o (map Ok evs) (Ok tt).
Proof.
  unfold run. rewrite run_ok_iff. split.
  - intros (evs & st & E & H).
    assert (Hc : consume parse_error K o evs (Ok tt)) by (apply consume_ok_iff; eauto).
    destruct (consume_events _ _ _ Hc) as [evs' ->]. exists evs'. split; [apply all_events_map; exact E|exact Hc].
  - intros (evs & E & H). apply consume_ok_iff in H as [st H]. exists (map Ok evs), st. split; [|exact H].
    clear H. revert evs E. induction files as [|[[path|e| |] items] files IH]; intros evs; cbn [files_events all_events]; try discriminate.
    + intros [= <-]. reflexivity.
    + destruct (file_commands parse_error items) as [evs1|] eqn:E1; [|discriminate].
      destruct (files_events parse_error files) as [evs2|]; [|discriminate]. intros [= <-]. rewrite (IH _ eq_refl).
      apply file_commands_ok in E1 as (l & -> & ->). unfold file_events. cbn. rewrite map_app, !map_map. reflexivity.
Qed.
Lemma kocheck_run junk K o channel inputs : kocheck junk K o channel inputs (Ok tt) <->
  exists files, Forall2 (opens junk) inputs files /\ run parse_error K o files (Ok tt).
Proof.
  unfold kocheck. split; intros (files & H1 & H2); exists files; (split; [exact H1|]); destruct channel; auto; apply main_stream; exact H2.
Qed.
Lemma kocheck_events junk K o channel inputs : kocheck junk K o channel inputs (Ok tt) <->
  exists srcs, Forall2 (source_of junk) inputs srcs /\ consume parse_error K o (map Ok (program_events srcs)) (Ok tt).
Proof.
  rewrite kocheck_run. split.
  - intros (files & H1 & H2). apply run_events in H2 as (evs & E & H2). destruct (opens_sources _ _ _ H1 _ E) as (srcs & Hs & ->). eauto.
  - intros (srcs & H1 & H2). destruct (sources_opens _ _ _ H1) as (files & Ho & E). exists files. split; [exact Ho|]. apply run_events. eauto.
Qed.

Lemma at_hist_new o : at_hist (pst_new o) [] 0.
Proof. split; reflexivity. Qed.
Lemma all_ok_map {E A} (l : list (res E A)) : Forall (fun r => is_ok r = true) l <-> exists l', l = map Ok l'.
Proof.
  split.
  - intros H. induction H as [|[a|e| |] l H _ (l' & ->)]; try discriminate; [exists []|exists (a :: l')]; reflexivity.
  - intros (l' & ->). induction l'; constructor; auto.
Qed.

Lemma events_sound O n eta jobs srcs : Forall (fun src => Forall nonempty (snd src)) srcs ->
  consume parse_error (real_kernel O n) (Opts eta None jobs) (map Ok (program_events srcs)) (Ok tt) ->
  exists vs sg, elaborates srcs vs /\ verified_all (empty_sig eta) vs sg.
Proof.
  intros Hn H. apply main_verified_consume in H as (evs & cmds & sg & E & Hs & Hv).
  assert (evs = program_events srcs) as ->.
  { revert E. generalize (program_events srcs). clear. induction evs as [|ev evs IH]; intros [|ev' evs']; try discriminate; [reflexivity|].
    cbn. intros [= -> E]. f_equal. auto. }
  exists (map er_cmd cmds), sg. split; [|exact Hv]. eapply sources_elab; [exact Hn|apply at_hist_new|exact Hs].
Qed.
Lemma events_infer K eta jobs srcs : Forall (fun src => Forall nonempty (snd src)) srcs ->
  consume parse_error K (Opts eta (Some StInfer) jobs) (map Ok (program_events srcs)) (Ok tt) <-> exists vs, elaborates srcs vs.
Proof.
  intros Hn. rewrite main_omit_infer, all_ok_map. split.
  - intros (cmds & H). exists (map er_cmd cmds). eapply sources_elab; [exact Hn|apply at_hist_new|exact H].
  - intros (vs & H). destruct (elab_sources_share _ Hn _ _ (pst_new (Opts eta (Some StInfer) jobs)) _ (at_hist_new _) H) as (cmds & E & _). eauto.
Qed.

Lemma main_kocheck_sound junk O n eta jobs channel inputs :
  kocheck junk (real_kernel O n) (Opts eta None jobs) channel inputs (Ok tt) ->
  exists srcs vs sg, Forall2 (source_of junk) inputs srcs /\ elaborates srcs vs /\ verified_all (empty_sig eta) vs sg.
Proof.
  intros H. apply kocheck_events in H as (srcs & Hs & H).
  destruct (events_sound _ _ _ _ _ (source_of_nonempty _ _ _ Hs) H) as (vs & sg & H1 & H2). exists srcs, vs, sg. auto.
Qed.
Lemma main_kocheck_infer junk K eta jobs channel inputs :
  kocheck junk K (Opts eta (Some StInfer) jobs) channel inputs (Ok tt) <->
  exists srcs vs, Forall2 (source_of junk) inputs srcs /\ elaborates srcs vs.
Proof.
  rewrite kocheck_events. split.
  - intros (srcs & Hs & H). apply events_infer in H as [vs H]; [eauto|]. eapply source_of_nonempty; exact Hs.
  - intros (srcs & vs & Hs & H). exists srcs. split; [exact Hs|]. apply events_infer; [eapply source_of_nonempty; exact Hs|]. eauto.
Qed.
Lemma main_kocheck_share junk K eta jobs channel inputs :
  kocheck junk K (Opts eta (Some StShare) jobs) channel inputs (Ok tt) <-> exists srcs, Forall2 (source_of junk) inputs srcs.
Proof.
  rewrite kocheck_events. split; intros (srcs & H); [destruct H; eauto|]. exists srcs. split; [exact H|].
  apply main_omit_share. apply all_ok_map. eauto.
Qed.

(** ** koweb *)
Lemma outcome_yields {S I E} (next : S -> res E (option I) * S) l : forall s, outcome next s l None <-> yields next s (map inl l).
Proof.
  induction l as [|i l IH]; intros s; split.
  - intros H. inversion H; subst. exists s. split; [constructor|assumption].
  - intros (q & H1 & H2). inversion H1; subst. constructor. exact H2.
  - intros H. inversion H as [| |? ? s1 ? ? E1 H1]; subst. apply IH in H1 as (q & H1 & H2). exists q. split; [|exact H2].
    cbn [map]. econstructor; eauto.
  - intros (q & H1 & H2). cbn [map] in H1. inversion H1; subst. econstructor; [eassumption|]. apply IH. exists q. auto.
Qed.
Lemma web_results junk text l : results (strict_next scope_atom) (strict_new junk text) (map Ok l) <->
  exists cs, gfile (lex junk text) cs /\ l = map scope_command cs.
Proof.
  rewrite results_outcome, outcome_atom_strict. split; intros (cs & H & ->); exists cs; (split; [|reflexivity]).
  - apply main_grammar_file; [apply lex_no_comment0|]. apply outcome_yields. exact H.
  - apply main_grammar_file in H; [|apply lex_no_comment0]. apply outcome_yields. exact H.
Qed.
Lemma web_events junk modules evss : Forall2 (web_produce junk) modules evss -> forall evs, concat evss = map Ok evs ->
  exists srcs, Forall2 (web_source junk) modules srcs /\ evs = program_events srcs.
Proof.
  intros H. induction H as [|md evs1 modules evss H _ IH]; intros evs; cbn [concat].
  - destruct evs; [|discriminate]. intros _. exists []. split; [constructor|reflexivity].
  - destruct H as [name text items H]. unfold file_events. cbn [app].
    intros E. symmetry in E. destruct evs as [|ev evs]; [discriminate|]. cbn in E. injection E as -> E.
    apply map_eq_app in E as (l1 & l2 & -> & E1 & E2).
    destruct (IH l2 (eq_sym E2)) as (srcs & Hs & ->).
    pose proof (file_commands_map parse_error items l1 (eq_sym E1)) as E3. apply file_commands_ok in E3 as (l & -> & ->).
    apply web_results in H as (cs & Hg & ->). exists (([name], cs) :: srcs). split.
    + constructor; [|exact Hs]. split; [reflexivity|exact Hg].
    + unfold program_events. cbn [flat_map source_events fst snd app]. rewrite map_map. reflexivity.
Qed.
Lemma web_sources junk modules srcs : Forall2 (web_source junk) modules srcs ->
  exists evss, Forall2 (web_produce junk) modules evss /\ concat evss = map Ok (program_events srcs).
Proof.
  intros H. induction H as [|[name text] [m cs] modules srcs [Hm Hg] _ (evss & H1 & H2)]; [exists []; split; [constructor|reflexivity]|].
  cbn in Hm, Hg. subst m.
  exists (file_events parse_error [name] (map Ok (map scope_command cs)) :: evss). split.
  - constructor; [|exact H1]. constructor. apply web_results. eauto.
  - cbn [concat]. rewrite H2. unfold program_events, file_events. cbn [flat_map source_events fst snd app map]. rewrite map_app, !map_map. reflexivity.
Qed.
Lemma web_check_events junk K o modules : web_check junk K o modules (Ok tt) <->
  exists srcs, Forall2 (web_source junk) modules srcs /\ consume parse_error K o (map Ok (program_events srcs)) (Ok tt).
Proof.
  unfold web_check. split.
  - intros (evss & H1 & H2). destruct (consume_events _ _ _ H2) as [evs E]. destruct (web_events _ _ _ H1 _ E) as (srcs & Hs & ->).
    rewrite E in H2. eauto.
  - intros (srcs & H1 & H2). destruct (web_sources _ _ _ H1) as (evss & Hp & E). exists evss. rewrite E. auto.
Qed.
Lemma web_source_nonempty junk modules srcs : Forall2 (web_source junk) modules srcs -> Forall (fun src => Forall nonempty (snd src)) srcs.
Proof.
  intros H. induction H as [|md src modules srcs [_ H] _ IH]; constructor; [|exact IH].
  eapply gsource_nonempty. apply gfile_gsource. exact H.
Qed.
Lemma main_web_sound junk O n eta modules :
  web_check junk (real_kernel O n) (Opts eta None false) modules (Ok tt) ->
  exists srcs vs sg, Forall2 (web_source junk) modules srcs /\ elaborates srcs vs /\ verified_all (empty_sig eta) vs sg.
Proof.
  intros H. apply web_check_events in H as (srcs & Hs & H).
  destruct (events_sound _ _ _ _ _ (web_source_nonempty _ _ _ Hs) H) as (vs & sg & H1 & H2). exists srcs, vs, sg. auto.
Qed.
Lemma main_web_infer junk K eta modules :
  web_check junk K (Opts eta (Some StInfer) false) modules (Ok tt) <->
  exists srcs vs, Forall2 (web_source junk) modules srcs /\ elaborates srcs vs.
Proof.
  rewrite web_check_events. split.
  - intros (srcs & Hs & H). apply events_infer in H as [vs H]; [eauto|]. eapply web_source_nonempty; exact Hs.
  - intros (srcs & vs & Hs & H). exists srcs. split; [exact Hs|]. apply events_infer; [eapply web_source_nonempty; exact Hs|]. eauto.
Qed.
Lemma main_single_sound junk O n text eta : check_single junk (real_kernel O n) text eta 3 (Ok tt) ->
  exists cs vs sg, gfile (lex junk text) cs /\ elaborates [([$"main"], cs)] vs /\ verified_all (empty_sig eta) vs sg.
Proof.
  intros H. cbn [check_single get_omit] in H. apply main_web_sound in H as (srcs & vs & sg & Hs & H1 & H2).
  inversion Hs as [|md [m cs] modules srcs' [Hm Hg] Hs']; subst. inversion Hs'; subst. cbn in Hm, Hg. subst m. exists cs, vs, sg. auto.
Qed.

Lemma main_web_share junk K eta modules :
  web_check junk K (Opts eta (Some StShare) false) modules (Ok tt) <-> exists srcs, Forall2 (web_source junk) modules srcs.
Proof.
  rewrite web_check_events. split; intros (srcs & H); exists srcs; [apply H|]. split; [exact H|].
  apply main_omit_share. apply all_ok_map. eauto.
Qed.
Lemma main_web_check junk K eta modules :
  web_check junk K (Opts eta (Some StCheck) false) modules (Ok tt) <->
  web_check junk (Kernel (k_intro K) (k_rewrite K) (fun _ _ => Ok tt)) (Opts eta None false) modules (Ok tt).
Proof.
  rewrite !web_check_events. split; intros (srcs & H1 & H2); exists srcs; (split; [exact H1|]); apply main_omit_check; exact H2.
Qed.
Lemma web_main junk text srcs : Forall2 (web_source junk) [($"main", text)] srcs <->
  exists cs, srcs = [([$"main"], cs)] /\ gfile (lex junk text) cs.
Proof.
  split.
  - intros H. inversion H as [|md [m cs] modules srcs' [Hm Hg] Hs']; subst. inversion Hs'; subst. cbn in Hm, Hg. subst m. eauto.
  - intros (cs & -> & H). constructor; [|constructor]. split; [reflexivity|exact H].
Qed.
Lemma main_single_stages junk K text eta :
  (check_single junk K text eta 0 (Ok tt) <-> exists cs, gfile (lex junk text) cs) /\
  (check_single junk K text eta 1 (Ok tt) <-> exists cs vs, gfile (lex junk text) cs /\ elaborates [([$"main"], cs)] vs) /\
  (check_single junk K text eta 2 (Ok tt) <->
   check_single junk (Kernel (k_intro K) (k_rewrite K) (fun _ _ => Ok tt)) text eta 3 (Ok tt)) /\
  (forall omit r, 3 < omit -> (check_single junk K text eta omit r <-> r = Panic)).
Proof.
  split; [|split; [|split]].
  - cbn [check_single get_omit]. rewrite main_web_share. split.
    + intros [srcs H]. apply web_main in H as (cs & -> & H). eauto.
    + intros [cs H]. exists [([$"main"], cs)]. apply web_main. eauto.
  - cbn [check_single get_omit]. rewrite main_web_infer. split.
    + intros (srcs & vs & H & He). apply web_main in H as (cs & -> & H). eauto.
    + intros (cs & vs & H & He). exists [([$"main"], cs)], vs. split; [apply web_main; eauto|exact He].
  - cbn [check_single get_omit]. apply main_web_check.
  - intros omit r H. destruct omit as [|[|[|[|omit]]]]; try lia. reflexivity.
Qed.
Lemma web_modules_ok fetch deps : forall modules, web_modules fetch deps = Some modules <->
  Forall2 (fun d m => (exists suffix, length suffix = 3 /\ fst d = fst m ++ suffix) /\ fetch (snd d) = Some (snd m)) deps modules.
Proof.
  induction deps as [|[file url] deps IH]; intros modules; cbn [web_modules].
  - split; [intros [= <-]; constructor|]. intros H. inversion H. reflexivity.
  - split.
    + unfold module_name. destruct (length file <? 3) eqn:L; [discriminate|]. apply Nat.ltb_ge in L.
      destruct (fetch url) as [text|] eqn:F; [|discriminate]. destruct (web_modules fetch deps) as [ms|]; [|discriminate].
      cbn. intros [= <-]. constructor; [|apply IH; reflexivity]. cbn. split; [|exact F].
      exists (skipn (length file - 3) file). rewrite skipn_length, firstn_skipn. split; [lia|reflexivity].
    + intros H. inversion H as [|? [name text] ? ms [(suffix & L & E) F] H']; subst. cbn in *. subst file.
      unfold module_name. rewrite app_length, L. replace (length name + 3 <? 3) with (length name + 3 <? 0 + 3) by reflexivity.
      destruct (length name + 3 <? 0 + 3) eqn:X; [apply Nat.ltb_lt in X; lia|].
      rewrite F. replace (length name + 3 - 3) with (length name) by lia. rewrite firstn_app, Nat.sub_diag, firstn_all. cbn.
      rewrite app_nil_r. apply IH in H'. rewrite H'. reflexivity.
Qed.
Lemma find_first {A} (f : A -> bool) l a : find f l = Some a <-> exists l1 l2, l = l1 ++ a :: l2 /\ f a = true /\ Forall (fun b => f b = false) l1.
Proof.
  induction l as [|b l IH]; cbn.
  - split; [discriminate|]. intros ([|] & l2 & E & _); discriminate.
  - destruct (f b) eqn:E.
    + split.
      * intros [= <-]. exists [], l. auto.
      * intros ([|c l1] & l2 & H & Ha & H'); cbn in H; injection H as -> _; [reflexivity|]. inversion H'. congruence.
    + rewrite IH. split; intros (l1 & l2 & H & Ha & H').
      * exists (b :: l1), l2. rewrite H. auto.
      * destruct l1 as [|c l1]; cbn in H; injection H as -> ->; [congruence|]. inversion H'. eauto.
Qed.
Lemma main_multiple_sound junk O n fetch programs to_run eta :
  check_multiple junk (real_kernel O n) fetch programs to_run eta 3 (Ok tt) ->
  ~ In to_run (map pg_name programs) \/
  exists p1 main p2 modules srcs vs sg,
    programs = p1 ++ main :: p2 /\ pg_name main = to_run /\ ~ In to_run (map pg_name p1) /\
    Forall2 (fun d m => (exists suffix, length suffix = 3 /\ fst d = fst m ++ suffix) /\ fetch (snd d) = Some (snd m))
      (combine (pg_deps main) (pg_urls main)) modules /\
    Forall2 (web_source junk) modules srcs /\ elaborates srcs vs /\ verified_all (empty_sig eta) vs sg.
Proof.
  unfold check_multiple. cbn [get_omit].
  assert (N : forall l, Forall (fun b => str_eqb (pg_name b) to_run = false) l <-> ~ In to_run (map pg_name l)).
  { intros l. rewrite Forall_forall, in_map_iff. split.
    - intros H (p & E & Hi). apply H in Hi. apply str_eqb_neq in Hi. contradiction.
    - intros H p Hi. apply str_eqb_neq. intros E. apply H. exists p. auto. }
  destruct (find _ programs) as [main|] eqn:E.
  - apply find_first in E as (p1 & p2 & -> & Hm & Hp). apply str_eqb_eq in Hm. apply N in Hp.
    destruct (web_modules fetch (combine (pg_deps main) (pg_urls main))) as [modules|] eqn:Em; [|discriminate].
    apply web_modules_ok in Em. intros H. apply main_web_sound in H as (srcs & vs & sg & Hs & H1 & H2). right.
    exists p1, main, p2, modules, srcs, vs, sg. auto 8.
  - intros _. left. apply N. apply Forall_forall. apply find_none. exact E.
Qed.

(** the same events as in kocheck *)
Lemma main_web_kocheck junk K o channel modules inputs :
  Forall2 (fun md input => snd input = Some (snd md) /\ module_of (fst input) [fst md] /\ ~ In CR (snd md) /\ line_wise (lex junk (snd md))) modules inputs ->
  (web_check junk K o modules (Ok tt) -> kocheck junk K o channel inputs (Ok tt)) /\
  (kocheck junk K o channel inputs (Ok tt) ->
   (forall md, In md modules -> exists cs, gfile (lex junk (snd md)) cs) -> web_check junk K o modules (Ok tt)).
Proof.
  intros H.
  assert (U : forall s, ~ In CR s -> unix s = s).
  { clear. induction s as [|c s IH]; intros H; [reflexivity|]. destruct s as [|d s]; [reflexivity|].
    rewrite unix_step, IH; [reflexivity| |].
    - intros Hi. apply H. right. exact Hi.
    - destruct (Ascii.eqb_spec c "013") as [->|]; [|reflexivity]. exfalso. apply H. left. reflexivity. }
  rewrite kocheck_events. rewrite web_check_events. split.
  - intros (srcs & Hs & Hc). exists srcs. split; [|exact Hc]. clear - H Hs U.
    revert srcs Hs. induction H as [|md input modules inputs (E & Hm & Hr & Hl) _ IH]; intros srcs Hs; inversion Hs as [|? [m cs] ? srcs' [H1 H2] H3]; subst; constructor; auto.
    cbn in H1, H2. subst m. exists (snd md), (lex junk (snd md)). split; [exact E|]. split; [exact Hm|]. split; [|apply gfile_gsource; exact H2].
    exists (text_lines (snd md)). split; [apply text_splits|]. pose proof (text_splits (snd md)) as Hx. rewrite U in Hx by exact Hr. apply (main_reads junk _ _ _ Hx Hl). reflexivity.
  - intros (srcs & Hs & Hc) Hg. exists srcs. split; [|exact Hc]. clear Hc.
    revert srcs Hs Hg. induction H as [|md input modules inputs (E & Hm & Hr & Hl) _ IH]; intros srcs Hs Hg; inversion Hs as [|? [m cs] ? srcs' (text & toks & H1 & H2 & (lines & Hx & Hy) & H3) H4]; subst; constructor.
    + pose proof (eq_trans (eq_sym E) H1) as Et. injection Et as <-. cbn in H2, H3. apply main_module_path in H2, Hm. pose proof (eq_trans (eq_sym H2) Hm) as Ep. injection Ep as ->.
      split; [reflexivity|]. cbn. rewrite U in Hx by exact Hr. apply (main_reads junk _ _ _ Hx Hl) in Hy. subst toks. destruct (Hg md (or_introl eq_refl)) as [cs' Hg'].
      enough (cs = cs') as -> by exact Hg'. eapply gsource_det; [| |]; [apply lex_comment_last_|exact H3|apply gfile_gsource; exact Hg'].
    + apply IH; [exact H4|]. intros md' Hi. apply Hg. right. exact Hi.
Qed.
(** a module that does not parse *)
Lemma web_reject junk K o name text l e : outcome (strict_next scope_symb) (strict_new junk text) l (Some e) ->
  ~ web_check junk K o [(name, text)] (Ok tt).
Proof.
  intros Ho H. apply web_check_events in H as (srcs & Hs & _). inversion Hs as [|md src modules srcs' [_ Hg] _]; subst.
  cbn [snd] in Hg. apply main_grammar_file in Hg; [|apply lex_no_comment0]. apply outcome_yields in Hg.
  destruct (outcome_det _ _ _ _ Ho _ _ Hg) as [_ E]. discriminate.
Qed.
