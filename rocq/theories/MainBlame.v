(** * Errors are reported for the first command at fault (C86) *)

From Verif Require Import Base LibMono ModelTerm ModelGctx ModelCommand ModelSubst ModelReduce ModelInfer ModelSyntax ModelSymbols ModelShare ModelLex ModelParse ModelMake ModelPath ModelProcess ModelMain
  SpecTerm SpecConv SpecTyping SpecQuery SpecSyntax SpecSymbols SpecShare SpecProcess SpecDecide SpecDef SpecMake SpecParse SpecProgram SpecWhole SpecFault SpecBlame
  Erase MainKernel MainGctx MainSymbols MainShare MainPath MainProcess MainRun MainVerify MainTyped MainDecide MainAlike MainProgram MainWhole MainEmbed MainFault SamplesProg.

(** ** Errors of commands *)
Lemma ko_typing_err {A} (r : res kerror A) e : ko_typing r = Err e -> exists k, e = KoTyping k.
Proof. destruct r; cbn; try discriminate. intros [= <-]. eauto. Qed.
Lemma infer_check_types K o cmd gc gc' : infer_check K o cmd gc = (gc', Ok tt) ->
  match cmd with CIntro c _ => forall d, d <> c -> get_type gc' d = get_type gc d | CRules _ => get_type gc' = get_type gc end.
Proof.
  unfold infer_check. destruct cmd as [c it|rs]; cbn [infer_with].
  - destruct (ko_typing (k_intro K gc it)) as [[ty chk]|e| |]; try discriminate.
    assert (G : forall g r, ko_gctx (gctx_insert gc c ty (rewritable it)) = (g, r) -> g = gc' -> forall d, d <> c -> get_type gc' d = get_type gc d).
    { intros g r. destruct (gctx_insert gc c ty (rewritable it)) as [g1 e1] eqn:E. intros H ->. assert (g1 = gc') as -> by (destruct e1; cbn in H; congruence).
      intros d Hd. destruct (insert_cases _ _ _ _ _ _ E) as (T & _). rewrite T. destruct (Nat.eqb_spec d c); [contradiction|reflexivity]. }
    destruct chk as [chk|]; [destruct (if omits o StCheck then Ok tt else ko_typing (k_check K gc chk)) as [[]|e| |]; try discriminate|];
      (destruct (ko_gctx _) as [g r] eqn:E; intros [= -> ->]; eapply G; eauto).
  - destruct (rewrites _ _ _ rs gc tt) as [[] [[]|e| |]]; try discriminate.
    assert (G : forall rs g g' r, add_rules rs g = (g', r) -> get_type g' = get_type g).
    { clear. induction rs as [|r rs IH]; intros g g' r'; cbn [add_rules]; [intros [= <- _]; reflexivity|].
      destruct (add_rule g r) as [g1 e] eqn:E. pose proof (proj1 (add_rule_cases _ _ _ _ E)) as T. destruct e as [e|]; cbn; [intros [= <- _]; exact T|].
      intros H. rewrite (IH _ _ _ H). exact T. }
    destruct (add_rules rs gc) as [g r] eqn:E. intros [= -> ->]. eapply G; exact E.
Qed.
Lemma infer_check_err K o cmd gc gc' e : typed_rules gc -> infer_check K o cmd gc = (gc', Err e) ->
  (exists k, e = KoTyping k) \/
  match cmd with
  | CIntro c _ => e = KoGCtx Reintroduction /\ get_type gc c <> None
  | CRules rs => e = KoGCtx NonRewritable /\ exists r, In r rs /\ get_rules gc (tp_symbol (r_lhs r)) = None
  end.
Proof.
  intros Ht. unfold infer_check. destruct cmd as [c it|rs]; cbn [infer_with].
  - destruct (ko_typing (k_intro K gc it)) as [[ty chk]|e1| |] eqn:E1; try discriminate; [|intros [= _ <-]; left; eapply ko_typing_err; exact E1].
    assert (G : forall g r, ko_gctx (gctx_insert gc c ty (rewritable it)) = (g, r) -> r = Err e -> e = KoGCtx Reintroduction /\ get_type gc c <> None).
    { intros g r. unfold gctx_insert, intro_type, intro_rules. cbn. unfold get_type. destruct (slookup (g_types gc) c) eqn:Et.
      - cbn. intros [= <- <-] [= <-]. split; [reflexivity|congruence].
      - specialize (Ht c Et). unfold get_rules in Ht. destruct (rewritable it); cbn; [rewrite Ht|]; intros [= <- <-]; discriminate. }
    destruct chk as [chk|]; [destruct (omits o StCheck); [|destruct (ko_typing (k_check K gc chk)) as [[]|e1| |] eqn:E2; try discriminate; [|intros [= _ <-]; left; eapply ko_typing_err; exact E2]]|];
      (destruct (ko_gctx _) as [g r] eqn:E; intros [= -> ->]; right; eapply G; eauto).
  - assert (R : forall rs s s' r, rewrites K unit (fun chk gc s => (s, if omits o StCheck then Ok tt else ko_typing (k_check K gc chk))) rs gc s = (s', r) -> forall e, r = Err e -> exists k, e = KoTyping k).
    { clear. induction rs as [|r rs IH]; intros s s' r'; cbn [rewrites]; [intros [= _ <-]; discriminate|].
      destruct (rule_try r) as [r1|e1| |]; try apply IH. destruct (ko_typing (k_rewrite K gc r1)) as [chk|e1| |] eqn:E1; try (intros [= _ <-]; discriminate).
      - destruct (omits o StCheck); [apply IH|]. destruct (ko_typing (k_check K gc chk)) as [[]|e1| |] eqn:E2; try (intros [= _ <-]; discriminate); [apply IH|].
        intros [= _ <-] e [= <-]. eapply ko_typing_err; exact E2.
      - intros [= _ <-] e [= <-]. eapply ko_typing_err; exact E1. }
    destruct (rewrites _ _ _ rs gc tt) as [s [[]|e1| |]] eqn:E1; try discriminate; [|intros [= _ <-]; left; eapply R; [exact E1|reflexivity]].
    assert (G : forall rs g g' r, (forall d, get_rules gc d = None <-> get_rules g d = None) -> add_rules rs g = (g', r) -> r = Err e -> e = KoGCtx NonRewritable /\ exists r, In r rs /\ get_rules gc (tp_symbol (r_lhs r)) = None).
    { clear. induction rs as [|r rs IH]; intros g g' r' Hg; cbn [add_rules]; [intros [= _ <-]; discriminate|].
      destruct (add_rule g r) as [g1 e1] eqn:E. pose proof (proj2 (add_rule_cases _ _ _ _ E)) as T. destruct e1 as [e1|]; cbn.
      - intros [= _ <-] [= <-]. unfold add_rule in E. destruct (slookup (g_rules g) (tp_symbol (r_lhs r))) eqn:Er; [discriminate|]. injection E as _ <-.
        split; [reflexivity|]. exists r. split; [left; reflexivity|]. apply Hg. exact Er.
      - intros H He. assert (Hg1 : forall d, get_rules gc d = None <-> get_rules g1 d = None) by (intros d; rewrite Hg, T; destruct (get_rules g d); split; congruence).
        destruct (IH _ _ _ Hg1 H He) as (H1 & r2 & H2 & H3). split; [exact H1|]. exists r2. split; [right; exact H2|exact H3]. }
    destruct (add_rules rs gc) as [g r] eqn:E. intros [= -> ->]. right. eapply G; [|exact E|reflexivity]. tauto.
Qed.

(** ** The first error in a sequence of events *)
Definition fresh_types (st : pst) : Prop := forall c, ps_next st <= c -> get_type (ps_gc st) c = None.
Lemma share_state_gc c st : ps_gc (fst (share c st)) = ps_gc st.
Proof. unfold share. destruct (share_command _ c) as [[x it|rs]|e| |]; [destruct (symbols_insert _ x _)|..]; reflexivity. Qed.
Lemma share_next c st : (exists c' it, snd (share c st) = Ok (CIntro c' it) /\ c' = ps_next st /\ ps_next (fst (share c st)) = S (ps_next st)) \/
  (exists rs, snd (share c st) = Ok (CRules rs) /\ ps_next (fst (share c st)) = ps_next st) \/ (forall cmd, snd (share c st) <> Ok cmd).
Proof.
  unfold share. destruct (share_command _ c) as [[x it|rs]|e| |]; [|right; left; cbn; eauto|right; right; cbn; discriminate..].
  destruct (symbols_insert (ps_syms st) x (ps_next st)) as [syms r] eqn:E. cbn.
  unfold symbols_insert in E. injection E as _ <-. destruct (match m_find _ _ with Some m => _ | None => _ end); cbn; [right; right; discriminate|left; eauto].
Qed.
Section Seq.
  Variables (O : query -> nat -> bool) (n : nat) (eta jobs : bool).
  Let o := Opts eta None jobs.
  Let K := real_kernel O n.
  Notation seq := (infer_checks_seq parse_error K o _ (consume_item parse_error o)).

  Lemma seq_error evs : forall st st' rest e, seq (map Ok evs) st = (st', rest, Err e) -> typed_rules (ps_gc st) -> fresh_types st -> proper_gctx (ps_gc st) ->
    exists evs1 c evs2 e' st1, evs = evs1 ++ EvCommand c :: evs2 /\ e = PKo e' /\ seq (map Ok evs1) st = (st1, [], Ok tt) /\ typed_rules (ps_gc st1) /\ fresh_types st1 /\ proper_gctx (ps_gc st1) /\
      ((exists st2, share c st1 = (st2, Err e')) \/ exists st2 cmd gc', share c st1 = (st2, Ok cmd) /\ infer_check K o cmd (ps_gc st1) = (gc', Err e')).
  Proof.
    induction evs as [|ev evs IH]; intros st st' rest e; cbn [map infer_checks_seq]; [discriminate|].
    cbn [consume_item]. change (omits o StShare) with false. cbn match. destruct ev as [p|c]; cbn [from_event].
    { cbn [option_map filter_infer]. intros H Ht Hf Hp. destruct (IH _ _ _ _ H Ht Hf Hp) as (evs1 & c & evs2 & e' & st1 & -> & E2 & E3 & E4).
      exists (EvModule p :: evs1), c, evs2, e', st1. split; [reflexivity|]. split; [exact E2|]. split; [|exact E4]. exact E3. }
    pose proof (share_state_gc c st) as Gc. pose proof (share_next c st) as Gn. destruct (share c st) as [st2 r] eqn:Es. cbn [fst snd] in Gc, Gn.
    destruct r as [cmd|e1| |]; cbn [option_map res_err filter_infer]; change (omits o StInfer) with false; cbn match; try discriminate.
    - rewrite Gc. destruct (infer_check K o cmd (ps_gc st)) as [gc r] eqn:Ei. destruct r as [[]|e1| |]; cbn [res_err res_map]; try discriminate.
      + intros H Ht Hf Hp. destruct (infer_check_verified O n o cmd _ _ eq_refl Ht Ei) as [_ Ht'].
        assert (Hf' : fresh_types (PSt (ps_syms st2) (ps_next st2) gc)).
        { intros d Hd. cbn [ps_next ps_gc] in *. pose proof (infer_check_types _ _ _ _ _ Ei) as T. destruct Gn as [(c' & it & [= ->] & -> & G)|[(rs & [= ->] & G)|G]]; [| |destruct (G cmd eq_refl)].
          - rewrite T by lia. apply Hf. lia.
          - rewrite T. apply Hf. lia. }
        destruct (infer_check_other O n o cmd _ _ Hp (share_proper _ _ _ _ Es) Ei) as (Hp' & _).
        destruct (IH _ _ _ _ H Ht' Hf' Hp') as (evs1 & c1 & evs2 & e' & st1 & -> & E2 & E3 & E4).
        exists (EvCommand c :: evs1), c1, evs2, e', st1. split; [reflexivity|]. split; [exact E2|]. split; [|exact E4].
        cbn [map infer_checks_seq consume_item]. change (omits o StShare) with false. cbn match. cbn [from_event]. rewrite Es. cbn [option_map res_err filter_infer]. change (omits o StInfer) with false. cbn match. rewrite Gc, Ei. exact E3.
      + intros [= _ _ <-] Ht Hf Hp. exists [], c, evs, e1, st. split; [reflexivity|]. split; [reflexivity|]. split; [reflexivity|]. split; [exact Ht|]. split; [exact Hf|]. split; [exact Hp|]. right. exists st2, cmd, gc. auto.
    - intros [= _ _ <-] Ht Hf Hp. exists [], c, evs, e1, st. split; [reflexivity|]. split; [reflexivity|]. split; [reflexivity|]. split; [exact Ht|]. split; [exact Hf|]. split; [exact Hp|]. left. exists st2. exact Es.
  Qed.
  Lemma seq_same evs : forall st st' rest, seq (map Ok evs) st = (st', rest, Ok tt) -> forall st0, same_syms st st0 -> same_syms st' (share_state evs st0).
  Proof.
    induction evs as [|ev evs IH]; intros st st' rest; cbn [map infer_checks_seq share_state]; [intros [= <- _] st0 S; exact S|].
    cbn [consume_item]. change (omits o StShare) with false. cbn match. intros H st0 S. destruct (from_event_same ev st st0 S) as [S' _].
    destruct (from_event ev st) as [st1 r]. cbn [fst] in S'. destruct r as [[cmd|e| |]|]; cbn in H; try discriminate.
    - destruct (infer_check K o cmd (ps_gc st1)) as [gc [[]|e| |]]; try discriminate. eapply IH; [exact H|]. exact S'.
    - eapply IH; [exact H|exact S'].
  Qed.
End Seq.

(** ** Events of programs *)
Lemma program_app s1 s2 : program_events (s1 ++ s2) = program_events s1 ++ program_events s2.
Proof. unfold program_events. apply flat_map_app. Qed.
Lemma program_split srcs : forall evs1 k evs2, program_events srcs = evs1 ++ EvCommand k :: evs2 ->
  exists b, srcs = bl_all b /\ evs1 = program_events (bl_earlier b) /\ k = scope_command (bl_cmd b).
Proof.
  induction srcs as [|[m cs] srcs IH]; intros evs1 k evs2; [destruct evs1; discriminate|].
  change (program_events ((m, cs) :: srcs)) with (source_events (m, cs) ++ program_events srcs). intros E.
  apply app_eq_app in E as (l & [[E1 E2]|[E1 E2]]).
  - destruct l as [|ev l].
    + cbn in E2. rewrite app_nil_r in E1. symmetry in E2. destruct (IH [] k evs2 E2) as ([b m' cs1 c cs2 a] & -> & E3 & ->). exfalso.
      unfold bl_earlier in E3. cbn in E3. rewrite program_app in E3. destruct (program_events b); discriminate.
    + cbn in E2. injection E2 as <- E2. unfold source_events in E1. cbn [fst snd] in E1. destruct evs1 as [|ev evs1]; [discriminate|]. cbn [app] in E1. injection E1 as <- E1.
      apply map_eq_app in E1 as (cs1 & cs2 & -> & <- & E3). destruct cs2 as [|c cs2]; [discriminate|]. cbn in E3. injection E3 as <- _.
      exists (Blamed [] m cs1 c cs2 srcs). split; [reflexivity|]. split; [|reflexivity]. unfold bl_earlier, program_events. cbn. rewrite app_nil_r. reflexivity.
  - subst evs1. destruct (IH _ _ _ E2) as ([b m' cs1 c cs2 a] & -> & -> & ->). exists (Blamed ((m, cs) :: b) m' cs1 c cs2 a). split; [reflexivity|]. split; reflexivity.
Qed.

(** ** Histories *)
Lemma elab_inserts ops n cs vs ops' n' : elab_commands ops n cs vs ops' n' -> ops' = ops ++ inserts n cs /\ n' = n + length (inserts n cs).
Proof.
  induction 1 as [ops n|ops n c v ops1 n1 cs vs ops2 n2 H _ [-> ->]]; [rewrite app_nil_r; cbn; split; [reflexivity|lia]|].
  destruct H as [c x args it it' R E _ _ _|c rules rules' R E _ _].
  - destruct c as [y args' it0|rs]; cbn in E; [|discriminate]. destruct (scope_args [] args') as [a b]. injection E as <- _ _. cbn [inserts length]. rewrite <- app_assoc. split; [reflexivity|lia].
  - destruct c as [y args' it0|rs]; cbn in E; [destruct (scope_args [] args'); discriminate|]. cbn [inserts]. auto.
Qed.
Lemma inserts_length n m cs : length (inserts n cs) = length (inserts m cs).
Proof. revert n m. induction cs as [|[x args it|rs] cs IH]; intros n m; cbn; [reflexivity|f_equal; apply IH|apply IH]. Qed.
Lemma sources_hist srcs : Forall (fun src => Forall nonempty (snd src)) srcs -> forall ops n st cmds, at_hist st ops n ->
  share_results (program_events srcs) st = map Ok cmds -> at_hist (share_state (program_events srcs) st) (ops ++ history n srcs) (n + symbols_in srcs).
Proof.
  intros Hc. induction Hc as [|[m cs] srcs Hc _ IH]; intros ops n st cmds Ha.
  - cbn. rewrite app_nil_r, Nat.add_0_r. intros _. exact Ha.
  - rewrite program_results. intros H. symmetry in H. apply map_eq_app in H as (c1 & c2 & -> & H1 & H2). symmetry in H1, H2.
    apply (set_path_hist _ _ _ m) in Ha. destruct (commands_elab _ Hc _ _ _ _ Ha H1) as (ops1 & n1 & E1 & Ha1). destruct (elab_inserts _ _ _ _ _ _ E1) as [-> ->].
    pose proof (IH _ _ _ _ Ha1 H2) as X. unfold symbols_in in *. cbn [flat_map history snd]. rewrite app_length, (inserts_length 0 n cs), Nat.add_assoc.
    unfold program_events in *. cbn [flat_map source_events fst snd app share_state from_event].
    assert (SA : forall l l' s, share_state (l ++ l') s = share_state l' (share_state l s)) by (clear; induction l; intros l' s; cbn; [reflexivity|auto]).
    rewrite SA. rewrite <- !app_assoc in X. exact X.
Qed.

(** ** The command at fault *)
Lemma fault_share ops n sg c st st' e : at_hist st ops n -> nonempty c -> share (scope_command c) st = (st', Err e) -> at_fault sg ops n c e /\ forall v ops' n', ~ elab_command ops n c v ops' n'.
Proof.
  intros Ha Hc E. split; [|intros v ops' n' X; destruct (elab_share _ _ _ _ _ _ _ Ha Hc X) as (st1 & cmd & E' & _); congruence].
  destruct Ha as [Hs Hn]. unfold share in E. rewrite Hs, Hn in E. destruct (scope_command c) as [x args it|rules] eqn:Ec.
  - destruct (share_command (symhist ops) (PIntro x args it)) as [[id r|rs]|e1| |] eqn:E1; try discriminate.
    + apply share_elab_intro in E1 as [-> E1]; [|eapply Hc; exact Ec]. pose proof (main_insert ops x n) as (HI & _ & HC). cbn zeta in HI, HC.
      destruct (symbols_insert (symhist ops) x n) as [syms r1]. cbn [snd] in HI, HC. destruct HC as [->| ->]; cbn in E; [|discriminate]. injection E as _ <-.
      destruct (proj1 HI eq_refl) as [d Hd]. econstructor; eassumption.
    + injection E as _ <-. destruct (main_share_intro (symhist ops) x args it) as (_ & HE & _). destruct (HE _ E1) as (s & H1 & H2 & ->).
      apply ft_unknown; [rewrite Ec; exact H1|]. apply main_get. exact H2.
  - pose proof (main_share_rules (symhist ops) rules) as HR. destruct (share_command (symhist ops) (PRules rules)) as [[id r|rs]|e1| |] eqn:E1; try contradiction; try discriminate.
    injection E as _ <-. destruct HR as (pre & r & post & -> & _ & Er). assert (Hin : In r (pre ++ r :: post)) by (apply in_or_app; right; left; reflexivity).
    pose proof (main_share_rule_err _ _ _ Er) as X. destruct e1 as [x| |].
    + destruct X as (s & H1 & H2 & ->). apply ft_unknown; [rewrite Ec; cbn; apply in_flat_map; exists r; auto|]. apply main_get. exact H2.
    + destruct X as (lhs & H1 & H2). eapply ft_lhs; [exact Ec|exact Hin|apply names_resolve|exact H1|intros d ps; apply H2|auto].
    + destruct X as (v & H1). eapply ft_lhs; [exact Ec|exact Hin|apply names_resolve|exact H1| |auto]. intros d ps X. remember (PatSymb d ps) as P eqn:EP; remember (Var v) as t eqn:Et; destruct X as [| |]; try discriminate; injection EP as -> ->.
      assert (Y : forall ts f, (forall w, f <> Var w) -> forall w, apps f ts <> Var w) by (clear; induction ts as [|t ts IH]; intros f Hf; [exact Hf|apply IH; discriminate]).
      refine (Y ts (Const d) _ v _); [discriminate|assumption].
Qed.

Lemma fault_kernel O k ops n gc c st st' cmd o gc' e : proper_gctx gc -> omits o StCheck = false -> at_hist st ops n -> nonempty c -> ps_gc st = gc -> typed_rules gc -> fresh_types st -> share (scope_command c) st = (st', Ok cmd) -> infer_check (real_kernel O k) o cmd gc = (gc', Err e) ->
  at_fault (er_gctx gc) ops n c e /\ kernel_error e.
Proof.
  intros Hp Ho Ha Hc Eg Ht Hf Es Ei. pose proof (share_next (scope_command c) st) as Gn. rewrite Es in Gn. cbn [fst snd] in Gn.
  destruct (share_elab _ _ _ _ _ _ Ha Hc Es) as (ops' & n' & He & _). destruct (infer_check_err _ _ _ _ _ _ Ht Ei) as [[k0 ->]|X].
  - split; [|exact I]. eapply ft_typing; [exact He|]. exact (main_command_fault O k o cmd gc gc' _ Hp (share_proper _ _ _ _ Es) Ho Ei).
  - destruct cmd as [id it|rs].
    + destruct X as [_ X]. exfalso. apply X. destruct Gn as [(c' & it' & [= -> ->] & -> & G)|[(rs & [=] & G)|G]]; [|destruct (G _ eq_refl)]. rewrite <- Eg. apply Hf. lia.
    + destruct X as [-> (r & Hr & Er)]. split; [|exact I]. cbn [er_cmd] in He. inversion He; subst.
      eapply ft_static; [exact He|apply in_map_iff; exists r; split; [reflexivity|exact Hr]|]. cbn. rewrite Er. reflexivity.
Qed.

Lemma including_events b : program_events (bl_including b) = program_events (bl_earlier b) ++ [EvCommand (scope_command (bl_cmd b))].
Proof. unfold bl_including, bl_earlier. rewrite !program_app. rewrite <- app_assoc. f_equal. unfold program_events, source_events. cbn. rewrite map_app, !app_nil_r. reflexivity. Qed.
Lemma nonempty_all b : Forall (fun src => Forall nonempty (snd src)) (bl_all b) ->
  Forall (fun src => Forall nonempty (snd src)) (bl_earlier b) /\ nonempty (bl_cmd b) /\ Forall (fun src => Forall nonempty (snd src)) (bl_including b).
Proof.
  unfold bl_all, bl_earlier, bl_including. intros H. apply Forall_app in H as [H1 H2]. apply Forall_cons_iff in H2 as [H2 _]. cbn [snd] in H2. apply Forall_app in H2 as [H2 H3]. apply Forall_cons_iff in H3 as [H3 _].
  split; [apply Forall_app; split; [exact H1|repeat constructor; exact H2]|]. split; [exact H3|]. apply Forall_app. split; [exact H1|]. constructor; [|constructor]. apply Forall_app. split; [exact H2|repeat constructor; exact H3].
Qed.

Section Blame.
  Variables (O : query -> nat -> bool) (n : nat) (eta jobs : bool).
  Let o := Opts eta None jobs.
  Notation seq m := (infer_checks_seq parse_error (real_kernel O m) o _ (consume_item parse_error o)).

  Lemma blame_seq srcs st rest e : Forall (fun src => Forall nonempty (snd src)) srcs -> seq n (map Ok (program_events srcs)) (pst_new o) = (st, rest, Err e) ->
    exists b e' vs sg, e = PKo e' /\ srcs = bl_all b /\ elaborates (bl_earlier b) vs /\ verified_all (empty_sig eta) vs sg /\
      at_fault sg (history 0 (bl_earlier b)) (symbols_in (bl_earlier b)) (bl_cmd b) e' /\ ((exists vs', elaborates (bl_including b) vs') <-> kernel_error e') /\
      (exists st1, seq n (map Ok (program_events (bl_earlier b))) (pst_new o) = (st1, [], Ok tt)) /\
      snd (seq n (map Ok (program_events (bl_including b))) (pst_new o)) = Err (PKo e').
  Proof.
    intros Hn H. destruct (seq_error O n eta jobs _ _ _ _ _ H) as (evs1 & k & evs2 & e' & st1 & E1 & E2 & E3 & Ht & Hf & Hp & Hs); [intros c _; reflexivity|intros c _; reflexivity|split; discriminate|].
    destruct (program_split _ _ _ _ E1) as (b & -> & -> & ->). destruct (nonempty_all _ Hn) as (Hn1 & Hn2 & Hn3).
    destruct (seq_verified O n parse_error eta jobs _ _ _ E3 ltac:(intros c _; reflexivity) (pst_new o) (conj eq_refl eq_refl)) as (cmds & Hc & Hv).
    pose proof (seq_same O n eta jobs _ _ _ _ E3 (pst_new o) (conj eq_refl eq_refl)) as [S1 S2].
    pose proof (sources_hist _ Hn1 [] 0 (pst_new o) cmds (at_hist_new _) Hc) as [A1 A2]. cbn [app Nat.add] in A1, A2.
    assert (Ha : at_hist st1 (history 0 (bl_earlier b)) (symbols_in (bl_earlier b))) by (split; [rewrite S1; exact A1|rewrite S2; exact A2]).
    exists b, e', (map er_cmd cmds), (er_gctx (ps_gc st1)). split; [exact E2|]. split; [reflexivity|]. split; [eapply sources_elab; [exact Hn1|apply at_hist_new|exact Hc]|]. split; [exact Hv|].
    assert (Sq : seq n (map Ok (program_events (bl_including b))) (pst_new o) = seq n (map Ok [EvCommand (scope_command (bl_cmd b))]) st1).
    { rewrite including_events, map_app. fold o in E3. rewrite (MainProcess.seq_app), E3. reflexivity. }
    destruct Hs as [(st2 & Es)|(st2 & cmd & gc' & Es & Ei)].
    - destruct (fault_share _ _ (er_gctx (ps_gc st1)) _ _ _ _ Ha Hn2 Es) as [F1 F2]. split; [exact F1|].
      assert (Kr : ~ kernel_error e').
      { intros X. unfold share in Es. destruct (share_command (ps_syms st1) (scope_command (bl_cmd b))) as [[x it|rs]|e1| |]; try discriminate; [|injection Es as _ <-; exact X].
        destruct (symbols_insert (ps_syms st1) x (ps_next st1)) as [sy [c|e1| |]]; cbn in Es; try discriminate. injection Es as _ <-. exact X. }
      split; [|split; [exists st1; exact E3|]].
      + split; [|intros X; destruct (Kr X)]. intros [vs' He]. exfalso.
        destruct (elab_sources_share _ Hn3 [] 0 (pst_new o) vs' (at_hist_new _) He) as (cs & Ec & _). rewrite including_events, share_results_app, Hc in Ec.
        assert (Sh : forall s s', ps_syms s = ps_syms s' -> ps_next s = ps_next s' -> snd (share (scope_command (bl_cmd b)) s) = snd (share (scope_command (bl_cmd b)) s')).
        { intros s s' X1 X2. unfold share. rewrite X1, X2. destruct (share_command _ _) as [[x it|rs]|e1| |]; [destruct (symbols_insert _ x _)|..]; reflexivity. }
        specialize (Sh _ _ S1 S2). rewrite Es in Sh. cbn [share_results from_event] in Ec. destruct (share (scope_command (bl_cmd b)) (share_state _ _)) as [s3 r3]. cbn [snd] in Sh. subst r3.
        symmetry in Ec. apply map_eq_app in Ec as (l1 & l2 & _ & _ & Ec). destruct l2; discriminate.
      + rewrite Sq. cbn [map infer_checks_seq consume_item]. change (omits o StShare) with false. cbn match. cbn [from_event]. rewrite Es. cbn [option_map res_err filter_infer]. change (omits o StInfer) with false. reflexivity.
    - destruct (fault_kernel O n _ _ _ _ _ _ _ (Opts eta None jobs) _ _ Hp eq_refl Ha Hn2 eq_refl Ht Hf Es Ei) as [F1 F2]. split; [exact F1|]. split; [|split; [exists st1; exact E3|]].
      + split; [intros _; exact F2|intros _].
        assert (Sh : forall s s', ps_syms s = ps_syms s' -> ps_next s = ps_next s' -> snd (share (scope_command (bl_cmd b)) s) = snd (share (scope_command (bl_cmd b)) s')).
        { intros s s' X1 X2. unfold share. rewrite X1, X2. destruct (share_command _ _) as [[x it|rs]|e1| |]; [destruct (symbols_insert _ x _)|..]; reflexivity. }
        specialize (Sh _ _ S1 S2). rewrite Es in Sh. exists (map er_cmd (cmds ++ [cmd])). eapply sources_elab; [exact Hn3|apply at_hist_new|].
        rewrite including_events, share_results_app, Hc, map_app. f_equal. cbn [share_results from_event map]. destruct (share (scope_command (bl_cmd b)) (share_state (program_events (bl_earlier b)) (pst_new o))) as [s3 r3]. cbn [snd] in Sh. subst r3. reflexivity.
      + rewrite Sq. pose proof (share_state_gc (scope_command (bl_cmd b)) st1) as Gc. rewrite Es in Gc. cbn [fst] in Gc.
        cbn [map infer_checks_seq consume_item]. change (omits o StShare) with false. cbn match. cbn [from_event]. rewrite Es. cbn [option_map res_err filter_infer]. change (omits o StInfer) with false. cbn match. rewrite Gc. fold o in Ei. rewrite Ei. reflexivity.
  Qed.

  (** Without rules, it is the first command that is not typable. *)
  Lemma rules_all b : without_rules (bl_all b) -> without_rules (bl_earlier b) /\ without_rules (bl_including b).
  Proof.
    unfold bl_all, bl_earlier, bl_including, without_rules. intros H. split; intros m cs rs Hin X; apply in_app_or in Hin as [Hin|[[= <- <-]|[]]].
    - apply (H m cs rs); [apply in_or_app; left; exact Hin|exact X].
    - refine (H _ _ rs _ _); [apply in_or_app; right; left; reflexivity|apply in_or_app; left; exact X].
    - apply (H m cs rs); [apply in_or_app; left; exact Hin|exact X].
    - refine (H _ _ rs _ _); [apply in_or_app; right; left; reflexivity|]. apply in_app_or in X as [X|[<-|[]]]; apply in_or_app; [left; exact X|right; left; reflexivity].
  Qed.
  Lemma blame_typable b e' : Forall (fun src => Forall nonempty (snd src)) (bl_all b) -> without_rules (bl_all b) ->
    (exists st1, seq n (map Ok (program_events (bl_earlier b))) (pst_new o) = (st1, [], Ok tt)) ->
    snd (seq n (map Ok (program_events (bl_including b))) (pst_new o)) = Err (PKo e') -> typable_sources eta (bl_earlier b) /\ ~ typable_sources eta (bl_including b).
  Proof.
    intros Hn Hw [st1 H1] H2. destruct (nonempty_all _ Hn) as (Hn1 & _ & Hn3). destruct (rules_all _ Hw) as [Hw1 Hw3]. split.
    - destruct (whole_seq O eta jobs _ Hn1 Hw1) as (n0 & st & rest & r & X1 & _ & _ & X2). apply X2. fold o in X1.
      pose proof (seq_mono O n (Nat.max n n0) ltac:(lia) parse_error o (map Ok (program_events (bl_earlier b))) (pst_new o)) as E. rewrite H1 in E. specialize (E ltac:(discriminate)).
      rewrite (X1 (Nat.max n n0) ltac:(lia)) in E. congruence.
    - intros X. destruct (whole_seq O eta jobs _ Hn3 Hw3) as (n0 & st & rest & r & X1 & _ & _ & X2). apply X2 in X. subst r. fold o in X1.
      pose proof (seq_mono O n (Nat.max n n0) ltac:(lia) parse_error o (map Ok (program_events (bl_including b))) (pst_new o)) as E. rewrite (X1 (Nat.max n n0) ltac:(lia)) in E.
      destruct (seq n (map Ok (program_events (bl_including b))) (pst_new o)) as [[st2 rest2] r2]. cbn [snd] in H2. subst r2. specialize (E ltac:(discriminate)). discriminate.
  Qed.
End Blame.

(** ** kocheck and koweb *)
Lemma kocheck_seq junk O n eta inputs srcs r : Forall2 (source_of junk) inputs srcs -> kocheck junk (real_kernel O n) (Opts eta None false) false inputs r ->
  exists st rest, infer_checks_seq parse_error (real_kernel O n) (Opts eta None false) _ (consume_item parse_error (Opts eta None false)) (map Ok (program_events srcs)) (pst_new (Opts eta None false)) = (st, rest, r).
Proof.
  intros Hs (files' & Ho' & Hr). destruct (sources_opens _ _ _ Hs) as (files & Ho & Ef). apply events_all in Ef. rewrite <- (opens_det_all _ _ _ Ho _ Ho') in Hr.
  apply (proj1 (run_seq (real_kernel O n) eta files _ (pst_new (Opts eta None false)) r Ef)) in Hr. destruct (infer_checks_seq _ _ _ _ _ _ _) as [[st rest] r1]. cbn in Hr. subst. eauto.
Qed.
Lemma web_seq junk O n eta jobs modules srcs r : Forall2 (web_source junk) modules srcs -> jobs = false -> web_check junk (real_kernel O n) (Opts eta None jobs) modules r ->
  exists st rest, infer_checks_seq parse_error (real_kernel O n) (Opts eta None jobs) _ (consume_item parse_error (Opts eta None jobs)) (map Ok (program_events srcs)) (pst_new (Opts eta None jobs)) = (st, rest, r).
Proof.
  intros Hs -> (evss' & Ho' & st' & rest' & Hr). destruct (web_sources _ _ _ Hs) as (evss & Ho & Ef). rewrite <- (web_det_all _ _ _ Ho _ Ho'), Ef in Hr. exists st', rest'. exact Hr.
Qed.

Theorem main_blame junk O n eta inputs srcs e : Forall2 (source_of junk) inputs srcs -> kocheck junk (real_kernel O n) (Opts eta None false) false inputs (Err e) -> reports eta srcs e.
Proof.
  intros Hs Hk. destruct (kocheck_seq _ _ _ _ _ _ _ Hs Hk) as (st & rest & H). pose proof (source_of_nonempty _ _ _ Hs) as Hn.
  destruct (blame_seq O n eta false srcs st rest e Hn H) as (b & e' & vs & sg & H1 & H2 & H3 & H4 & H5 & H6 & H7 & H8).
  exists b, e', vs, sg. do 6 (split; [assumption|]). intros Hw. subst srcs. eapply blame_typable; eassumption.
Qed.
Theorem main_blame_web junk O n eta modules srcs e : Forall2 (web_source junk) modules srcs -> web_check junk (real_kernel O n) (Opts eta None false) modules (Err e) -> reports eta srcs e.
Proof.
  intros Hs Hk. destruct (web_seq _ _ _ _ _ _ _ _ Hs eq_refl Hk) as (st & rest & H). pose proof (web_source_nonempty _ _ _ Hs) as Hn.
  destruct (blame_seq O n eta false srcs st rest e Hn H) as (b & e' & vs & sg & H1 & H2 & H3 & H4 & H5 & H6 & H7 & H8).
  exists b, e', vs, sg. do 6 (split; [assumption|]). intros Hw. subst srcs. eapply blame_typable; eassumption.
Qed.

Theorem main_blame_decides junk O eta inputs srcs : Forall2 (source_of junk) inputs srcs -> without_rules srcs ->
  exists n0 r, (forall n, n0 <= n -> forall r', kocheck junk (real_kernel O n) (Opts eta None false) false inputs r' <-> r' = r) /\
    ((r = Ok tt /\ typable_sources eta srcs) \/ exists e, r = Err e /\ reports eta srcs e).
Proof.
  intros Hs Hw. destruct (main_whole_decides junk O eta inputs srcs Hs Hw) as (n0 & r & H1 & H2 & H3 & _ & H4). exists n0, r. split; [exact H3|].
  destruct r as [[]|e| |]; try contradiction; [left; split; [reflexivity|apply H4; reflexivity]|]. right. exists e. split; [reflexivity|].
  apply (main_blame junk O n0 eta inputs srcs e Hs). apply H3; [apply le_n|reflexivity].
Qed.

(** ** Files at fault *)
Section Files.
  Variables (K : kernel) (o : opts).
  Definition item_error (items : list (res parse_error scoped)) (e : perr parse_error) : Prop :=
    match e with PKo _ => True | PParse pe => In (Err pe) items | _ => False end.
  Lemma run_item_error it st : match snd (run_item parse_error o it st) with Some (Err e) => item_error [it] e | _ => True end.
  Proof.
    destruct it as [c|e| |]; cbn; auto. destruct (omits o StShare); cbn; [exact I|]. destruct (share c st) as [st' [cmd|e| |]]; cbn; exact I.
  Qed.
  Lemma filter_error r e : filter_infer parse_error o r = Some (Err e) -> r = Some (Err e).
  Proof. unfold filter_infer. destruct r as [[c|e'| |]|]; try destruct (omits o StInfer); congruence. Qed.
  Lemma item_error_cons it items e : item_error [it] e -> item_error (it :: items) e.
  Proof. destruct e; cbn; tauto. Qed.
  Lemma item_error_more it items e : item_error items e -> item_error (it :: items) e.
  Proof. destruct e; cbn; tauto. Qed.
  Lemma seq_item_error items : forall st st' rest e, infer_checks_seq parse_error K o _ (run_item parse_error o) items st = (st', rest, Err e) -> item_error items e.
  Proof.
    induction items as [|it items IH]; intros st st' rest e; cbn [infer_checks_seq]; [discriminate|].
    pose proof (run_item_error it st) as R. destruct (run_item parse_error o it st) as [st1 r]. cbn [snd] in R.
    destruct (filter_infer parse_error o r) as [[cmd|e1| |]|] eqn:F; cbn [res_map]; try discriminate.
    - destruct (infer_check K o cmd (ps_gc st1)) as [gc [[]|e1| |]]; cbn [res_err]; try discriminate; [|intros [= _ _ <-]; exact I].
      intros H. apply item_error_more. eapply IH; exact H.
    - intros [= _ _ <-]. apply filter_error in F. subst r. apply item_error_cons. exact R.
    - intros H. apply item_error_more. eapply IH; exact H.
  Qed.
  Notation par_step' := (par_step parse_error K o _ (run_item parse_error o)).
  Notation par_steps' := (par_steps parse_error K o _ (run_item parse_error o)).
  Lemma par_item_error p q : par_steps' p q -> forall items, (forall it, In it (p_items _ _ p) -> In it items) -> Forall (item_error items) (p_errs _ _ p) -> Forall (item_error items) (p_errs _ _ q).
  Proof.
    intros H items. induction H as [p0|p0 q0 r0 H _ IH]; intros Hi He; [exact He|]. apply IH; clear IH.
    - destruct H; cbn [p_items] in *; intros it' X; apply Hi; try exact X; right; exact X.
    - destruct H as [it items0 st st' ts es E|it items0 st st' ts es t E|it items0 st st' ts es e E|items0 st ts1 t ts2 es E|items0 st ts1 t ts2 es e E]; cbn [p_errs p_items] in *; try exact He.
      + apply Forall_app. split; [exact He|]. constructor; [|constructor]. unfold pull in E. pose proof (run_item_error it st) as R.
        destruct (run_item parse_error o it st) as [st1 r]. cbn [snd] in R. destruct (filter_infer parse_error o r) as [[cmd|e1| |]|] eqn:F; try discriminate.
        * destruct (infer K cmd (ps_gc st1)) as [gc [t|e1| |]]; try discriminate; [destruct (omits o StCheck); discriminate|]. injection E as _ <-. exact I.
        * injection E as _ <-. apply filter_error in F. subst r. destruct e1; cbn in *; try tauto. destruct R as [<-|[]]. apply Hi. left. reflexivity.
      + apply Forall_app. split; [exact He|]. repeat constructor.
  Qed.
  Lemma checks_item_error items st st' e : infer_checks parse_error K o _ (run_item parse_error o) items st st' (Err e) -> item_error items e.
  Proof.
    unfold infer_checks. destruct (o_jobs o).
    - intros (p & H & _ & X). cbn in X. pose proof (par_item_error _ _ H items (fun it Hi => Hi) (Forall_nil _)) as Y. rewrite Forall_forall in Y. exact (Y _ X).
    - intros [rest H]. eapply seq_item_error; exact H.
  Qed.
  Lemma run_files_err files st r : run_files parse_error K o files st r -> forall e, r = Err e -> exists f1 f f2, files = f1 ++ f :: f2 /\ run_files parse_error K o f1 st (Ok tt) /\
    (fst f = Err e \/ exists m, fst f = Ok m /\ item_error (snd f) e).
  Proof.
    intros H0. induction H0 as [st|e1 items files st|path items files st st' r H Hr|path items files st st' r H Hrun IH]; intros e E; try discriminate.
    - injection E as <-. exists [], (Err e1, items), files. split; [reflexivity|]. split; [constructor|]. left. reflexivity.
    - subst r. exists [], (Ok path, items), files. split; [reflexivity|]. split; [constructor|]. right. exists path. split; [reflexivity|]. eapply checks_item_error; exact H.
    - destruct (IH e E) as (f1 & f & f2 & -> & X1 & X2). exists ((Ok path, items) :: f1), f, f2. split; [reflexivity|]. split; [|exact X2]. eapply ModelProcess.run_ok; eassumption.
  Qed.
End Files.
Theorem main_blame_files junk K o inputs e : kocheck junk K o false inputs (Err e) ->
  exists i1 path contents i2, inputs = i1 ++ (path, contents) :: i2 /\ kocheck junk K o false i1 (Ok tt) /\ file_fault junk path contents e.
Proof.
  intros (files & Ho & Hr). destruct (run_files_err K o files _ _ Hr e eq_refl) as (f1 & f & f2 & -> & X1 & X2).
  apply Forall2_app_inv_r in Ho as (i1 & i2 & Ho1 & Ho2 & ->). inversion Ho2 as [|[path contents] ? i3 ? Hf Hr2]; subst. exists i1, path, contents, i3. split; [reflexivity|]. split; [exists f1; auto|].
  assert (M : forall m, module_of path m <-> exists b, path_read path = Some (m, b)).
  { intros m. rewrite <- main_module_path. unfold path_read. destruct (module_path path); split.
    - intros [= ->]. eauto.
    - intros [b [= -> _]]. reflexivity.
    - discriminate.
    - intros [b [=]]. }
  inversion Hf as [? ? Hp|? m Hp|? text m stdin items Hp Hi]; subst; cbn [fst snd] in X2.
  - destruct X2 as [[= <-]|(m & [=] & _)]. intros m X. apply M in X as [b X]. congruence.
  - destruct X2 as [[= <-]|(m' & [=] & _)]. split; [|reflexivity]. destruct m as [m b]. exists m. apply M. eauto.
  - destruct X2 as [[=]|(m' & [= <-] & X2)]. assert (Hm : module_of path m) by (apply M; eauto). destruct e as [|pe| |ke]; cbn in X2; try contradiction.
    + exists text. split; [eauto|]. split; [reflexivity|]. intros toks cs R G.
      assert (P : parse_text junk text (map Ok (map scope_command cs))) by (apply parse_text_source; eauto).
      rewrite (results_det _ _ _ P _ Hi) in X2. apply in_map_iff in X2 as (? & [=] & _).
    + split; [eauto|discriminate].
Qed.
