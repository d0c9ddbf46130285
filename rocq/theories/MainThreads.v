(** * Errors that are reported without threads may be reported with threads (C88) *)

From Verif Require Import Base ModelTerm ModelGctx ModelCommand ModelSubst ModelReduce ModelInfer ModelSyntax ModelSymbols ModelShare ModelLex ModelParse ModelMake ModelPath ModelProcess ModelMain
  SpecTerm SpecConv SpecTyping SpecSyntax SpecSymbols SpecShare SpecProcess SpecProgram SpecWhole
  MainGctx MainProcess MainRun MainChannel MainProgram MainWhole.

Definition unused (st : pst) : Prop := forall c, ps_next st <= c -> get_type (ps_gc st) c = None /\ get_rules (ps_gc st) c = None.

Section Threads.
  Variables (K : kernel) (PE : Type) (o : opts) (I : Type) (item : I -> pst -> pst * option (res (perr PE) command)).
  Notation seq := (infer_checks_seq PE K o I item).

  Lemma insert_fresh gc c ty rw : get_type gc c = None -> get_rules gc c = None -> exists g, ko_gctx (gctx_insert gc c ty rw) = (g, Ok tt).
  Proof.
    unfold gctx_insert, intro_type, intro_rules, get_type, get_rules. intros H1 H2. cbn. rewrite H1. cbn. destruct rw; cbn; [rewrite H2|]; cbn; eauto.
  Qed.
  Lemma infer_check_other gc c it gc' : infer_check K o (CIntro c it) gc = (gc', Ok tt) -> forall d, d <> c -> get_type gc' d = get_type gc d /\ get_rules gc' d = get_rules gc d.
  Proof.
    unfold infer_check. cbn [infer_with]. destruct (ko_typing (k_intro K gc it)) as [[ty chk]|e| |]; try discriminate.
    assert (G : forall g r, ko_gctx (gctx_insert gc c ty (rewritable it)) = (g, r) -> g = gc' -> forall d, d <> c -> get_type gc' d = get_type gc d /\ get_rules gc' d = get_rules gc d).
    { intros g r. destruct (gctx_insert gc c ty (rewritable it)) as [g1 e1] eqn:E. intros H ->. assert (g1 = gc') as -> by (destruct e1; cbn in H; congruence).
      intros d Hd. destruct (insert_cases _ _ _ _ _ _ E) as (T & _ & _ & _ & R). rewrite T, (R d Hd). destruct (Nat.eqb_spec d c); [contradiction|auto]. }
    destruct chk as [chk|]; [destruct (if omits o StCheck then Ok tt else ko_typing (k_check K gc chk)) as [[]|e| |]; try discriminate|];
      (destruct (ko_gctx _) as [g r]; intros [= -> ->]; eapply G; eauto).
  Qed.
  (** The error of a command is found by inference, or by the checks that inference leaves. *)
  Lemma infer_check_split gc c it gc' e : get_type gc c = None -> get_rules gc c = None -> infer_check K o (CIntro c it) gc = (gc', Err e) ->
    snd (ModelProcess.infer K (CIntro c it) gc) = Err e \/ exists t, snd (ModelProcess.infer K (CIntro c it) gc) = Ok t /\ omits o StCheck = false /\ ModelProcess.check K t = Err e.
  Proof.
    intros H1 H2. unfold infer_check, ModelProcess.infer. cbn [infer_with]. destruct (ko_typing (k_intro K gc it)) as [[ty chk]|e1| |]; try discriminate.
    - destruct (insert_fresh gc c ty (rewritable it) H1 H2) as [g Eg]. destruct chk as [chk|].
      + destruct (omits o StCheck) eqn:Eo; [rewrite Eg; discriminate|]. destruct (ko_typing (k_check K gc chk)) as [[]|e1| |] eqn:Ec; try discriminate; [rewrite Eg; discriminate|].
        intros [= _ <-]. right. rewrite Eg. cbn. eexists. split; [reflexivity|]. split; [reflexivity|]. unfold ModelProcess.check. cbn. rewrite Ec. reflexivity.
      + rewrite Eg. discriminate.
    - intros [= _ <-]. left. reflexivity.
  Qed.

  (** The element of the source yields no rules. *)
  Definition keeps (it : I) : Prop := forall st, ps_gc (fst (item it st)) = ps_gc st /\
    match snd (item it st) with
    | Some (Ok cmd) => (exists i, cmd = CIntro (ps_next st) i) /\ ps_next (fst (item it st)) = S (ps_next st)
    | _ => ps_next st <= ps_next (fst (item it st))
    end.
  Lemma filter_cases r : filter_infer PE o r = r \/ (filter_infer PE o r = None /\ exists cmd, r = Some (Ok cmd)).
  Proof. destruct r as [[cmd|e| |]|]; cbn; auto. destruct (omits o StInfer); eauto. Qed.
  Lemma unused_seq items : Forall keeps items -> forall st st' rest, unused st -> seq items st = (st', rest, Ok tt) -> unused st'.
  Proof.
    induction 1 as [|it items H _ IH]; intros st st' rest U; cbn [infer_checks_seq]; [intros [= <- _]; exact U|].
    destruct (H st) as [Gc Gn]. destruct (item it st) as [st1 r]. cbn [fst snd] in Gc, Gn.
    assert (Same : ps_next st <= ps_next st1 -> unused st1) by (intros Hl c Hc; rewrite Gc; apply U; lia).
    destruct (filter_cases r) as [->|[-> [cmd ->]]].
    - destruct r as [[cmd|e| |]|]; cbn [res_map]; try discriminate; [|intros E; eapply IH; [apply Same; exact Gn|exact E]].
      destruct Gn as [[i ->] Gn]. destruct (infer_check K o (CIntro (ps_next st) i) (ps_gc st1)) as [gc r] eqn:Ei. destruct r as [[]|e| |]; try discriminate.
      intros E. refine (IH _ _ _ _ E). intros c Hc. cbn in Hc |- *. destruct (infer_check_other _ _ _ _ Ei c ltac:(lia)) as [-> ->]. rewrite Gc. apply U. lia.
    - destruct Gn as [_ Gn]. intros E. refine (IH _ _ _ (Same _) E). lia.
  Qed.
  Lemma pull_prefix pre rest : forall st st0 ps ts, pull_all K PE o I item pre st = (st0, ps) -> Forall (good K PE) ps ->
    exists ts', par_steps PE K o I item (Par PE I (pre ++ rest) st ts []) (Par PE I rest st0 ts' []).
  Proof.
    induction pre as [|it pre IH]; intros st st0 ps ts; cbn [pull_all app]; [intros [= <- _] _; exists ts; constructor|].
    destruct (pull PE K o I item it st) as [st1 p] eqn:E1. destruct (pull_all K PE o I item pre st1) as [st2 ps'] eqn:E2. intros [= <- <-] Hp.
    inversion Hp as [|? ? Hp1 Hp2]; subst. destruct Hp1 as [->|(t & -> & Ct)].
    - destruct (IH _ _ _ ts E2 Hp2) as [ts' S]. exists ts'. econstructor; [apply step_pull_nothing; exact E1|exact S].
    - destruct (IH _ _ _ (ts ++ [t]) E2 Hp2) as [ts' S]. exists ts'. econstructor; [eapply step_pull_task; exact E1|exact S].
  Qed.
  Lemma seq_err_par items st st' rest e : Forall keeps items -> unused st -> seq items st = (st', rest, Err e) -> exists st'', infer_checks_par PE K o I item items st st'' (Err e).
  Proof.
    intros Hk U E. destruct (seq_first_error _ _ _ _ _ _ _ _ _ _ E ltac:(discriminate)) as (pre & it & st0 & -> & E1 & E2).
    apply Forall_app in Hk as [Hk1 Hk2]. apply Forall_inv in Hk2. pose proof (unused_seq _ Hk1 _ _ _ U E1) as U0.
    apply (seq_pull_all K PE o I item) in E1 as (ps & Ep & Hg). destruct (pull_prefix pre (it :: rest) _ _ _ [] Ep Hg) as [ts S].
    destruct (Hk2 st0) as [Gc Gn]. cbn [infer_checks_seq] in E2. unfold infer_checks_par.
    assert (P : pull PE K o I item it st0 = let '(st, r) := item it st0 in
      match filter_infer PE o r with
      | None => (st, Nothing PE)
      | Some (Ok cmd) => let '(gc, r) := ModelProcess.infer K cmd (ps_gc st) in
        (PSt (ps_syms st) (ps_next st) gc, match r with Ok t => if omits o StCheck then Nothing PE else Task PE t | Err e => Fails PE (PKo e) | _ => Stuck PE end)
      | Some (Err e) => (st, Fails PE e)
      | Some _ => (st, Stuck PE)
      end) by reflexivity.
    destruct (item it st0) as [st1 r]. cbn [fst snd] in Gc, Gn.
    assert (One : forall s e', pull PE K o I item it st0 = (s, Fails PE e') -> exists st'' p, par_steps PE K o I item (Par PE I (pre ++ it :: rest) st [] []) p /\ p_st PE I p = st'' /\ In e' (p_errs PE I p)).
    { intros s e' X. exists s. eexists. split; [eapply steps_trans; [exact S|eapply steps_one; eapply step_pull_fails; exact X]|]. split; [reflexivity|]. left. reflexivity. }
    destruct (filter_cases r) as [X|[X [cmd ->]]]; rewrite X in E2, P; [|discriminate].
    destruct r as [[cmd|e1| |]|]; cbn [res_map] in E2; try discriminate.
    - destruct Gn as [[i ->] Gn]. destruct (infer_check K o (CIntro (ps_next st0) i) (ps_gc st1)) as [gc r] eqn:Ei. destruct (U0 (ps_next st0) (le_n _)) as [U1 U2]. rewrite <- Gc in U1, U2.
      destruct r as [[]|e1| |]; try discriminate. injection E2 as _ <-. destruct (infer_check_split _ _ _ _ _ U1 U2 Ei) as [Y|(t & Y & Yo & Yc)];
        destruct (ModelProcess.infer K (CIntro (ps_next st0) i) (ps_gc st1)) as [g r] eqn:Ef; pose proof (eq_trans (eq_sym (f_equal snd Ef)) Y) as Z; cbn [snd] in Z; subst r; [eapply One; exact P|].
      rewrite Yo in P. do 2 eexists. split; [eapply steps_trans; [exact S|]|].
      + eapply steps_step; [eapply step_pull_task; exact P|]. eapply steps_step; [eapply step_check_err; exact Yc|]. apply steps_refl.
      + split; [reflexivity|]. left. reflexivity.
    - injection E2 as _ <-. eapply One. exact P.
  Qed.
End Threads.

Lemma share_keeps x args i st : ps_gc (fst (share (PIntro x args i) st)) = ps_gc st /\
  match snd (share (PIntro x args i) st) with
  | Ok cmd => (exists i, cmd = CIntro (ps_next st) i) /\ ps_next (fst (share (PIntro x args i) st)) = S (ps_next st)
  | _ => ps_next st <= ps_next (fst (share (PIntro x args i) st))
  end.
Proof.
  unfold share. destruct (share_command _ (PIntro x args i)) as [[y it|rs]|e| |] eqn:E; try (split; [reflexivity|apply le_n]).
  - destruct (symbols_insert (ps_syms st) y (ps_next st)) as [syms r] eqn:Es. cbn. split; [reflexivity|].
    unfold symbols_insert in Es. injection Es as _ <-. destruct (match m_find _ _ with Some m => _ | None => _ end); cbn; [lia|eauto].
  - exfalso. cbn in E. destruct (share_intro _ _); cbn in E; try discriminate. destruct (share_args _ _ _); discriminate.
Qed.
Definition plain_command (c : scoped) : Prop := exists x args i, c = PIntro x args i.
Lemma run_keeps PE o it : (forall c, it = Ok c -> plain_command c) -> keeps PE _ (run_item PE o) it.
Proof.
  intros H st. destruct it as [c|e| |]; cbn; try (split; [reflexivity|apply le_n]). destruct (omits o StShare); cbn; [split; [reflexivity|apply le_n]|].
  destruct (H c eq_refl) as (x & args & i & ->). pose proof (share_keeps x args i st) as [G1 G2]. destruct (share _ st) as [st1 r]. cbn [fst snd] in *. split; [exact G1|].
  destruct r; cbn; exact G2.
Qed.
Lemma consume_keeps PE o it : (forall c, it = Ok (EvCommand c) -> plain_command c) -> keeps PE _ (consume_item PE o) it.
Proof.
  intros H st. destruct it as [ev|e| |]; cbn; try (split; [reflexivity|apply le_n]). destruct (omits o StShare); cbn; [split; [reflexivity|apply le_n]|].
  destruct ev as [p|c]; cbn; [split; [reflexivity|apply le_n]|].
  destruct (H c eq_refl) as (x & args & i & ->). pose proof (share_keeps x args i st) as [G1 G2]. destruct (share _ st) as [st1 r]. cbn [fst snd] in *. split; [exact G1|].
  destruct r; cbn; exact G2.
Qed.
Lemma unused_new o : unused (pst_new o).
Proof. intros c _. split; reflexivity. Qed.

Section Run.
  Variables (PE : Type) (K : kernel) (eta : bool) (om : option stage).
  Lemma seq_threads I (item : I -> _) items st st' r : Forall (keeps PE I item) items -> unused st -> r <> Panic -> r <> Fuel ->
    infer_checks PE K (Opts eta om false) I item items st st' r -> exists st'', infer_checks PE K (Opts eta om true) I item items st st'' r /\ (r = Ok tt -> st'' = st' /\ unused st').
  Proof.
    intros Hk U H1 H2 [rest E]. destruct r as [[]|e| |]; try contradiction.
    - exists st'. split; [|intros _; split; [reflexivity|eapply unused_seq; eassumption]]. apply (infer_checks_ok K PE (Opts eta om true)). pose proof (seq_ok_rest _ _ _ _ _ _ _ _ _ E) as ->. exact E.
    - destruct (seq_err_par K PE (Opts eta om true) I item items st st' rest e Hk U E) as [st'' X]. exists st''. split; [exact X|discriminate].
  Qed.
  Lemma run_threads files : (forall path items c, In (path, items) files -> In (Ok c) items -> plain_command c) -> forall st r, unused st -> r <> Panic -> r <> Fuel ->
    run_files PE K (Opts eta om false) files st r -> run_files PE K (Opts eta om true) files st r.
  Proof.
    intros Hf st r U H1 H2 H. induction H as [st|e items files st|path items files st st' r Hi Hr|path items files st st' r Hi Hr IH]; [constructor|constructor| |].
    - destruct (seq_threads _ (run_item PE (Opts eta om false)) items (PSt (set_path (ps_syms st) path) (ps_next st) (ps_gc st)) _ _ ltac:(apply Forall_forall; intros it Hit; apply run_keeps; intros c ->; eapply Hf; [left; reflexivity|exact Hit]) U H1 H2 Hi) as (st'' & X & _).
      eapply run_err; eassumption.
    - destruct (seq_threads _ (run_item PE (Opts eta om false)) items (PSt (set_path (ps_syms st) path) (ps_next st) (ps_gc st)) st' (Ok tt) ltac:(apply Forall_forall; intros it Hit; apply run_keeps; intros c ->; eapply Hf; [left; reflexivity|exact Hit]) U ltac:(discriminate) ltac:(discriminate) Hi) as (st'' & X & Y).
      destruct (Y eq_refl) as [-> U']. eapply run_ok; [exact X|]. apply IH; try assumption. intros p its c Hin. apply Hf with p. right. exact Hin.
  Qed.
  Lemma main_run_threads files r : (forall path items c, In (path, items) files -> In (Ok c) items -> plain_command c) -> r <> Panic -> r <> Fuel ->
    ModelProcess.run PE K (Opts eta om false) files r -> ModelProcess.run PE K (Opts eta om true) files r.
  Proof. intros Hf H1 H2 H. exact (run_threads files Hf _ r (unused_new _) H1 H2 H). Qed.
  Lemma main_consume_threads evs r : (forall c, In (Ok (EvCommand c)) evs -> plain_command c) -> r <> Panic -> r <> Fuel ->
    consume PE K (Opts eta om false) evs r -> consume PE K (Opts eta om true) evs r.
  Proof.
    intros Hf H1 H2 [st H]. destruct (seq_threads _ _ _ _ _ _ ltac:(apply Forall_forall; intros it Hit; apply consume_keeps; intros c ->; apply Hf; exact Hit) (unused_new _) H1 H2 H) as (st'' & X & _).
    exists st''. exact X.
  Qed.
End Run.

Lemma program_plain srcs c : without_rules srcs -> In (EvCommand c) (program_events srcs) -> plain_command c.
Proof.
  intros Hw. unfold program_events. rewrite in_flat_map. intros ([m cs] & Hin & Hc). unfold source_events in Hc. destruct Hc as [Hc|Hc]; [discriminate|].
  apply in_map_iff in Hc as (k & E & Hk). injection E as <-. cbn in Hk. destruct k as [x args i|rs]; [|destruct (Hw m cs rs Hin Hk)].
  cbn. destruct (scope_args [] args). unfold plain_command. eauto.
Qed.
Lemma files_events_in files : forall evs, files_events parse_error files = Some evs -> forall path items c, In (path, items) files -> In (Ok c) items -> In (EvCommand c) evs.
Proof.
  induction files as [|[[p|e| |] its] files IH]; intros evs; cbn [files_events]; try discriminate; [intros _ path items c []|].
  destruct (file_commands parse_error its) as [evs1|] eqn:E1; [|discriminate]. destruct (files_events parse_error files) as [evs2|]; [|discriminate]. intros [= <-] path items c Hin Hc.
  right. apply in_or_app. destruct Hin as [[= <- <-]|Hin]; [left|right; eapply IH; eauto].
  clear - E1 Hc. revert evs1 E1. induction its as [|[k|e| |] its IH]; intros evs1; cbn [file_commands]; try discriminate; [destruct Hc|].
  destruct (file_commands parse_error its) as [l|]; cbn; [|discriminate]. intros [= <-]. destruct Hc as [[= <-]|Hc]; [left; reflexivity|right; eapply IH; eauto].
Qed.

(** ** No error for commands before the first error *)
Lemma main_later K PE o I item items rest st st0 p e : infer_checks_seq PE K o I item items st = (st0, [], Ok tt) ->
  par_steps PE K o I item (Par PE I (items ++ rest) st [] []) p -> In e (p_errs PE I p) ->
  exists pre it post, rest = pre ++ it :: post /\
    (snd (pull PE K o I item it (fst (pull_all K PE o I item pre st0))) = Fails PE e \/
     exists t ke, snd (pull PE K o I item it (fst (pull_all K PE o I item pre st0))) = Task PE t /\ ModelProcess.check K t = Err ke /\ e = PKo ke).
Proof.
  intros E S He. destruct (par_error _ _ _ _ _ _ _ _ _ S He) as (_ & pre & it & post & Ei & H).
  apply (seq_pull_all K PE o I item) in E as (ps & Ep & Hg). destruct (app_eq_app _ _ _ _ Ei) as [l [[E1 E2]|[E1 E2]]].
  - destruct l as [|x l]; cbn in E2; [exists [], it, post; split; [symmetry; exact E2|]; rewrite app_nil_r in E1; subst pre; rewrite Ep in H; exact H|]. exfalso. injection E2 as <- ->. subst items.
    rewrite pull_all_app in Ep. destruct (pull_all K PE o I item pre st) as [st1 ps1]. cbn [fst pull_all] in *. destruct (pull PE K o I item it st1) as [st2 x]. destruct (pull_all K PE o I item l st2) as [st3 ps2].
    injection Ep as <- <-. apply Forall_app in Hg as [_ Hg]. apply Forall_inv in Hg. cbn [snd] in H. destruct Hg as [->|(t & -> & Hc)]; destruct H as [H|(t' & ke & H & H' & _)]; congruence.
  - exists l, it, post. split; [exact E2|]. rewrite E1, pull_all_app, Ep in H. destruct (pull_all K PE o I item l st0) as [st1 ps1]. exact H.
Qed.

(** ** Through a channel *)
Lemma before_plain PE files : (forall path items c, In (path, items) files -> In (Ok c) items -> plain_command c) -> forall c, In (Ok (EvCommand c)) (fst (events_before PE files)) -> plain_command c.
Proof.
  induction files as [|[[p|e| |] items] files IH]; intros Hf c; cbn [events_before]; try (intros []).
  destruct (events_before PE files) as [evs r]. cbn [fst]. intros [H|H]; [discriminate|]. apply in_app_or in H as [H|H].
  - apply in_map_iff in H as (it & E & Hin). destruct it as [k|e| |]; try discriminate. injection E as <-. eapply Hf; [left; reflexivity|exact Hin].
  - apply IH; [intros path its k Hin; apply (Hf path its); right; exact Hin|exact H].
Qed.
Lemma main_channel_threads PE K eta om files r : (forall path items c, In (path, items) files -> In (Ok c) items -> plain_command c) -> r <> Panic -> r <> Fuel ->
  main_channel PE K (Opts eta om false) files r -> main_channel PE K (Opts eta om true) files r.
Proof.
  intros Hf H1 H2 H. apply main_channel_iff in H. apply main_channel_iff. pose proof (before_plain PE files Hf) as Hp. destruct H as [H|(e & k & H3 & H4 & H5)].
  - left. destruct (snd (events_before PE files)); try exact H. eapply main_consume_threads; eassumption.
  - right. exists e, k. split; [exact H3|]. split; [exact H4|]. apply main_consume_threads; [|discriminate|discriminate|exact H5].
    intros c Hin. apply Hp. rewrite <- (firstn_skipn k). apply in_or_app. left. exact Hin.
Qed.
Lemma main_threads_any junk K eta om channel inputs srcs r : Forall2 (source_of junk) inputs srcs -> without_rules srcs -> r <> Panic -> r <> Fuel ->
  kocheck junk K (Opts eta om false) channel inputs r -> kocheck junk K (Opts eta om true) channel inputs r.
Proof.
  intros Hs Hw H1 H2 (files & Ho & H). exists files. split; [exact Ho|]. destruct (sources_opens _ _ _ Hs) as (files' & Ho' & Ef). rewrite <- (opens_det_all _ _ _ Ho _ Ho') in Ef.
  assert (Hf : forall path items c, In (path, items) files -> In (Ok c) items -> plain_command c) by (intros path items c Hin Hc; eapply program_plain; [exact Hw|]; eapply files_events_in; eassumption).
  destruct channel; [apply main_channel_threads|apply main_run_threads]; assumption.
Qed.
