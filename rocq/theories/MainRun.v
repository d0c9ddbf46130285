(** * Lemmas for C18-C23: whole runs *)

From Verif Require Import Base ModelTerm ModelGctx ModelCommand ModelInfer ModelSyntax ModelSymbols ModelShare ModelProcess
  SpecTerm SpecConv SpecTyping SpecQuery SpecProcess Erase MainProcess.

Section Runs.
  Variable PE : Type.
  Variable K : kernel.

  (** ** [run] and [consume] *)
  Section Opts.
  Variable o : opts.
  Notation rseq := (infer_checks_seq PE K o _ (run_item PE o)).
  Notation cseq := (infer_checks_seq PE K o _ (consume_item PE o)).
  Notation ev_of := (fun r : res PE scoped => res_err PParse (res_map EvCommand r)).
  Definition with_path (st : pst) (path : list str) : pst := PSt (set_path (ps_syms st) path) (ps_next st) (ps_gc st).

  Lemma item_ev it st : consume_item PE o (ev_of it) st = run_item PE o it st.
  Proof.
    destruct it as [c|e| |]; cbn; auto. destruct (omits o StShare); [reflexivity|].
    destruct (share c st). reflexivity.
  Qed.
  Lemma seq_ev items : forall st, cseq (map ev_of items) st =
    let '(st', rest, r) := rseq items st in (st', map ev_of rest, r).
  Proof.
    induction items as [|it items IH]; intros st; [reflexivity|].
    cbn [map infer_checks_seq]. pose proof (item_ev it st) as H. cbn beta in H. rewrite H. destruct (run_item PE o it st) as [st1 r1].
    destruct (filter_infer PE o r1) as [[cmd|e| |]|]; try reflexivity; [|apply IH].
    destruct (infer_check K o cmd (ps_gc st1)) as [gc [u|e| |]]; try reflexivity. apply IH.
  Qed.
  Lemma seq_module path items st : omits o StShare = false -> cseq (Ok (EvModule path) :: items) st = cseq items (with_path st path).
  Proof. intros H. cbn [infer_checks_seq consume_item]. rewrite H. reflexivity. Qed.
  (** with [--omit share], the state does not matter *)
  Lemma seq_omit_share items : omits o StShare = true -> forall st,
    (exists st', cseq items st = (st', [], Ok tt)) <-> Forall (fun r => is_ok r = true) items.
  Proof.
    intros H. induction items as [|it items IH]; intros st.
    - cbn. split; eauto.
    - cbn [infer_checks_seq]. destruct it as [ev|e| |]; cbn [consume_item]; rewrite ?H; cbn.
      + rewrite IH. split; [constructor; auto|]. intros X. inversion X. auto.
      + split; [intros (? & [=])|]. intros X. inversion X. discriminate.
      + split; [intros (? & [=])|]. intros X. inversion X. discriminate.
      + split; [intros (? & [=])|]. intros X. inversion X. discriminate.
  Qed.

  (** all events, if all files can be opened *)
  Fixpoint all_events (files : list (file PE)) : option (list (res (perr PE) event)) :=
    match files with
    | [] => Some []
    | (Ok path, items) :: files => option_map (app (file_events PE path items)) (all_events files)
    | _ => None
    end.
  Lemma run_ok_iff files : forall st, run_files PE K o files st (Ok tt) <->
    exists evs st', all_events files = Some evs /\ cseq evs st = (st', [], Ok tt).
  Proof.
    induction files as [|[[path|e| |] items] files IH]; intros st.
    - cbn. split; [|constructor]. intros _. exists [], st. auto.
    - cbn [all_events]. transitivity (exists st1, rseq items (with_path st path) = (st1, [], Ok tt) /\ run_files PE K o files st1 (Ok tt)).
      { split.
        - intros H. inversion H as [| |? ? ? ? ? ? ? X|? ? ? ? st1 ? X Y]; subst; [discriminate|]. apply infer_checks_ok in X. eauto.
        - intros (st1 & X & Y). eapply run_ok; [apply infer_checks_ok; exact X|exact Y]. }
      destruct (omits o StShare) eqn:Om.
      + transitivity (exists evs, option_map (app (file_events PE path items)) (all_events files) = Some evs /\ Forall (fun r => is_ok r = true) evs).
        2:{ split; [intros (evs & E & H); exists evs|intros (evs & st' & E & H); exists evs; split; [exact E|]].
            - apply (seq_omit_share _ Om st) in H as [st' H]. eauto.
            - apply (seq_omit_share _ Om st). eauto. }
        assert (X : (exists st1, rseq items (with_path st path) = (st1, [], Ok tt)) <-> Forall (fun r => is_ok r = true) (file_events PE path items)).
        { rewrite <- (seq_omit_share (file_events PE path items) Om (with_path st path)). unfold file_events. cbn [infer_checks_seq consume_item]. rewrite Om. cbn [filter_infer].
          setoid_rewrite seq_ev. destruct (rseq items (with_path st path)) as [[st1 rest] r] eqn:E.
          split; intros (st' & E'); injection E' as -> Er ->; exists st'; [subst; reflexivity|]. destruct rest; [reflexivity|discriminate]. }
        split.
        * intros (st1 & H1 & H2). apply IH in H2 as (evs & st' & E & H2). rewrite E. eexists. split; [reflexivity|].
          apply Forall_app. split; [apply X; eauto|]. apply (seq_omit_share _ Om st1). eauto.
        * intros (evs & E & H). destruct (all_events files) as [evs'|] eqn:E'; [|discriminate]. cbn in E. injection E as <-.
          change (Forall (fun r => is_ok r = true) (file_events PE path items ++ evs')) in H. apply Forall_app in H as [H1 H2]. apply X in H1 as [st1 H1]. exists st1. split; [exact H1|]. apply IH.
          apply (seq_omit_share _ Om st1) in H2 as [st' H2]. eauto.
      + split.
        * intros (st1 & H1 & H2). apply IH in H2 as (evs & st' & E & H2). rewrite E. exists (file_events PE path items ++ evs), st'. split; [reflexivity|].
          unfold file_events. cbn [app]. rewrite seq_module by exact Om. rewrite seq_app, seq_ev, H1. exact H2.
        * intros (evs & st' & E & H). destruct (all_events files) as [evs'|] eqn:E'; [|discriminate]. cbn in E. injection E as <-.
          change (cseq (Ok (EvModule path) :: (map ev_of items ++ evs')) st = (st', [], Ok tt)) in H.
          rewrite seq_module in H by exact Om. rewrite seq_app, seq_ev in H.
          destruct (rseq items (with_path st path)) as [[st1 rest] [[]|e| |]] eqn:E1; try discriminate.
          pose proof (seq_ok_rest _ _ _ _ _ _ _ _ _ E1) as ->. exists st1. split; [reflexivity|]. apply IH. eauto.
    - split; [intros H; inversion H|]. intros (? & ? & [=] & _).
    - split; [intros H; inversion H|]. intros (? & ? & [=] & _).
    - split; [intros H; inversion H|]. intros (? & ? & [=] & _).
  Qed.
  Lemma consume_ok_iff evs : consume PE K o evs (Ok tt) <-> exists st', cseq evs (pst_new o) = (st', [], Ok tt).
  Proof. unfold consume. split; intros (st & H); exists st; apply infer_checks_ok; exact H. Qed.

  Lemma produce_all files : forall cap evs r b, produce PE files cap = (evs, r, b) ->
    (b = false -> r = Ok tt -> all_events files = Some evs) /\
    (b = true -> forall evs', all_events files = Some evs' -> exists rest, evs' = evs ++ rest) /\
    (forall e, r = Err e \/ r = Panic \/ r = Fuel -> all_events files = None).
  Proof.
    induction files as [|[[path|e| |] items] files IH]; intros cap evs r b; cbn [produce all_events].
    - intros [= <- <- <-]. repeat split; try discriminate. intros e [|[|]]; discriminate.
    - destruct cap as [n|].
      + destruct (n <? length (file_events PE path items)) eqn:L.
        * intros [= <- <- <-]. split; [discriminate|]. split.
          -- intros _ evs' E. destruct (all_events files) as [evs2|]; [|discriminate]. injection E as <-.
             exists (skipn n (file_events PE path items) ++ evs2). rewrite app_assoc, firstn_skipn. reflexivity.
          -- intros e [|[|]]; discriminate.
        * destruct (produce PE files (Some _)) as [[evs2 r2] b2] eqn:E2. intros [= <- <- <-]. destruct (IH _ _ _ _ E2) as (H1 & H2 & H3).
          split; [|split].
          -- intros Hb Hr. rewrite (H1 Hb Hr). reflexivity.
          -- intros Hb evs' E. destruct (all_events files) as [evs3|]; [|discriminate]. injection E as <-.
             destruct (H2 Hb _ eq_refl) as [rest ->]. exists rest. rewrite app_assoc. reflexivity.
          -- intros e He. rewrite (H3 e He). reflexivity.
      + destruct (produce PE files None) as [[evs2 r2] b2] eqn:E2. intros [= <- <- <-]. destruct (IH _ _ _ _ E2) as (H1 & H2 & H3).
        split; [|split].
        -- intros Hb Hr. rewrite (H1 Hb Hr). reflexivity.
        -- intros Hb evs' E. destruct (all_events files) as [evs3|]; [|discriminate]. injection E as <-.
           destruct (H2 Hb _ eq_refl) as [rest ->]. exists rest. rewrite app_assoc. reflexivity.
        -- intros e He. rewrite (H3 e He). reflexivity.
    - intros [= <- <- <-]. repeat split; discriminate.
    - intros [= <- <- <-]. repeat split; discriminate.
    - intros [= <- <- <-]. repeat split; discriminate.
  Qed.
  Lemma produce_none files evs : all_events files = Some evs -> produce PE files None = (evs, Ok tt, false).
  Proof.
    revert evs. induction files as [|[[path|e| |] items] files IH]; intros evs; cbn [produce all_events]; try discriminate.
    - intros [= <-]. reflexivity.
    - destruct (all_events files) as [evs'|]; [|discriminate]. intros [= <-]. rewrite (IH _ eq_refl). reflexivity.
  Qed.

  (** C21 *)
  Lemma main_stream files : run PE K o files (Ok tt) <-> main_channel PE K o files (Ok tt).
  Proof.
    unfold run. rewrite run_ok_iff. split.
    - intros (evs & st' & E & H). exists None, evs, (Ok tt), false. split; [apply produce_none; exact E|]. split; [|discriminate].
      apply consume_ok_iff. eauto.
    - intros (cap & evs & r1 & b & E & H). destruct r1 as [[]|e| |]; try discriminate. destruct H as [H Hb].
      destruct b; [destruct (Hb eq_refl) as (e & [=])|]. destruct (produce_all _ _ _ _ _ E) as (H1 & _). exists evs.
      apply consume_ok_iff in H as [st' H]. exists st'. split; [apply H1; reflexivity|exact H].
  Qed.
  Lemma consume_ok_unique evs rest r : consume PE K o (evs ++ rest) (Ok tt) -> consume PE K o evs r -> r = Ok tt.
  Proof.
    intros H [st' H']. apply consume_ok_iff in H as [st1 H]. rewrite seq_app in H.
    destruct (cseq evs (pst_new o)) as [[st2 rest2] [[]|e| |]] eqn:E; try discriminate.
    pose proof (seq_ok_rest _ _ _ _ _ _ _ _ _ E) as ->.
    unfold infer_checks in H'. destruct (o_jobs o).
    - destruct H' as (p & S & _ & R). destruct (par_no_error _ _ _ _ _ _ _ _ _ E S) as [Er _]. destruct r as [[]|e| |]; cbn in R; try contradiction; [reflexivity|].
      rewrite Er in R. destruct R.
    - destruct H' as [rest' H']. rewrite E in H'. congruence.
  Qed.
  Lemma main_stream_unique files r : run PE K o files (Ok tt) -> main_channel PE K o files r -> r = Ok tt.
  Proof.
    unfold run. rewrite run_ok_iff. intros (evs & st' & E & H) (cap & evs1 & r1 & b & E1 & H1).
    assert (C : consume PE K o evs (Ok tt)) by (apply consume_ok_iff; eauto).
    destruct (produce_all _ _ _ _ _ E1) as (P1 & P2 & P3). destruct r1 as [[]|e| |].
    - destruct H1 as [H1 H2]. destruct b.
      + destruct (P2 eq_refl _ E) as [rest ->]. apply (consume_ok_unique _ _ _ C H1).
      + rewrite (P1 eq_refl eq_refl) in E. injection E as <-. rewrite <- (app_nil_r evs1) in C. apply (consume_ok_unique _ _ _ C H1).
    - rewrite (P3 e) in E by auto. discriminate.
    - rewrite (P3 PModule) in E by auto. discriminate.
    - rewrite (P3 PModule) in E by auto. discriminate.
  Qed.
  Lemma main_run_unique files : forall st r, run_files PE K o files st (Ok tt) -> run_files PE K o files st r -> r = Ok tt.
  Proof.
    induction files as [|[[path|e| |] items] files IH]; intros st r H H'; [inversion H'; reflexivity| |inversion H..].
    inversion H as [| |? ? ? ? ? ? ? X|? ? ? ? st1 ? X Y]; subst; [discriminate|]. apply infer_checks_ok in X.
    inversion H' as [| |? ? ? ? st2 ? X' Y'|? ? ? ? st2 ? X' Y']; subst.
    - exfalso. unfold infer_checks in X'. destruct (o_jobs o).
      + destruct X' as (p & S & _ & R). destruct (par_no_error _ _ _ _ _ _ _ _ _ X S) as [Er _]. destruct r as [[]|e| |]; cbn in R; try contradiction; [discriminate|].
        rewrite Er in R. destruct R.
      + destruct X' as [rest' X']. rewrite X in X'. injection X' as _ _ <-. discriminate.
    - apply infer_checks_ok in X'. rewrite X in X'. injection X' as <-. eapply IH; eauto.
  Qed.
  End Opts.

  (** ** C19, whole runs *)
  Lemma seq_jobs eta om j1 j2 : forall evs st,
    infer_checks_seq PE K (Opts eta om j1) _ (consume_item PE (Opts eta om j1)) evs st =
    infer_checks_seq PE K (Opts eta om j2) _ (consume_item PE (Opts eta om j2)) evs st.
  Proof. reflexivity. Qed.
  Lemma main_run_jobs eta om files :
    run PE K (Opts eta om true) files (Ok tt) <-> run PE K (Opts eta om false) files (Ok tt).
  Proof. unfold run. rewrite !run_ok_iff. reflexivity. Qed.
  Lemma main_consume_jobs eta om evs :
    consume PE K (Opts eta om true) evs (Ok tt) <-> consume PE K (Opts eta om false) evs (Ok tt).
  Proof. rewrite !consume_ok_iff. reflexivity. Qed.

  (** ** C20 *)
  Section Omit.
    Variable eta jobs : bool.
    Notation O om := (Opts eta om jobs).
    Notation cs om := (infer_checks_seq PE K (O om) _ (consume_item PE (O om))).

    Lemma omit_check evs : forall st st', cs None evs st = (st', [], Ok tt) -> cs (Some StCheck) evs st = (st', [], Ok tt).
    Proof.
      induction evs as [|ev evs IH]; intros st st' H; [exact H|].
      cbn [infer_checks_seq] in *. change (consume_item PE (O (Some StCheck)) ev st) with (consume_item PE (O None) ev st).
      destruct (consume_item PE (O None) ev st) as [st1 r].
      change (filter_infer PE (O (Some StCheck)) r) with (filter_infer PE (O None) r).
      destruct (filter_infer PE (O None) r) as [[cmd|e| |]|]; try discriminate; [|auto].
      destruct (infer_check K (O None) cmd (ps_gc st1)) as [gc [[]|e| |]] eqn:E; try discriminate.
      apply infer_check_infer in E as (chks & E & _).
      assert (X : infer_check K (O (Some StCheck)) cmd (ps_gc st1) = (gc, Ok tt)) by (apply infer_check_infer; eauto).
      rewrite X. auto.
    Qed.
    Definition same_syms (a b : pst) : Prop := ps_syms a = ps_syms b /\ ps_next a = ps_next b.
    Lemma share_same cmd a b : same_syms a b -> same_syms (fst (share cmd a)) (fst (share cmd b)) /\ snd (share cmd a) = snd (share cmd b).
    Proof.
      destruct a as [s n g], b as [s' n' g']. unfold same_syms. cbn. intros [-> ->]. unfold share. cbn.
      destruct (share_command s' cmd) as [[id it|rules]|e| |]; cbn; auto.
    Qed.
    Lemma from_event_same ev a b : same_syms a b -> same_syms (fst (from_event ev a)) (fst (from_event ev b)) /\ snd (from_event ev a) = snd (from_event ev b).
    Proof.
      intros H. destruct ev as [path|cmd]; cbn.
      - destruct a as [s n g], b as [s' n' g']. unfold same_syms in *. cbn in *. destruct H as [-> ->]. auto.
      - destruct (share_same cmd a b H) as [H1 H2]. destruct (share cmd a), (share cmd b). cbn in *. split; [exact H1|congruence].
    Qed.
    Lemma omit_infer evs : forall st st' st2, cs (Some StCheck) evs st = (st', [], Ok tt) -> same_syms st st2 ->
      exists st2', cs (Some StInfer) evs st2 = (st2', [], Ok tt).
    Proof.
      induction evs as [|ev evs IH]; intros st st' st2 H S; [eexists; reflexivity|].
      cbn [infer_checks_seq] in *. destruct ev as [ev|e| |]; cbn [consume_item omits o_omit stage_eqb] in *; try discriminate.
      destruct (from_event_same ev st st2 S) as [S' E]. destruct (from_event ev st) as [st1 r]. destruct (from_event ev st2) as [st3 r']. cbn in S', E. subst r'.
      destruct r as [[cmd|e| |]|]; cbn in *; try discriminate; [|eauto].
      destruct (infer_check K (O (Some StCheck)) cmd (ps_gc st1)) as [gc [[]|e| |]]; try discriminate. eapply IH; eauto.
    Qed.
    Lemma omit_share evs : forall st st' st2, cs (Some StInfer) evs st = (st', [], Ok tt) -> exists st2', cs (Some StShare) evs st2 = (st2', [], Ok tt).
    Proof.
      intros st st' st2 H. apply seq_omit_share; [reflexivity|]. revert st st' H.
      induction evs as [|ev evs IH]; intros st st' H; constructor.
      - destruct ev; cbn in H; try discriminate. reflexivity.
      - cbn [infer_checks_seq] in H. destruct ev as [ev|e| |]; cbn [consume_item omits o_omit stage_eqb] in *; try discriminate.
        destruct (from_event ev st) as [st1 [[cmd|e| |]|]]; cbn in H; try discriminate; eauto.
    Qed.
    Lemma main_omit_consume evs :
      (consume PE K (O None) evs (Ok tt) -> consume PE K (O (Some StCheck)) evs (Ok tt)) /\
      (consume PE K (O (Some StCheck)) evs (Ok tt) -> consume PE K (O (Some StInfer)) evs (Ok tt)) /\
      (consume PE K (O (Some StInfer)) evs (Ok tt) -> consume PE K (O (Some StShare)) evs (Ok tt)).
    Proof.
      rewrite !consume_ok_iff. split; [|split]; intros (st & H).
      - exists st. apply omit_check. exact H.
      - eapply omit_infer; [exact H|]. split; reflexivity.
      - eapply omit_share; exact H.
    Qed.
    Lemma main_omit_run files :
      (run PE K (O None) files (Ok tt) -> run PE K (O (Some StCheck)) files (Ok tt)) /\
      (run PE K (O (Some StCheck)) files (Ok tt) -> run PE K (O (Some StInfer)) files (Ok tt)) /\
      (run PE K (O (Some StInfer)) files (Ok tt) -> run PE K (O (Some StShare)) files (Ok tt)).
    Proof.
      unfold run. rewrite !run_ok_iff. split; [|split]; intros (evs & st & E & H); exists evs.
      - exists st. split; [exact E|]. apply omit_check. exact H.
      - apply omit_infer with (st2 := pst_new (O (Some StInfer))) in H as [st' H]; [eauto|]. split; reflexivity.
      - apply omit_share with (st2 := pst_new (O (Some StShare))) in H as [st' H]. eauto.
    Qed.

    (** what is left: only parsing *)
    Lemma main_omit_share evs : consume PE K (O (Some StShare)) evs (Ok tt) <-> Forall (fun r => is_ok r = true) evs.
    Proof. rewrite consume_ok_iff. apply seq_omit_share. reflexivity. Qed.
    (** only parsing and sharing *)
    Lemma seq_omit_infer evs : forall st, (exists st', cs (Some StInfer) (map Ok evs) st = (st', [], Ok tt)) <->
      Forall (fun r => is_ok r = true) (share_results evs st).
    Proof.
      induction evs as [|ev evs IH]; intros st; cbn [map infer_checks_seq share_results]; [split; eauto|].
      cbn [consume_item omits o_omit stage_eqb]. destruct (from_event ev st) as [st1 [[cmd|e| |]|]]; cbn.
      - rewrite IH. split; [constructor; auto|]. intros H. inversion H. auto.
      - split; [intros (? & [=])|]. intros X. inversion X. discriminate.
      - split; [intros (? & [=])|]. intros X. inversion X. discriminate.
      - split; [intros (? & [=])|]. intros X. inversion X. discriminate.
      - apply IH.
    Qed.
    Lemma main_omit_infer evs : consume PE K (O (Some StInfer)) (map Ok evs) (Ok tt) <->
      Forall (fun r => is_ok r = true) (share_results evs (pst_new (O (Some StInfer)))).
    Proof. rewrite consume_ok_iff. apply seq_omit_infer. Qed.
  End Omit.

End Runs.

(** only checks are omitted: as with a kernel that accepts all checks *)
Definition accept_checks (K : kernel) : kernel := Kernel (k_intro K) (k_rewrite K) (fun _ _ => Ok tt).
Section OmitCheck.
  Variable PE : Type.
  Variable K : kernel.
  Variable eta jobs : bool.
  Lemma main_omit_check evs : consume PE K (Opts eta (Some StCheck) jobs) evs (Ok tt) <->
    consume PE (accept_checks K) (Opts eta None jobs) evs (Ok tt).
  Proof. rewrite !consume_ok_iff. reflexivity. Qed.
End OmitCheck.

Lemma main_produce_consume PE K o files : run PE K o files (Ok tt) <->
  exists evs, produce PE files None = (evs, Ok tt, false) /\ consume PE K o evs (Ok tt).
Proof.
  unfold run. rewrite run_ok_iff. split.
  - intros (evs & st' & E & H). exists evs. split; [apply produce_none; exact E|]. apply consume_ok_iff. eauto.
  - intros (evs & E & H). apply consume_ok_iff in H as [st' H]. destruct (produce_all _ _ _ _ _ _ E) as [P _]. eauto.
Qed.
Lemma main_files_stop PE K eta om files file rest : forall st r,
  run_files PE K (Opts eta om false) (files ++ [file]) st r -> r <> Ok tt ->
  run_files PE K (Opts eta om false) (files ++ file :: rest) st r.
Proof.
  induction files as [|f files IH]; intros st r H Hr; cbn [app] in *.
  - inversion H as [|? ? ? ? |? ? ? ? ? ? X Y|? ? ? ? ? ? X Y]; subst.
    + constructor.
    + eapply run_err; eauto.
    + inversion Y; subst. congruence.
  - inversion H as [|? ? ? ? |? ? ? ? ? ? X Y|? ? ? ? ? ? X Y]; subst.
    + constructor.
    + eapply run_err; eauto.
    + eapply run_ok; eauto.
Qed.
