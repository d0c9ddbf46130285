(** * The library driver *)

From Verif Require Import Base ModelTerm ModelGctx ModelCommand ModelSubst ModelReduce ModelInfer ModelSyntax ModelSymbols ModelShare ModelParse ModelProcess ModelMain ModelLib
  SpecTerm SpecConv SpecTyping SpecProcess SpecLib Erase MainGctx MainShare MainProcess MainRun MainVerify MainTyped MainTotal MainProgTotal.

Section Lib.
  Variable K : kernel.
  Variable PE : Type.
  Notation o := (Opts false None false).
  Notation seq := (infer_checks_seq PE K o _ (consume_item PE o)).
  Notation evs cmds := (map (fun c => Ok (EvCommand c)) cmds).

  (** one command, in both programs *)
  Definition ko_command (cmd : scoped) (st : pst) : pst * res ko_error unit :=
    let '(st, r) := share cmd st in
    match r with
    | Ok cmd => let '(gc, r) := infer_check K o cmd (ps_gc st) in (PSt (ps_syms st) (ps_next st) gc, r)
    | e => (st, res_map (fun _ => tt) e)
    end.
  Lemma seq_cons cmd cmds st : seq (evs (cmd :: cmds)) st =
    match ko_command cmd st with
    | (st, Ok _) => seq (evs cmds) st
    | (st, e) => (st, evs cmds, res_err PKo e)
    end.
  Proof.
    cbn [map infer_checks_seq consume_item omits o_omit from_event]. unfold ko_command. destruct (share cmd st) as [st1 [cmd'|e| |]];
      cbn [option_map filter_infer res_err omits o_omit res_map]; try reflexivity.
    destruct (infer_check K o cmd' (ps_gc st1)) as [gc [[]|e| |]]; reflexivity.
  Qed.
  Lemma lib_command_eq cmd st : lib_command K cmd st =
    match share cmd st with
    | (st1, Ok (CRules rs)) => let '(gc, r) := add_rules rs (ps_gc st1) in (PSt (ps_syms st1) (ps_next st1) gc, r)
    | _ => ko_command cmd st
    end.
  Proof.
    unfold lib_command, ko_command, share. destruct (share_command (ps_syms st) cmd) as [[id it|rs]|e| |]; try reflexivity.
    destruct (symbols_insert (ps_syms st) id (ps_next st)) as [syms [c|e| |]]; try reflexivity.
    cbn [res_map res_err ps_gc ps_syms ps_next]. unfold infer_check. cbn [infer_with omits o_omit].
    destruct (k_intro K (ps_gc st) it) as [[ty [chk|]]|e| |]; try reflexivity; cbn [ko_typing res_err].
    - destruct (k_check K (ps_gc st) chk) as [[]|e| |]; cbn [ko_typing res_err]; try reflexivity.
      destruct (ko_gctx (gctx_insert (ps_gc st) c ty (rewritable it))) as [gc r]. reflexivity.
    - destruct (ko_gctx (gctx_insert (ps_gc st) c ty (rewritable it))) as [gc r]. reflexivity.
  Qed.

  Definition no_rules (cmds : list scoped) : Prop := forall rs, ~ In (PRules rs) cmds.
  Lemma share_intro x args it st st' cmd : share (PIntro x args it) st = (st', Ok cmd) -> exists c it', cmd = CIntro c it'.
  Proof.
    unfold share. pose proof (share_pintro_ok (ps_syms st) x args it) as H. destruct (share_command (ps_syms st) (PIntro x args it)) as [c|e| |]; try discriminate.
    destruct H as (_ & it' & -> & _). destruct (symbols_insert _ _ _) as [syms [id|e| |]]; cbn; try discriminate. intros [= _ <-]. eauto.
  Qed.
  Lemma main_lib_no_rules cmds : forall st, no_rules cmds ->
    exists rest, seq (evs cmds) st = (fst (lib_check K cmds st), rest, res_err PKo (snd (lib_check K cmds st))).
  Proof.
    induction cmds as [|cmd cmds IH]; intros st H; [exists []; reflexivity|]. rewrite seq_cons. cbn [lib_check].
    assert (E : lib_command K cmd st = ko_command cmd st).
    { rewrite lib_command_eq. destruct (share cmd st) as [st1 [[c it|rs]|e| |]] eqn:E; try reflexivity.
      destruct cmd as [x args it|rs']; [|destruct (H rs'); left; reflexivity]. apply share_intro in E as (? & ? & [=]). }
    rewrite E. destruct (ko_command cmd st) as [st1 [[]|e| |]]; [|eexists; reflexivity..]. apply IH. intros rs Hin. apply (H rs). right. exact Hin.
  Qed.

  Lemma rewrites_iff rs gc : rewrites K unit (fun chk gc (s : unit) => (s, ko_typing (k_check K gc chk))) rs gc tt = (tt, Ok tt) <->
    (forall r r', In r rs -> rule_try r = Ok r' -> exists chk, k_rewrite K gc r' = Ok chk /\ k_check K gc chk = Ok tt).
  Proof.
    induction rs as [|r rs IH]; cbn [rewrites]; [split; [intros _ r r' []|reflexivity]|].
    destruct (rule_try r) as [r'|e| |] eqn:Er.
    2-4: rewrite IH; split; intros H r1 r1' Hin Ht; [destruct Hin as [<-|Hin]; [congruence|eauto]|apply (H r1); [right; exact Hin|exact Ht]].
    destruct (k_rewrite K gc r') as [chk|e| |] eqn:E1; cbn [ko_typing res_err].
    2-4: split; [discriminate|]; intros H; destruct (H r r' (or_introl eq_refl) Er) as (chk & H1 & _); congruence.
    destruct (k_check K gc chk) as [[]|e| |] eqn:E2; cbn [ko_typing res_err].
    2-4: split; [discriminate|]; intros H; destruct (H r r' (or_introl eq_refl) Er) as (chk' & H1 & H2); congruence.
    rewrite IH. split.
    - intros H r1 r1' [<-|Hin] Ht; [|eauto]. rewrite Er in Ht. injection Ht as <-. eauto.
    - intros H r1 r1' Hin Ht. apply (H r1); [right; exact Hin|exact Ht].
  Qed.
  Lemma ko_lib cmd st st' : ko_command cmd st = (st', Ok tt) <-> lib_command K cmd st = (st', Ok tt) /\
    (forall st' rs r r', share cmd st = (st', Ok (CRules rs)) -> In r rs -> rule_try r = Ok r' ->
      exists chk, k_rewrite K (ps_gc st) r' = Ok chk /\ k_check K (ps_gc st) chk = Ok tt).
  Proof.
    rewrite lib_command_eq. unfold ko_command. destruct (share cmd st) as [st1 r] eqn:Es.
    assert (Hg : forall rs, r = Ok (CRules rs) -> st1 = st).
    { intros rs ->. revert Es. unfold share. destruct (share_command (ps_syms st) cmd) as [[id it|rs0]|e| |]; try discriminate; [|congruence].
      destruct (symbols_insert _ _ _) as [syms [id'|e| |]]; cbn; discriminate. }
    destruct r as [[c it|rs]|e| |]; [split; [intros H; split; [exact H|discriminate]|intros [H _]; exact H]| |cbn; split; [discriminate|intros [H _]; discriminate]..].
    specialize (Hg rs eq_refl). subst st1. unfold infer_check. cbn [infer_with omits o_omit].
    destruct (rewrites K unit _ rs (ps_gc st) tt) as [[] [[]|e| |]] eqn:E.
    - pose proof (proj1 (rewrites_iff _ _) E) as X. destruct (add_rules rs (ps_gc st)) as [gc r]. split; [|tauto].
      intros H. split; [exact H|]. intros st2 rs' r1 r1' [= _ <-]. apply X.
    - split; [discriminate|]. intros [_ H]. assert (X : rewrites K unit (fun chk gc (s : unit) => (s, ko_typing (k_check K gc chk))) rs (ps_gc st) tt = (tt, Ok tt)) by (apply rewrites_iff; intros; eapply H; [reflexivity|eassumption|eassumption]).
      rewrite X in E. discriminate.
    - split; [discriminate|]. intros [_ H]. assert (X : rewrites K unit (fun chk gc (s : unit) => (s, ko_typing (k_check K gc chk))) rs (ps_gc st) tt = (tt, Ok tt)) by (apply rewrites_iff; intros; eapply H; [reflexivity|eassumption|eassumption]).
      rewrite X in E. discriminate.
    - split; [discriminate|]. intros [_ H]. assert (X : rewrites K unit (fun chk gc (s : unit) => (s, ko_typing (k_check K gc chk))) rs (ps_gc st) tt = (tt, Ok tt)) by (apply rewrites_iff; intros; eapply H; [reflexivity|eassumption|eassumption]).
      rewrite X in E. discriminate.
  Qed.
  Lemma main_lib_kocheck cmds : forall st st',
    seq (evs cmds) st = (st', [], Ok tt) <-> lib_check K cmds st = (st', Ok tt) /\ rules_pass K (lib_command K) cmds st.
  Proof.
    induction cmds as [|cmd cmds IH]; intros st st'; [cbn; split; [intros [= ->]; auto|intros [[= ->] _]; reflexivity]|].
    rewrite seq_cons. cbn [lib_check rules_pass]. pose proof (ko_lib cmd st) as E.
    destruct (ko_command cmd st) as [st1 [[]|e| |]].
    - destruct (proj1 (E st1) eq_refl) as [E1 E2]. rewrite E1. cbn [fst]. rewrite IH. tauto.
    - split; [discriminate|]. destruct (lib_command K cmd st) as [st2 [[]|e'| |]]; intros (H1 & H2 & _); try discriminate.
      discriminate (proj2 (E st2) (conj eq_refl H2)).
    - split; [discriminate|]. destruct (lib_command K cmd st) as [st2 [[]|e'| |]]; intros (H1 & H2 & _); try discriminate.
      discriminate (proj2 (E st2) (conj eq_refl H2)).
    - split; [discriminate|]. destruct (lib_command K cmd st) as [st2 [[]|e'| |]]; intros (H1 & H2 & _); try discriminate.
      discriminate (proj2 (E st2) (conj eq_refl H2)).
  Qed.
End Lib.

(** ** Soundness *)
Lemma lib_sound O n cmds : forall st st', typed_rules (ps_gc st) -> lib_check (real_kernel O n) cmds st = (st', Ok tt) ->
  exists cs, Forall2 (fun cmd c => True) cmds cs /\ trusted_all (er_gctx (ps_gc st)) (map er_cmd cs) (er_gctx (ps_gc st')) /\
    forall st0, ps_syms st0 = ps_syms st -> ps_next st0 = ps_next st -> share_results (map EvCommand cmds) st0 = map Ok cs.
Proof.
  induction cmds as [|cmd cmds IH]; intros st st' Ht; cbn [lib_check].
  - intros [= <-]. exists []. split; [constructor|]. split; [constructor|reflexivity].
  - destruct (lib_command (real_kernel O n) cmd st) as [st1 [[]|e| |]] eqn:E; try discriminate. intros H.
    assert (X : exists st2 c, share cmd st = (st2, Ok c) /\ ps_syms st1 = ps_syms st2 /\ ps_next st1 = ps_next st2 /\
      trusted (er_gctx (ps_gc st)) (er_cmd c) (er_gctx (ps_gc st1)) /\ typed_rules (ps_gc st1)).
    { rewrite (lib_command_eq (real_kernel O n)) in E. unfold ko_command in E. pose proof (share_gc cmd st) as Hg. destruct (share cmd st) as [st2 [[c it|rs]|e| |]] eqn:Es; try discriminate; cbn in Hg.
      - destruct (infer_check (real_kernel O n) (Opts false None false) (CIntro c it) (ps_gc st2)) as [gc r] eqn:Ei. injection E as <- ->. rewrite Hg in Ei.
        apply infer_check_verified in Ei as [Hv Ht']; [|reflexivity|exact Ht]. exists st2, (CIntro c it). split; [reflexivity|]. split; [reflexivity|]. split; [reflexivity|].
        split; [apply tr_intro; exact Hv|exact Ht'].
      - destruct (add_rules rs (ps_gc st2)) as [gc r] eqn:Ea. injection E as <- ->. rewrite Hg in Ea.
        apply add_rules_extends in Ea as [Hv Ht']; [|exact Ht]. exists st2, (CRules rs). split; [reflexivity|]. split; [reflexivity|]. split; [reflexivity|].
        split; [apply tr_rules; exact Hv|exact Ht']. }
    destruct X as (st2 & c & Es & E1 & E2 & Hc & Ht1). destruct (IH _ _ Ht1 H) as (cs & Hl & Hcs & Hr). exists (c :: cs).
    split; [constructor; auto|]. split; [econstructor; eassumption|]. intros st0 S1 S2. cbn [map share_results from_event].
    assert (Es0 : share cmd st0 = (PSt (ps_syms st2) (ps_next st2) (ps_gc st0), Ok c)).
    { revert Es. unfold share. rewrite S1, S2. destruct (share_command (ps_syms st) cmd) as [[id it|rs]|e| |]; try discriminate.
      - destruct (symbols_insert _ _ _) as [syms r]. intros [= <- E']. cbn. rewrite E'. reflexivity.
      - intros [= <- <-]. destruct st0. cbn in *. subst. reflexivity. }
    rewrite Es0. rewrite Hr; [reflexivity|symmetry; assumption|symmetry; assumption].
Qed.
Lemma main_lib_sound O n cmds st : lib_check (real_kernel O n) cmds lib_new = (st, Ok tt) ->
  exists cs, share_results (map EvCommand cmds) lib_new = map Ok cs /\ trusted_all (empty_sig false) (map er_cmd cs) (er_gctx (ps_gc st)).
Proof.
  intros H. destruct (lib_sound O n cmds lib_new st) as (cs & _ & H1 & H2); [intros c _; reflexivity|exact H|]. exists cs. split; [apply H2; reflexivity|exact H1].
Qed.

(** the loop over texts *)
Lemma lib_doc_ok K items : forall st st', lib_doc K items st = (st', Ok tt) -> exists cmds, items = map Ok cmds /\ lib_check K cmds st = (st', Ok tt).
Proof.
  induction items as [|[cmd|e| |] items IH]; intros st st'; cbn [lib_doc]; try discriminate.
  - intros H. exists []. split; [reflexivity|exact H].
  - destruct (lib_command K cmd st) as [st1 [[]|e| |]] eqn:E; try discriminate. intros H. destruct (IH _ _ H) as (cmds & -> & Hc).
    exists (cmd :: cmds). split; [reflexivity|]. cbn [lib_check]. rewrite E. exact Hc.
Qed.
Lemma main_lib_text K junk text : lib_text K junk text (Ok tt) ->
  exists cmds st, results (strict_next scope_atom) (strict_new junk text) (map Ok cmds) /\ lib_check K cmds lib_new = (st, Ok tt).
Proof.
  intros (items & Hi & H). destruct (lib_doc K items lib_new) as [st r] eqn:E. cbn in H. subst r.
  destruct (lib_doc_ok K items lib_new st E) as (cmds & -> & Hc). exists cmds, st. split; assumption.
Qed.
