(** * Errors of processing *)

From Verif Require Import Base ModelTerm ModelGctx ModelCommand ModelSubst ModelReduce ModelInfer
  ModelSyntax ModelSymbols ModelShare ModelProcess SpecFails MainProcess.

Section Fails.
  Variable K : kernel.
  Variable eta : bool.
  Let o := Opts eta None false.
  Notation chk1 := (fun chk gc (s : unit) => (s, if omits o StCheck then Ok tt else ko_typing (k_check K gc chk))).

  Lemma rewrites_err gc rules e : snd (rewrites K unit chk1 rules gc tt) = Err e <->
    exists pre r post e', rules = pre ++ r :: post /\ Forall (rule_passes K gc) pre /\ rule_fails K gc r e' /\ e = KoTyping e'.
  Proof.
    induction rules as [|r rules IH]; cbn [rewrites].
    - split; [discriminate|]. intros (pre & r & post & e' & H & _). destruct pre; discriminate.
    - assert (Skip : rule_passes K gc r -> ((exists pre r0 post e', rules = pre ++ r0 :: post /\ Forall (rule_passes K gc) pre /\ rule_fails K gc r0 e' /\ e = KoTyping e') <->
        exists pre r0 post e', r :: rules = pre ++ r0 :: post /\ Forall (rule_passes K gc) pre /\ rule_fails K gc r0 e' /\ e = KoTyping e')).
      { intros Hp. split.
        - intros (pre & r0 & post & e' & -> & H1 & H2 & H3). exists (r :: pre), r0, post, e'. auto.
        - intros (pre & r0 & post & e' & H & H1 & H2 & H3). destruct pre as [|r1 pre]; cbn in H; injection H as <- ->.
          + exfalso. destruct H2 as [r' e0 E1 E2|r' chk e0 E1 E2 E3]; destruct (Hp _ E1) as (c & C1 & C2); congruence.
          + inversion H1; subst. exists pre, r0, post, e'. auto. }
      assert (Stop : forall x : res ko_error unit, (forall e', rule_fails K gc r e' -> x = Err (KoTyping e')) -> (forall e', x = Err e' -> exists e0, e' = KoTyping e0 /\ rule_fails K gc r e0) ->
        ~ rule_passes K gc r -> (x = Err e <-> exists pre r0 post e', r :: rules = pre ++ r0 :: post /\ Forall (rule_passes K gc) pre /\ rule_fails K gc r0 e' /\ e = KoTyping e')).
      { intros x H1 H2 Hn. split.
        - intros ->. destruct (H2 e eq_refl) as (e0 & -> & H). exists [], r, rules, e0. auto.
        - intros (pre & r0 & post & e' & H & Hp & Hf & ->). destruct pre as [|r1 pre]; cbn in H; injection H as <- ->; [apply H1; exact Hf|].
          inversion Hp; subst. contradiction. }
      destruct (rule_try r) as [r'|e1| |] eqn:Er.
      + destruct (k_rewrite K gc r') as [chk|e1| |] eqn:Ek; cbn [ko_typing res_err].
        * cbn [omits o o_omit]. destruct (k_check K gc chk) as [[]|e1| |] eqn:Ec; cbn [ko_typing res_err snd].
          -- eapply iff_trans; [exact IH|]; apply Skip. intros r1 E1. assert (r1 = r') as -> by congruence. eauto.
          -- apply Stop.
             ++ intros e' [r1 e0 E1 E2|r1 chk1 e0 E1 E2 E3]; congruence.
             ++ intros e' [= <-]. exists e1. split; [reflexivity|]. eapply rf_check; eauto.
             ++ intros Hp. destruct (Hp _ Er) as (c & C1 & C2). congruence.
          -- apply Stop; try discriminate.
             ++ intros e' [r1 e0 E1 E2|r1 chk1 e0 E1 E2 E3]; congruence.
             ++ intros Hp. destruct (Hp _ Er) as (c & C1 & C2). congruence.
          -- apply Stop; try discriminate.
             ++ intros e' [r1 e0 E1 E2|r1 chk1 e0 E1 E2 E3]; congruence.
             ++ intros Hp. destruct (Hp _ Er) as (c & C1 & C2). congruence.
        * cbn [snd]. apply Stop.
          -- intros e' [r1 e0 E1 E2|r1 chk1 e0 E1 E2 E3]; congruence.
          -- intros e' [= <-]. exists e1. split; [reflexivity|]. eapply rf_infer; eauto.
          -- intros Hp. destruct (Hp _ Er) as (c & C1 & C2). congruence.
        * cbn [snd]. apply Stop; try discriminate.
          -- intros e' [r1 e0 E1 E2|r1 chk1 e0 E1 E2 E3]; congruence.
          -- intros Hp. destruct (Hp _ Er) as (c & C1 & C2). congruence.
        * cbn [snd]. apply Stop; try discriminate.
          -- intros e' [r1 e0 E1 E2|r1 chk1 e0 E1 E2 E3]; congruence.
          -- intros Hp. destruct (Hp _ Er) as (c & C1 & C2). congruence.
      + eapply iff_trans; [exact IH|]; apply Skip. intros r1 E1. congruence.
      + eapply iff_trans; [exact IH|]; apply Skip. intros r1 E1. congruence.
      + eapply iff_trans; [exact IH|]; apply Skip. intros r1 E1. congruence.
  Qed.
  Lemma rewrites_ok gc rules : snd (rewrites K unit chk1 rules gc tt) = Ok tt <-> Forall (rule_passes K gc) rules.
  Proof.
    induction rules as [|r rules IH]; cbn [rewrites]; [split; [constructor|reflexivity]|].
    assert (Skip : rule_passes K gc r -> (Forall (rule_passes K gc) rules <-> Forall (rule_passes K gc) (r :: rules))).
    { intros Hp. split; [constructor; assumption|]. intros H. inversion H; assumption. }
    assert (Stop : forall P : Prop, ~ rule_passes K gc r -> ~ P -> (P <-> Forall (rule_passes K gc) (r :: rules))).
    { intros P Hn HP. split; [contradiction|]. intros H. inversion H; subst. contradiction. }
    destruct (rule_try r) as [r'|e1| |] eqn:Er.
    - destruct (k_rewrite K gc r') as [chk|e1| |] eqn:Ek; cbn [ko_typing res_err].
      + cbn [omits o o_omit]. destruct (k_check K gc chk) as [[]|e1| |] eqn:Ec; cbn [ko_typing res_err snd];
          [|apply Stop; try discriminate; intros Hp; destruct (Hp _ Er) as (c & C1 & C2); congruence ..].
        eapply iff_trans; [exact IH|]; apply Skip. intros r1 E1. assert (r1 = r') as -> by congruence. eauto.
      + apply Stop; try discriminate. intros Hp. destruct (Hp _ Er) as (c & C1 & C2); congruence.
      + apply Stop; try discriminate. intros Hp. destruct (Hp _ Er) as (c & C1 & C2); congruence.
      + apply Stop; try discriminate. intros Hp. destruct (Hp _ Er) as (c & C1 & C2); congruence.
    - eapply iff_trans; [exact IH|]; apply Skip. intros r1 E1. congruence.
    - eapply iff_trans; [exact IH|]; apply Skip. intros r1 E1. congruence.
    - eapply iff_trans; [exact IH|]; apply Skip. intros r1 E1. congruence.
  Qed.
  Lemma add_rules_err rules : forall gc e, snd (add_rules rules gc) = Err e <-> exists e', adding_fails gc rules e' /\ e = KoGCtx e'.
  Proof.
    induction rules as [|r rules IH]; intros gc e; cbn [add_rules].
    - split; [discriminate|]. intros (e' & H & _). inversion H.
    - destruct (add_rule gc r) as [gc1 [e1|]] eqn:E; cbn [ko_gctx snd].
      + split.
        * intros [= <-]. exists e1. split; [|reflexivity]. eapply af_here. exact E.
        * intros (e' & H & ->). inversion H; subst; congruence.
      + rewrite IH. split; intros (e' & H & ->); exists e'; (split; [|reflexivity]).
        * eapply af_later; eassumption.
        * inversion H; subst; [congruence|]. assert (gc1 = gc2) as -> by congruence. assumption.
  Qed.
  Lemma infer_check_err cmd gc e : snd (infer_check K o cmd gc) = Err e <-> cmd_fails K gc cmd e.
  Proof.
    unfold infer_check, infer_with. destruct cmd as [c it|rules].
    - destruct (k_intro K gc it) as [[ty chk]|e1| |] eqn:Ei; cbn [ko_typing res_err snd].
      + assert (Ins : (forall k, chk = Some k -> k_check K gc k = Ok tt) ->
          (snd (ko_gctx (gctx_insert gc c ty (rewritable it))) = Err e <-> cmd_fails K gc (CIntro c it) e)).
        { intros Hc. destruct (gctx_insert gc c ty (rewritable it)) as [gc1 [e1|]] eqn:Eg; cbn [ko_gctx snd]; split.
          - intros [= <-]. eapply cf_insert; eassumption.
          - intros H. inversion H; subst; try congruence.
            rewrite (Hc chk0) in * by congruence. congruence.
          - discriminate.
          - intros H. inversion H; subst; try congruence. rewrite (Hc chk0) in * by congruence. congruence. }
        destruct chk as [chk|].
        * cbn [omits o o_omit]. destruct (k_check K gc chk) as [[]|e1| |] eqn:Ec; cbn [ko_typing res_err snd].
          -- destruct (ko_gctx (gctx_insert gc c ty (rewritable it))) as [gc1 r1] eqn:Eg. cbn [snd] in *. rewrite <- Ins; [reflexivity|]. intros k [= <-]. exact Ec.
          -- split.
             ++ intros [= <-]. eapply cf_check; eassumption.
             ++ intros H. inversion H; subst; try congruence.
                match goal with Hk : forall k, _ = Some k -> _ |- _ => rewrite Hk with (k := chk) in Ec by congruence; discriminate end.
          -- split; [discriminate|]. intros H. inversion H; subst; try congruence.
             match goal with Hk : forall k, _ = Some k -> _ |- _ => rewrite Hk with (k := chk) in Ec by congruence; discriminate end.
          -- split; [discriminate|]. intros H. inversion H; subst; try congruence.
             match goal with Hk : forall k, _ = Some k -> _ |- _ => rewrite Hk with (k := chk) in Ec by congruence; discriminate end.
        * destruct (ko_gctx (gctx_insert gc c ty (rewritable it))) as [gc1 r1] eqn:Eg. cbn [snd] in *. rewrite <- Ins; [reflexivity|]. discriminate.
      + split; [intros [= <-]; apply cf_intro; exact Ei|]. intros H. inversion H; subst; congruence.
      + split; [discriminate|]. intros H. inversion H; subst; congruence.
      + split; [discriminate|]. intros H. inversion H; subst; congruence.
    - pose proof (rewrites_err gc rules e) as He. pose proof (rewrites_ok gc rules) as Ho.
      destruct (rewrites K unit chk1 rules gc tt) as [s r] eqn:E. cbn [snd] in He, Ho.
      destruct r as [[]|e1| |].
      + destruct (add_rules rules gc) as [gc1 r1] eqn:Ea. pose proof (add_rules_err rules gc e) as Hadd. rewrite Ea in Hadd. cbn [snd] in *.
        rewrite Hadd. split.
        * intros (e' & H & ->). apply cf_add; [apply Ho; reflexivity|exact H].
        * intros H. inversion H; subst.
          -- exfalso. assert (X : Ok tt = Err (KoTyping e0)) by (apply He; eauto 10). discriminate.
          -- eauto.
      + cbn [snd]. rewrite He. split.
        * intros (pre & r0 & post & e' & -> & H1 & H2 & ->). apply cf_rule; assumption.
        * intros H. inversion H; subst; [eauto 10|].
          assert (X : Err e1 = Ok tt) by (apply Ho; assumption). discriminate.
      + cbn [snd]. split; [discriminate|]. intros H. inversion H; subst.
        * assert (X : Panic = Err (A := unit) (KoTyping e0)) by (apply He; eauto 10). discriminate.
        * assert (X : Panic = Ok (E := ko_error) tt) by (apply Ho; assumption). discriminate.
      + cbn [snd]. split; [discriminate|]. intros H. inversion H; subst.
        * assert (X : Fuel = Err (A := unit) (KoTyping e0)) by (apply He; eauto 10). discriminate.
        * assert (X : Fuel = Ok (E := ko_error) tt) by (apply Ho; assumption). discriminate.
  Qed.

  Section Source.
    Variables PE I : Type.
    Variable item : I -> pst -> pst * option (res (perror PE) command).
    Notation seq := (infer_checks_seq PE K o I item).
    Lemma main_fails items : forall st e rest,
      (exists st', seq items st = (st', rest, Err e)) <->
      exists pre it st0, items = pre ++ it :: rest /\ seq pre st = (st0, [], Ok tt) /\
        elem_fails K (fst (item it st0)) (snd (item it st0)) e.
    Proof.
      induction items as [|it items IH]; intros st e rest; cbn [infer_checks_seq].
      - split; [intros [st' H]; congruence|]. intros (pre & it & st0 & H & _). destruct pre; discriminate.
      - destruct (item it st) as [st1 r] eqn:Ei.
        assert (Stop : forall (st2 : pst) (x : res (perror PE) unit), (forall e', x = Err e' <-> elem_fails K st1 r e') -> (forall pre st0, seq (it :: pre) st = (st0, [], Ok tt) -> False) ->
          ((exists st', (st2, items, x) = (st', rest, Err e)) <->
           exists pre it0 st0, it :: items = pre ++ it0 :: rest /\ seq pre st = (st0, [], Ok tt) /\ elem_fails K (fst (item it0 st0)) (snd (item it0 st0)) e)).
        { intros st2 x Hx Hn. split.
          - intros [st' [= <- <- ->]]. exists [], it, st. rewrite Ei. split; [reflexivity|]. split; [reflexivity|]. apply Hx. reflexivity.
          - intros (pre & it0 & st0 & H & Hp & Hf). destruct pre as [|it1 pre]; cbn in H; injection H as <- ->.
            + cbn in Hp. injection Hp as <-. rewrite Ei in Hf. apply Hx in Hf. subst x. eauto.
            + destruct (Hn _ _ Hp). }
        assert (Go : forall st2, (forall pre, seq (it :: pre) st = seq pre st2) -> (forall e', ~ elem_fails K st1 r e') ->
          ((exists st', seq items st2 = (st', rest, Err e)) <->
           exists pre it0 st0, it :: items = pre ++ it0 :: rest /\ seq pre st = (st0, [], Ok tt) /\ elem_fails K (fst (item it0 st0)) (snd (item it0 st0)) e)).
        { intros st2 Hs Hn. rewrite IH. split.
          - intros (pre & it0 & st0 & -> & H1 & H2). exists (it :: pre), it0, st0. rewrite Hs. auto.
          - intros (pre & it0 & st0 & H & Hp & Hf). destruct pre as [|it1 pre]; cbn in H; injection H as <- ->.
            + cbn in Hp. injection Hp as <-. rewrite Ei in Hf. destruct (Hn _ Hf).
            + rewrite Hs in Hp. eauto 10. }
        destruct r as [[cmd|e1| |]|]; cbn [filter_infer omits o o_omit].
        + pose proof (infer_check_err cmd (ps_gc st1)) as Hc. destruct (infer_check K o cmd (ps_gc st1)) as [gc [[]|e1| |]] eqn:Ec; cbn [snd] in Hc.
          * apply Go.
            -- intros pre. cbn [infer_checks_seq]. rewrite Ei. cbn [filter_infer omits o o_omit]. rewrite Ec. reflexivity.
            -- intros e' [H|(cmd' & e0 & H & Hf & _)]; [discriminate|]. injection H as <-. apply Hc in Hf. discriminate.
          * apply Stop.
            -- intros e'. cbn [res_err]. split.
               ++ intros [= <-]. right. exists cmd, e1. split; [reflexivity|]. split; [apply Hc; reflexivity|reflexivity].
               ++ intros [H|(cmd' & e0 & H & Hf & ->)]; [discriminate|]. injection H as <-. apply Hc in Hf. congruence.
            -- intros pre st0 H. cbn [infer_checks_seq] in H. rewrite Ei in H. cbn [filter_infer omits o o_omit] in H. rewrite Ec in H. discriminate.
          * apply Stop.
            -- intros e'. cbn [res_err]. split; [discriminate|]. intros [H|(cmd' & e0 & H & Hf & ->)]; [discriminate|]. injection H as <-. apply Hc in Hf. congruence.
            -- intros pre st0 H. cbn [infer_checks_seq] in H. rewrite Ei in H. cbn [filter_infer omits o o_omit] in H. rewrite Ec in H. discriminate.
          * apply Stop.
            -- intros e'. cbn [res_err]. split; [discriminate|]. intros [H|(cmd' & e0 & H & Hf & ->)]; [discriminate|]. injection H as <-. apply Hc in Hf. congruence.
            -- intros pre st0 H. cbn [infer_checks_seq] in H. rewrite Ei in H. cbn [filter_infer omits o o_omit] in H. rewrite Ec in H. discriminate.
        + apply Stop.
          * intros e'. cbn [res_map]. split; [intros [= <-]; left; reflexivity|]. intros [H|(cmd' & e0 & H & _)]; [injection H as <-; reflexivity|discriminate].
          * intros pre st0 H. cbn [infer_checks_seq] in H. rewrite Ei in H. discriminate.
        + apply Stop.
          * intros e'. cbn [res_map]. split; [discriminate|]. intros [H|(cmd' & e0 & H & _)]; congruence.
          * intros pre st0 H. cbn [infer_checks_seq] in H. rewrite Ei in H. discriminate.
        + apply Stop.
          * intros e'. cbn [res_map]. split; [discriminate|]. intros [H|(cmd' & e0 & H & _)]; congruence.
          * intros pre st0 H. cbn [infer_checks_seq] in H. rewrite Ei in H. discriminate.
        + apply Go.
          * intros pre. cbn [infer_checks_seq]. rewrite Ei. reflexivity.
          * intros e' [H|(cmd' & e0 & H & _)]; discriminate.
    Qed.
  End Source.
End Fails.
