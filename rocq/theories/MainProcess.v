(** * Lemmas for C19-C22 *)

From Verif Require Import Base ModelTerm ModelGctx ModelCommand ModelInfer ModelSyntax ModelSymbols ModelShare ModelProcess.

Section Kernel.
  Variable K : kernel.

  (** ** [infer_check] is [infer] followed by [check] *)
  Definition checking (om : bool) (chks : list ModelGctx.check) (gc : gctx) : res ko_error unit :=
    if om then Ok tt else check_all K chks gc.

  Lemma check_all_app c1 c2 gc : check_all K (c1 ++ c2) gc = res_bind (check_all K c1 gc) (fun _ => check_all K c2 gc).
  Proof.
    induction c1 as [|c c1 IH]; cbn; [reflexivity|]. destruct (ko_typing _); cbn; auto.
  Qed.
  Lemma rewrites_collect rules gc : forall s s' r,
    rewrites K (list ModelGctx.check) (fun chk _ s => (s ++ [chk], Ok tt)) rules gc s = (s', r) -> exists chks, s' = s ++ chks /\
      rewrites K (list ModelGctx.check) (fun chk _ s => (s ++ [chk], Ok tt)) rules gc [] = (chks, r).
  Proof.
    induction rules as [|rl rules IH]; intros s s' r; cbn [rewrites].
    - intros [= <- <-]. exists []. rewrite app_nil_r. auto.
    - destruct (rule_try rl) as [rl'|e| |]; [|apply IH|apply IH|apply IH].
      destruct (ko_typing (k_rewrite K gc rl')) as [chk|e| |]; try (intros [= <- <-]; exists []; rewrite app_nil_r; auto).
      intros E. apply IH in E as (chks & -> & E). cbn [app].
      destruct (rewrites K _ _ rules gc [chk]) as [s2 r2] eqn:E2. pose proof (IH _ _ _ E2) as (chks' & -> & E').
      rewrite E in E'. injection E' as <- <-. exists (chk :: chks). split; [rewrite <- app_assoc; reflexivity|reflexivity].
  Qed.
  Lemma rewrites_check (om : bool) rules gc chks r : 
    rewrites K (list ModelGctx.check) (fun chk _ s => (s ++ [chk], Ok tt)) rules gc [] = (chks, r) ->
    is_ok (snd (rewrites K unit (fun chk gc s => (s, if om then Ok tt else ko_typing (k_check K gc chk))) rules gc tt)) =
    is_ok r && is_ok (checking om chks gc).
  Proof.
    revert chks r. induction rules as [|rl rules IH]; intros chks r; cbn [rewrites].
    - intros [= <- <-]. destruct om; reflexivity.
    - destruct (rule_try rl) as [rl'|e| |]; [|apply IH|apply IH|apply IH].
      destruct (ko_typing (k_rewrite K gc rl')) as [chk|e| |]; try (intros [= <- <-]; reflexivity).
      intros E. apply rewrites_collect in E as (chks' & -> & E). specialize (IH _ _ E). cbn [app].
      destruct om; [exact IH|]. cbn [checking check_all]. destruct (ko_typing (k_check K gc chk)) as [[]|e| |]; cbn [res_bind].
      + exact IH.
      + cbn. rewrite andb_false_r. reflexivity.
      + cbn. rewrite andb_false_r. reflexivity.
      + cbn. rewrite andb_false_r. reflexivity.
  Qed.
  Lemma rewrites_unit (om : bool) rules gc : exists r,
    rewrites K unit (fun chk gc s => (s, if om then Ok tt else ko_typing (k_check K gc chk))) rules gc tt = (tt, r).
  Proof. destruct (rewrites _ _ _ _ _ _) as [[] r]. eauto. Qed.
  Lemma ok_unit {E} (r : res E unit) : is_ok r = true <-> r = Ok tt.
  Proof. destruct r as [[]| | |]; cbn; split; congruence. Qed.

  Lemma infer_check_infer o cmd gc gc' :
    infer_check K o cmd gc = (gc', Ok tt) <->
    exists chks, infer K cmd gc = (gc', Ok (chks, gc)) /\ checking (omits o StCheck) chks gc = Ok tt.
  Proof.
    unfold infer_check, infer. set (om := omits o StCheck). destruct cmd as [c it|rules]; cbn [infer_with].
    - destruct (ko_typing (k_intro K gc it)) as [[ty [chk|]]|e| |]; try (split; [discriminate|intros (? & [=] & _)]).
      + destruct (ko_gctx (gctx_insert gc c ty (rewritable it))) as [gc1 r].
        assert (X : checking om [chk] gc = if om then Ok tt else ko_typing (k_check K gc chk)).
        { destruct om; [reflexivity|]. cbn. destruct (ko_typing _) as [[]| | |]; reflexivity. }
        destruct (if om then Ok tt else ko_typing (k_check K gc chk)) as [[]|e| |];
          try (split; [discriminate|intros (? & E & H); destruct r; cbn in E; try discriminate; injection E as <- <-; cbn in X; congruence]).
        cbn [app]. split.
        * intros [= <- ->]. exists [chk]. auto.
        * intros (chks & E & H). destruct r as [[]| | |]; cbn in E; try discriminate. injection E as <- <-. reflexivity.
      + destruct (ko_gctx (gctx_insert gc c ty (rewritable it))) as [gc1 r]. split.
        * intros [= <- ->]. exists []. split; [reflexivity|]. destruct om; reflexivity.
        * intros (chks & E & H). destruct r as [[]| | |]; cbn in E; try discriminate. injection E as <- <-. reflexivity.
    - destruct (rewrites K (list ModelGctx.check) _ rules gc []) as [chks r] eqn:E. apply (rewrites_check om) in E.
      destruct (rewrites_unit om rules gc) as [r' Er]. rewrite Er in *. cbn [snd] in E. destruct (add_rules rules gc) as [gc1 r1].
      split.
      + destruct r' as [[]|e| |]; try discriminate. intros [= <- ->]. symmetry in E. apply andb_prop in E as [E1 E2].
        apply ok_unit in E1 as ->. apply ok_unit in E2. exists chks. auto.
      + intros (chks' & E' & H). destruct r as [[]|e| |]; try discriminate. destruct r1 as [[]| | |]; cbn in E'; try discriminate.
        injection E' as <- <-. rewrite H in E. cbn in E. apply ok_unit in E as ->. reflexivity.
  Qed.
  (** the context that [infer] returns besides the checks is the one at the beginning *)
  Lemma infer_gc cmd gc gc' t : infer K cmd gc = (gc', Ok t) -> snd t = gc.
  Proof.
    unfold infer. destruct (infer_with _ _ _ _ _ _) as [[gc1 chks] r]. intros [= _ E]. destruct r; cbn in E; try discriminate.
    injection E as <-. reflexivity.
  Qed.
  Lemma checking_check o t : checking (omits o StCheck) (fst t) (snd t) = if omits o StCheck then Ok tt else check K t.
  Proof. reflexivity. Qed.

  (** ** One element of the source *)
  Section Source.
    Variable PE : Type.
    Variable o : opts.
    Variable I : Type.
    Variable item : I -> pst -> pst * option (res (perr PE) command).
    Notation seq := (infer_checks_seq PE K o I item).
    Notation pull := (pull PE K o I item).
    Notation step := (par_step PE K o I item).
    Notation steps := (par_steps PE K o I item).

    Lemma seq_cons it items st : seq (it :: items) st =
      match seq [it] st with
      | (st', _, Ok _) => seq items st'
      | (st', _, r) => (st', items, r)
      end.
    Proof.
      cbn [infer_checks_seq]. destruct (item it st) as [st1 r]. destruct (filter_infer PE o r) as [[cmd|e| |]|]; try reflexivity.
      destruct (infer_check K o cmd (ps_gc st1)) as [gc [u|e| |]]; reflexivity.
    Qed.
    Lemma seq_rest it st st' rest r : seq [it] st = (st', rest, r) -> rest = [].
    Proof.
      cbn [infer_checks_seq]. destruct (item it st) as [st1 r1]. destruct (filter_infer PE o r1) as [[cmd|e| |]|]; try congruence.
      destruct (infer_check K o cmd (ps_gc st1)) as [gc [u|e| |]]; congruence.
    Qed.

    Lemma pull_seq it st st' : seq [it] st = (st', [], Ok tt) <->
      pull it st = (st', Nothing PE) \/ exists t, pull it st = (st', Task PE t) /\ check K t = Ok tt.
    Proof.
      unfold ModelProcess.pull. cbn [infer_checks_seq]. destruct (item it st) as [st1 r].
      destruct (filter_infer PE o r) as [[cmd|e| |]|].
      - destruct (infer_check K o cmd (ps_gc st1)) as [gc r1] eqn:E1. destruct (infer K cmd (ps_gc st1)) as [gc2 r2] eqn:E2. split.
        + intros E. assert (X : infer_check K o cmd (ps_gc st1) = (gc, Ok tt)) by (destruct r1 as [[]| | |]; cbn in E; congruence).
          assert (Est : st' = PSt (ps_syms st1) (ps_next st1) gc) by (destruct r1; cbn in E; congruence). subst st'.
          apply infer_check_infer in X as (chks & X & C). rewrite E2 in X. injection X as -> ->.
          unfold checking in C. destruct (omits o StCheck); [left; reflexivity|]. right. eexists. split; [reflexivity|]. exact C.
        + intros H. assert (X : exists t, r2 = Ok t /\ st' = PSt (ps_syms st1) (ps_next st1) gc2 /\ checking (omits o StCheck) (fst t) (snd t) = Ok tt).
          { rewrite checking_check || idtac. destruct r2 as [t| | |]; try (destruct H as [H|(t' & H & _)]; discriminate).
            exists t. rewrite checking_check. destruct (omits o StCheck); destruct H as [H|(t' & H & C)]; try discriminate.
            - injection H as <-. auto.
            - injection H as <- <-. auto. }
          destruct X as (t & -> & -> & C). pose proof (infer_gc _ _ _ _ E2) as G.
          assert (X : infer_check K o cmd (ps_gc st1) = (gc2, Ok tt)).
          { apply infer_check_infer. exists (fst t). rewrite <- G at 2. rewrite <- surjective_pairing. split; [exact E2|]. rewrite <- G. exact C. }
          rewrite E1 in X. injection X as -> ->. reflexivity.
      - split; [discriminate|]. intros [H|(? & H & _)]; discriminate.
      - split; [discriminate|]. intros [H|(? & H & _)]; discriminate.
      - split; [discriminate|]. intros [H|(? & H & _)]; discriminate.
      - split; [intros [= ->]; auto|]. intros [[= ->]|(? & [=] & _)]. reflexivity.
    Qed.

    (** pulling all elements *)
    Fixpoint pull_all (items : list I) (st : pst) : pst * list (pulled PE) :=
      match items with
      | [] => (st, [])
      | it :: items => let '(st, p) := pull it st in let '(st, ps) := pull_all items st in (st, p :: ps)
      end.
    Lemma pull_all_app i1 : forall i2 st, pull_all (i1 ++ i2) st =
      let '(st, ps1) := pull_all i1 st in let '(st, ps2) := pull_all i2 st in (st, ps1 ++ ps2).
    Proof.
      induction i1 as [|it i1 IH]; intros i2 st; cbn [pull_all app].
      - destruct (pull_all i2 st); reflexivity.
      - destruct (pull it st) as [st1 p]. rewrite IH. destruct (pull_all i1 st1) as [st2 ps1]. destruct (pull_all i2 st2). reflexivity.
    Qed.
    Definition good (p : pulled PE) : Prop := p = Nothing PE \/ exists t, p = Task PE t /\ check K t = Ok tt.
    Lemma seq_pull_all items : forall st st', seq items st = (st', [], Ok tt) <-> exists ps, pull_all items st = (st', ps) /\ Forall good ps.
    Proof.
      induction items as [|it items IH]; intros st st'.
      - cbn. split; [intros [= ->]; eauto|]. intros (ps & [= -> <-] & _). reflexivity.
      - rewrite seq_cons. destruct (seq [it] st) as [[st1 rest] r] eqn:E. cbn [pull_all]. destruct (pull it st) as [st2 p] eqn:Ep.
        assert (G : good p <-> r = Ok tt /\ st1 = st2).
        { unfold good. pose proof (pull_seq it st st2) as P. rewrite Ep, E in P. pose proof (seq_rest _ _ _ _ _ E) as ->. split.
          - intros H. assert (X : (st1, @nil I, r) = (st2, [], Ok tt)); [apply P|injection X as -> ->; auto].
            destruct H as [->|(t & -> & H)]; [auto|]. right. eauto.
          - intros [-> ->]. destruct (proj1 P eq_refl) as [H|(t & H & H')]; [left; congruence|right; exists t; split; [congruence|exact H']]. }
        split.
        + intros E'. assert (Hr : r = Ok tt) by (destruct r as [[]| | |]; [reflexivity|congruence|congruence|congruence]). subst r.
          assert (Es : st1 = st2).
          { pose proof (pull_seq it st st1) as P. pose proof (seq_rest _ _ _ _ _ E) as ->. destruct (proj1 P E) as [X|(t & X & _)]; rewrite Ep in X; congruence. }
          subst st2. apply IH in E' as (ps & -> & Hps). exists (p :: ps). split; [reflexivity|]. constructor; [apply G; auto|exact Hps].
        + intros (ps & E' & Hps). destruct (pull_all items st2) as [st3 ps'] eqn:E3. injection E' as <- <-. inversion Hps as [|? ? Hp Hps']; subst.
          apply G in Hp as [-> ->]. apply IH. eauto.
    Qed.

    (** ** Reachable states *)
    Definition inv (items : list I) (st : pst) (p : par PE I) : Prop :=
      exists pre ps, items = pre ++ p_items PE I p /\ pull_all pre st = (p_st PE I p, ps) /\ ~ In (Stuck PE) ps /\
        (forall t, In (Task PE t) ps -> In t (p_tasks PE I p) \/ check K t = Ok tt \/ exists e, check K t = Err e /\ In (PKo e) (p_errs PE I p)) /\
        (forall e, In (Fails PE e) ps -> In e (p_errs PE I p)) /\
        (forall e, In e (p_errs PE I p) -> In (Fails PE e) ps \/ exists t ke, In (Task PE t) ps /\ check K t = Err ke /\ e = PKo ke) /\
        (forall t, In t (p_tasks PE I p) -> In (Task PE t) ps).
    Lemma inv_init items st : inv items st (Par PE I items st [] []).
    Proof. exists [], []. cbn. repeat split; tauto. Qed.
    Lemma inv_step items st p q : inv items st p -> step p q -> inv items st q.
    Proof.
      intros (pre & ps & Ei & Ep & H1 & H2 & H3 & H4 & H5) S.
      assert (PULL : forall it items' st0 st1 ts es X, p = Par PE I (it :: items') st0 ts es -> pull it st0 = (st1, X) ->
        items = (pre ++ [it]) ++ items' /\ pull_all (pre ++ [it]) st = (st1, ps ++ [X])).
      { intros it items' st0 st1 ts es X -> EX. cbn in *. split; [rewrite <- app_assoc; exact Ei|].
        rewrite pull_all_app, Ep. cbn. rewrite EX. reflexivity. }
      destruct S as [it items' st0 st1 ts es E|it items' st0 st1 ts es t E|it items' st0 st1 ts es e E|items' st0 ts1 t ts2 es E|items' st0 ts1 t ts2 es e E].
      - destruct (PULL _ _ _ _ _ _ _ eq_refl E) as [A B]. exists (pre ++ [it]), (ps ++ [Nothing PE]). cbn in *. split; [exact A|]. split; [exact B|].
        setoid_rewrite in_app_iff. cbn. repeat split.
        + intros [|[|[]]]; [auto|discriminate].
        + intros t [H|[|[]]]; [auto|discriminate].
        + intros e [H|[|[]]]; [auto|discriminate].
        + intros e He. destruct (H4 e He) as [H|(t & ke & H & H')]; [auto|]. right. exists t, ke. auto.
        + auto.
      - destruct (PULL _ _ _ _ _ _ _ eq_refl E) as [A B]. exists (pre ++ [it]), (ps ++ [Task PE t]). cbn in *. split; [exact A|]. split; [exact B|].
        setoid_rewrite in_app_iff. cbn. repeat split.
        + intros [|[|[]]]; [auto|discriminate].
        + intros t' [H|[[= ->]|[]]]; [|auto]. destruct (H2 _ H) as [|]; auto.
        + intros e [H|[|[]]]; [auto|discriminate].
        + intros e He. destruct (H4 e He) as [H|(t' & ke & H & H')]; [auto|]. right. exists t', ke. auto.
        + intros t' [H|[->|[]]]; auto.
      - destruct (PULL _ _ _ _ _ _ _ eq_refl E) as [A B]. exists (pre ++ [it]), (ps ++ [Fails PE e]). cbn in *. split; [exact A|]. split; [exact B|].
        setoid_rewrite in_app_iff. cbn. repeat split.
        + intros [|[|[]]]; [auto|discriminate].
        + intros t' [H|[|[]]]; [|discriminate]. destruct (H2 _ H) as [|[|(ke & X & Y)]]; eauto 8.
        + intros e' [H|[[= ->]|[]]]; auto.
        + intros e' [He|[->|[]]]; [|auto]. destruct (H4 e' He) as [H|(t' & ke & H & H')]; [auto|]. right. exists t', ke. auto.
        + auto.
      - exists pre, ps. cbn in *. repeat split; auto.
        + intros t' H. destruct (H2 _ H) as [X|X]; [|auto]. rewrite in_app_iff in *. cbn in X. destruct X as [|[->|]]; auto.
        + intros t' H. apply H5. rewrite in_app_iff in *. cbn. tauto.
      - exists pre, ps. cbn in *. setoid_rewrite in_app_iff. cbn. repeat split; auto.
        + intros t' H. destruct (H2 _ H) as [X|[X|(ke & X & Y)]]; [|auto|eauto 8]. rewrite in_app_iff in *. cbn in X.
          destruct X as [|[->|]]; eauto 8.
        + intros e' [He|[<-|[]]]; [auto|]. right. exists t, e. split; [|auto]. apply H5. rewrite in_app_iff. cbn. auto.
        + intros t' H. apply H5. rewrite in_app_iff in *. cbn. tauto.
    Qed.
    Lemma inv_steps items st p q : inv items st p -> steps p q -> inv items st q.
    Proof. intros H S. induction S; eauto using inv_step. Qed.
    Lemma reach_inv items st p : steps (Par PE I items st [] []) p -> inv items st p.
    Proof. intros S. eapply inv_steps; [apply inv_init|exact S]. Qed.

    Lemma steps_trans p q r : steps p q -> steps q r -> steps p r.
    Proof. intros H. induction H; [auto|]. intros. econstructor; eauto. Qed.
    Lemma steps_one p q : step p q -> steps p q.
    Proof. intros. econstructor; [eassumption|constructor]. Qed.
    (** from a state without errors in which everything is good, the result Ok can be reached *)
    Lemma finish_tasks ts st : (forall t, In t ts -> check K t = Ok tt) -> steps (Par PE I [] st ts []) (Par PE I [] st [] []).
    Proof.
      induction ts as [|t ts IH]; intros H; [constructor|]. eapply steps_trans; [|apply IH; intros; apply H; cbn; auto].
      apply steps_one. apply (step_check_ok PE K o I item [] st [] t ts []). apply H. cbn. auto.
    Qed.
    Lemma finish items : forall st st' ps ts, pull_all items st = (st', ps) -> Forall good ps -> (forall t, In t ts -> check K t = Ok tt) ->
      steps (Par PE I items st ts []) (Par PE I [] st' [] []).
    Proof.
      induction items as [|it items IH]; intros st st' ps ts E Hp Ht; cbn [pull_all] in E.
      - injection E as <- <-. apply finish_tasks. exact Ht.
      - destruct (pull it st) as [st1 p] eqn:E1. destruct (pull_all items st1) as [st2 ps'] eqn:E2. injection E as <- <-.
        inversion Hp as [|? ? Hp1 Hp2]; subst. destruct Hp1 as [->|(t & -> & Ct)].
        + econstructor; [apply step_pull_nothing; exact E1|]. eapply IH; eauto.
        + econstructor; [eapply step_pull_task; exact E1|]. eapply IH; eauto. intros t' H. apply in_app_or in H as [H|[<-|[]]]; auto.
    Qed.

    Lemma par_ok items st st' : infer_checks_par PE K o I item items st st' (Ok tt) <-> seq items st = (st', [], Ok tt).
    Proof.
      rewrite seq_pull_all. split.
      - intros (p & S & <- & R1 & R2 & R3). apply reach_inv in S as (pre & ps & Ei & Ep & H1 & H2 & H3 & H4 & H5).
        rewrite R1, R2, R3 in *. rewrite app_nil_r in Ei. subst pre. exists ps. split; [exact Ep|].
        apply Forall_forall. intros x Hx. destruct x as [|t|e|].
        + left. reflexivity.
        + right. exists t. split; [reflexivity|]. destruct (H2 _ Hx) as [[]|[|(? & _ & [])]]. assumption.
        + destruct (H3 _ Hx).
        + destruct (H1 Hx).
      - intros (ps & E & G). exists (Par PE I [] st' [] []). split; [|cbn; auto]. eapply finish; eauto. intros t [].
    Qed.

    (** C19: the sequential run succeeds: no schedule yields an error, and every schedule can be completed *)
    Lemma par_no_error items st st' p : seq items st = (st', [], Ok tt) -> steps (Par PE I items st [] []) p ->
      p_errs PE I p = [] /\ exists q, steps p q /\ p_st PE I q = st' /\ par_result PE I q (Ok tt).
    Proof.
      rewrite seq_pull_all. intros (ps & E & G) S. apply reach_inv in S as (pre & ps1 & Ei & Ep & H1 & H2 & H3 & H4 & H5).
      rewrite Ei, pull_all_app, Ep in E. destruct (pull_all (p_items PE I p) (p_st PE I p)) as [st2 ps2] eqn:E2. injection E as <- <-.
      apply Forall_app in G as [G1 G2]. rewrite Forall_forall in G1.
      assert (Er : p_errs PE I p = []).
      { destruct (p_errs PE I p) as [|e es] eqn:Ee; [reflexivity|]. exfalso.
        destruct (H4 e) as [H|(t & ke & H & H' & _)]; [cbn; auto| |]; apply G1 in H as [X|(t' & X & Y)]; congruence. }
      split; [exact Er|]. exists (Par PE I [] st2 [] []). split; [|cbn; auto].
      destruct p as [its s ts es]. cbn in *. subst es. eapply finish; eauto.
      intros t Ht. apply H5 in Ht. apply G1 in Ht as [[=]|(t' & [= <-] & H)]. exact H.
    Qed.
    Definition par_measure (p : par PE I) : nat := 2 * length (p_items PE I p) + length (p_tasks PE I p).
    Lemma par_decreases p q : step p q -> par_measure q < par_measure p.
    Proof. unfold par_measure. intros []; cbn; rewrite ?app_length; cbn; rewrite ?app_length; lia. Qed.
    Lemma par_progress p :
      (exists q, step p q) \/
      (p_items PE I p = [] /\ p_tasks PE I p = []) \/
      (exists it items st', p_items PE I p = it :: items /\ pull it (p_st PE I p) = (st', Stuck PE)) \/
      (exists t, In t (p_tasks PE I p) /\ (check K t = Panic \/ check K t = Fuel)).
    Proof.
      destruct p as [items st ts es]. cbn. destruct items as [|it items].
      - destruct ts as [|t ts]; [auto|]. destruct (check K t) as [[]|e| |] eqn:E.
        + left. eexists. apply (step_check_ok PE K o I item [] st [] t ts es E).
        + left. eexists. apply (step_check_err PE K o I item [] st [] t ts es e E).
        + right. right. right. exists t. cbn. auto.
        + right. right. right. exists t. cbn. auto.
      - destruct (pull it st) as [st' []] eqn:E.
        + left. eexists. apply step_pull_nothing. exact E.
        + left. eexists. eapply step_pull_task. exact E.
        + left. eexists. eapply step_pull_fails. exact E.
        + right. right. left. eauto 6.
    Qed.
    (** C19: where an error comes from *)
    Lemma par_error items st p e : steps (Par PE I items st [] []) p -> In e (p_errs PE I p) ->
      (forall st' rest, seq items st <> (st', rest, Ok tt)) /\
      exists pre it post, items = pre ++ it :: post /\
        (snd (pull it (fst (pull_all pre st))) = Fails PE e \/
         exists t ke, snd (pull it (fst (pull_all pre st))) = Task PE t /\ check K t = Err ke /\ e = PKo ke).
    Proof.
      intros S He. split.
      - intros st' rest E. assert (rest = []) as ->.
        { clear - E. revert st E. induction items as [|it items IH]; intros st; [cbn; congruence|]. rewrite seq_cons.
          destruct (seq [it] st) as [[st1 r1] [u|e| |]]; try congruence. apply IH. }
        destruct (par_no_error _ _ _ _ E S) as [Er _]. rewrite Er in He. destruct He.
      - apply reach_inv in S as (pre & ps & -> & Ep & H1 & H2 & H3 & H4 & H5).
        assert (X : forall x, In x ps -> exists pre' it post, pre = pre' ++ it :: post /\ snd (pull it (fst (pull_all pre' st))) = x).
        { clear - Ep. revert ps Ep. generalize (p_st PE I p). induction pre as [|it pre IH] using rev_ind; intros s ps Ep x Hx.
          - cbn in Ep. injection Ep as <- <-. destruct Hx.
          - rewrite pull_all_app in Ep. destruct (pull_all pre st) as [st1 ps1] eqn:E1. cbn in Ep. destruct (pull it st1) as [st2 y] eqn:E2.
            injection Ep as <- <-. apply in_app_or in Hx as [Hx|[<-|[]]].
            + destruct (IH _ _ eq_refl _ Hx) as (pre' & it' & post & -> & H). exists pre', it', (post ++ [it]). rewrite <- app_assoc. auto.
            + exists pre, it, []. rewrite E1. cbn. rewrite E2. auto. }
        destruct (H4 _ He) as [H|(t & ke & H & Ht & ->)]; apply X in H as (pre' & it & post & -> & H);
          exists pre', it, (post ++ p_items PE I p); (split; [rewrite <- app_assoc; reflexivity|]); [auto|]. right. eauto.
    Qed.

    (** C22 *)
    Lemma seq_app pre : forall items st, seq (pre ++ items) st =
      match seq pre st with
      | (st', _, Ok _) => seq items st'
      | (st', rest, r) => (st', rest ++ items, r)
      end.
    Proof.
      induction pre as [|it pre IH]; intros items st; [reflexivity|]. cbn [app]. rewrite (seq_cons it (pre ++ items)), (seq_cons it pre).
      destruct (seq [it] st) as [[st1 rest] [u|e| |]]; try reflexivity. apply IH.
    Qed.
    Lemma seq_first_error items : forall st st' rest r, seq items st = (st', rest, r) -> r <> Ok tt ->
      exists pre it st0, items = pre ++ it :: rest /\ seq pre st = (st0, [], Ok tt) /\ seq [it] st0 = (st', [], r).
    Proof.
      induction items as [|it items IH]; intros st st' rest r E Hr; [cbn in E; congruence|].
      rewrite seq_cons in E. destruct (seq [it] st) as [[st1 rest1] r1] eqn:E1. pose proof (seq_rest _ _ _ _ _ E1) as ->.
      destruct r1 as [[]|e| |].
      - destruct (IH _ _ _ _ E Hr) as (pre & it' & st0 & -> & A & B). exists (it :: pre), it', st0. split; [reflexivity|]. split; [|exact B].
        rewrite seq_cons, E1. exact A.
      - injection E as <- <- <-. exists [], it, st. auto.
      - injection E as <- <- <-. exists [], it, st. auto.
      - injection E as <- <- <-. exists [], it, st. auto.
    Qed.
    Lemma seq_stops pre it post st st0 st' rest r : seq pre st = (st0, [], Ok tt) -> seq [it] st0 = (st', rest, r) -> r <> Ok tt ->
      seq (pre ++ it :: post) st = (st', post, r).
    Proof.
      intros E1 E2 Hr. rewrite seq_app, E1, seq_cons, E2. destruct r as [[]| | |]; congruence.
    Qed.
    Lemma seq_ok_rest items st st' rest : seq items st = (st', rest, Ok tt) -> rest = [].
    Proof.
      revert st. induction items as [|it items IH]; intros st; [cbn; congruence|]. rewrite seq_cons.
      destruct (seq [it] st) as [[st1 r1] [u|e| |]]; try congruence. apply IH.
    Qed.
    Lemma infer_checks_ok items st st' :
      infer_checks PE K o I item items st st' (Ok tt) <-> seq items st = (st', [], Ok tt).
    Proof.
      unfold infer_checks. destruct (o_jobs o); [apply par_ok|]. split; [|eauto]. intros (rest & E). pose proof (seq_ok_rest _ _ _ _ E) as ->. exact E.
    Qed.
  End Source.
End Kernel.
