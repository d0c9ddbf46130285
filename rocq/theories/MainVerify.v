(** * Lemmas for C18, C23, C25: verified runs, new symbols *)

From Verif Require Import Base ModelTerm ModelGctx ModelCommand ModelInfer ModelSyntax ModelSymbols ModelShare ModelProcess
  SpecTerm SpecConv SpecTyping SpecBidir SpecQuery SpecSymbols SpecProcess Erase MainKernel MainBidir MainGctx MainSymbols MainShare MainProcess MainRun.

(** ** C18 *)
Definition er_cmd (cmd : command) : vcmd :=
  match cmd with
  | CIntro c it => VIntro c (map_type erl (map_term erl it))
  | CRules rs => VRules (map (fun r => VRule (map (fun x => option_map erl (snd x)) (r_ctx r))
      (tp_symbol (r_lhs r)) (map erp (tp_args (r_lhs r))) (erl (r_rhs r))) rs)
  end.
Notation er_vrule r := (VRule (map (fun x => option_map erl (snd x)) (r_ctx r))
      (tp_symbol (r_lhs r)) (map erp (tp_args (r_lhs r))) (erl (r_rhs r))).

Lemma insert_eta gc c ty rw gc' e : gctx_insert gc c ty rw = (gc', e) -> g_eta gc' = g_eta gc.
Proof.
  unfold gctx_insert, intro_type, intro_rules. cbn. destruct (slookup (g_types gc) c); [intros [= <- <-]; reflexivity|].
  destruct rw; cbn; [|intros [= <- <-]; reflexivity]. destruct (slookup (g_rules gc) c); intros [= <- <-]; reflexivity.
Qed.
Lemma insert_extends gc c ty rw gc' : typed_rules gc -> gctx_insert gc c ty rw = (gc', None) ->
  extends (er_gctx gc) c (erl (t_ty ty)) (if rw then Some (map er_rule (def_rules c ty)) else None) (er_gctx gc') /\ typed_rules gc'.
Proof.
  intros Ht E. pose proof (insert_eta _ _ _ _ _ _ E) as He. apply insert_cases in E as (H1 & H2 & _). destruct (H2 eq_refl) as [Hn H3].
  split.
  - unfold extends, er_gctx. cbn. split; [rewrite Hn; reflexivity|]. split; [|split; [|exact He]].
    + intros d. rewrite H1. destruct (d =? c); reflexivity.
    + intros d. rewrite H3. destruct (Nat.eqb_spec d c) as [->|]; cbn; [|reflexivity]. destruct rw; cbn; [reflexivity|].
      rewrite (Ht c Hn). reflexivity.
  - intros d. rewrite H1, H3. destruct (d =? c); cbn; [discriminate|]. apply Ht.
Qed.

Lemma add_rule_ok gc r gc' : add_rule gc r = (gc', None) -> get_rules gc (tp_symbol (r_lhs r)) <> None /\ g_eta gc' = g_eta gc.
Proof.
  unfold add_rule, get_rules. destruct (slookup _ _) eqn:E; [|discriminate]. intros [= <-]. split; [congruence|reflexivity].
Qed.
Lemma add_rules_extends rs : forall gc gc', add_rules rs gc = (gc', Ok tt) -> typed_rules gc ->
  extends_rules (er_gctx gc) (map (fun r => er_vrule r) rs) (er_gctx gc') /\ typed_rules gc'.
Proof.
  induction rs as [|r rs IH]; intros gc gc'; cbn [add_rules].
  - intros [= <-] Ht. split; [|exact Ht]. unfold extends_rules. cbn. split; [intros ? []|]. repeat split; auto.
    intros d. destruct (option_map _ _); [rewrite app_nil_r|]; reflexivity.
  - destruct (add_rule gc r) as [gc1 [e|]] eqn:E; [discriminate|]. cbn. intros E' Ht.
    destruct (add_rule_ok _ _ _ E) as [Hr He]. apply add_rule_cases in E as [T R].
    assert (Ht1 : typed_rules gc1). { intros d Hd. rewrite R. rewrite T in Hd. rewrite (Ht d Hd). reflexivity. }
    destruct (IH _ _ E' Ht1) as [(X1 & X2 & X3 & X4) Ht']. split; [|exact Ht'].
    unfold extends_rules, er_gctx in *. cbn in *. rewrite T in X2. split; [|split; [|split]].
    + intros v [<-|Hv]; cbn.
      * destruct (get_rules gc _); [discriminate|]. congruence.
      * specialize (X1 v Hv). rewrite R in X1. destruct (get_rules gc (v_head v)); [discriminate|exact X1].
    + intros d. rewrite X2. reflexivity.
    + intros d. rewrite X3, R. destruct (get_rules gc d) as [l|]; cbn; [|reflexivity].
      destruct (tp_symbol (r_lhs r) =? d); cbn; [|reflexivity]. rewrite map_app, <- app_assoc. cbn. unfold er_rule at 2. rewrite map_length. reflexivity.
    + congruence.
Qed.

Lemma map_opt_some {A B} (f : A -> option B) l : (forall a, In a l -> f a <> None) -> exists bs, map_opt f l = Some bs.
Proof.
  induction l as [|a l IH]; intros H; cbn; [eauto|]. destruct (f a) eqn:E; [|edestruct H; [left; reflexivity|exact E]].
  destruct IH as [bs ->]; [|eauto]. intros x Hx. apply H. right. exact Hx.
Qed.
Lemma joker_free_lterm p : joker_free (erp p) = true -> lterm_of_pattern p <> None.
Proof.
  revert p. fix F 1. intros [c ps|m|]; cbn [erp joker_free lterm_of_pattern]; [|discriminate|discriminate].
  intros H. assert (X : exists bs, map_opt lterm_of_pattern ps = Some bs).
  { induction ps as [|p ps IH]; cbn in *; [eauto|]. apply andb_prop in H as [H1 H2].
    pose proof (F p H1) as Hp. destruct (lterm_of_pattern p); [|congruence]. destruct (IH H2) as [bs ->]. eauto. }
  destruct X as [bs ->]. discriminate.
Qed.
Lemma rule_try_ok r tys : map (fun x => option_map erl (snd x)) (r_ctx r) = map Some tys ->
  forallb joker_free (map erp (tp_args (r_lhs r))) = true -> exists r', rule_try r = Ok r'.
Proof.
  intros H1 H2. unfold rule_try. destruct (map_opt_some snd (r_ctx r)) as [ctx ->].
  { intros [id o] Hi E. cbn in E. subst. apply (in_map (fun x => option_map erl (snd x))) in Hi. rewrite H1 in Hi. cbn in Hi.
    apply in_map_iff in Hi as (? & [=] & _). }
  pose proof (joker_free_lterm (pattern_of_top (r_lhs r)) H2) as H. destruct (lterm_of_pattern _); [|congruence]. eauto.
Qed.

Section Real.
  Variable O : query -> nat -> bool.
  Variable n : nat.
  Notation K := (real_kernel O n).

  Lemma rewrites_preserve rs gc (f := fun chk gc (s : unit) => (s, ko_typing (k_check K gc chk))) s :
    rewrites K unit f rs gc s = (tt, Ok tt) -> Forall (preserves (er_gctx gc)) (map (fun r => er_vrule r) rs).
  Proof.
    destruct s. induction rs as [|r rs IH]; cbn [rewrites map]; [constructor|]. intros H. constructor.
    - intros tys Hc Hj. cbn in Hc, Hj |- *. destruct (rule_try_ok r tys Hc Hj) as [r' E]. rewrite E in H.
      destruct (k_rewrite K gc r') as [chk|e| |] eqn:E1; cbn in H; try discriminate.
      destruct (ModelInfer.run (check_check _ gc n chk)) as [[]|e| |] eqn:E2; cbn in H; try discriminate.
      cbn in E1.
      assert (X : forall uniq, (forall uniq', ModelInfer.run (rewrite uniq gc n r') = Ok chk -> ModelInfer.run (check_check uniq' gc n chk) = Ok tt ->
        exists tys lhs ty, map snd (r_ctx r) = map Some tys /\
          inst Var (PatSymb (tp_symbol (r_lhs r)) (map erp (tp_args (r_lhs r)))) lhs /\
          has_type (er_gctx gc) (map erl (rev tys)) lhs ty /\ has_type (er_gctx gc) (map erl (rev tys)) (erl (r_rhs r)) ty)).
      { intros uniq uniq' A B. pose proof (main_rewrite _ _ _ _ _ A) as (R1 & R2 & R3). pose proof (main_check _ _ _ _ B) as C.
        unfold rule_try in E. destruct (map_opt snd (r_ctx r)) as [tys'|] eqn:Ec; [|discriminate].
        destruct (lterm_of_pattern _) as [lhs|] eqn:El; [|discriminate]. injection E as <-. apply lterm_of_pattern_inst in El.
        rewrite R1, R2 in C. cbn in *. exists tys', (erl lhs), (erl (t_ty chk)). split; [|auto].
        clear - Ec. revert tys' Ec. induction (r_ctx r) as [|[id o] l IH]; cbn; intros tys; [intros [= <-]; reflexivity|].
        destruct o as [t|]; [|discriminate]. destruct (map_opt snd l); [|discriminate]. intros [= <-]. cbn. f_equal. auto. }
      destruct (X _ _ E1 E2) as (tys' & lhs & ty & Hm & Hi & Hl & Hr).
      assert (Et : tys = map erl tys').
      { rewrite <- map_map with (f := snd) (g := option_map erl) in Hc. rewrite Hm, map_map in Hc. cbn in Hc.
        rewrite <- map_map with (f := erl) (g := Some) in Hc. revert Hc. generalize (map erl tys'). clear.
        induction tys as [|t tys IH]; intros [|u us]; cbn; try discriminate; [reflexivity|]. intros [= -> H]. f_equal. auto. }
      subst tys. rewrite <- map_rev. eauto.
    - apply IH. destruct (rule_try r) as [r'|e| |]; auto. destruct (ko_typing (k_rewrite K gc r')) as [chk|e| |]; try discriminate.
      unfold f in H at 1. destruct (ko_typing (k_check K gc chk)) as [[]|e| |]; try discriminate. exact H.
  Qed.

  Lemma infer_check_verified o cmd gc gc' : omits o StCheck = false -> typed_rules gc -> infer_check K o cmd gc = (gc', Ok tt) ->
    verified (er_gctx gc) (er_cmd cmd) (er_gctx gc') /\ typed_rules gc'.
  Proof.
    intros Ho Ht. unfold infer_check. rewrite Ho. destruct cmd as [c it|rs]; cbn [infer_with er_cmd].
    - destruct (k_intro K gc it) as [[ty chk]|e| |] eqn:E; cbn [ko_typing res_err]; try discriminate. cbn in E.
      assert (Ei : match it with IDefinition None (Some t) => infers (er_gctx gc) [] (erl t) (erl (t_ty ty)) | _ => True end)
        by (destruct it as [[A|] [t|]|A t|inj A]; try exact I; eapply main_kintro_infers; exact E).
      apply main_kintro in E as [_ E].
      assert (C : match chk with Some c => ModelInfer.run (check_check (O (QCheck gc c)) gc n c) = Ok tt | None => True end ->
        forall r, ko_gctx (gctx_insert gc c ty (rewritable it)) = (gc', r) -> r = Ok tt ->
        verified (er_gctx gc) (VIntro c (map_type erl (map_term erl it))) (er_gctx gc') /\ typed_rules gc').
      { intros Hc r Hi ->. destruct (gctx_insert gc c ty (rewritable it)) as [gc1 [e|]] eqn:Ex; cbn in Hi; [discriminate|]. injection Hi as ->.
        apply insert_extends in Ex as [Hx Ht']; [|exact Ht]. split; [|exact Ht'].
        destruct it as [[A|] [t|]|A t|inj A]; cbn [rewritable map_type map_term option_map] in *; try contradiction.
        - destruct E as (<- & Em & -> & K' & HK). apply main_check in Hc. cbn in Hc. unfold def_rules in Hx. rewrite Em in Hx.
          econstructor; eauto.
        - destruct E as (<- & Em & -> & s & Hs & HA). unfold def_rules in Hx. rewrite Em in Hx. econstructor; eauto.
        - destruct E as (Em & -> & Hty). unfold def_rules in Hx. rewrite Em in Hx. econstructor; eauto.
        - destruct E as (<- & Em & -> & K' & HK). apply main_check in Hc. cbn in Hc. econstructor; eauto.
        - destruct E as (<- & Em & -> & s & Hs & HA). unfold def_rules in Hx. rewrite Em in Hx. econstructor; eauto. }
      destruct chk as [chk|].
      + destruct (k_check K gc chk) as [[]|e| |] eqn:Ec; cbn [ko_typing res_err]; try discriminate. cbn in Ec.
        destruct (ko_gctx _) as [gc1 r] eqn:Eg. intros [= -> ->]. eapply C; eauto.
      + destruct (ko_gctx _) as [gc1 r] eqn:Eg. intros [= -> ->]. eapply C; eauto.
    - destruct (rewrites K unit _ rs gc tt) as [[] [[]|e| |]] eqn:E; try discriminate.
      apply rewrites_preserve in E. destruct (add_rules rs gc) as [gc1 [[]|e| |]] eqn:Ea; try discriminate. intros [= <-].
      apply add_rules_extends in Ea as [Hx Ht']; [|exact Ht]. split; [|exact Ht']. constructor; assumption.
  Qed.

  Lemma seq_verified PE eta jobs (o := Opts eta None jobs) evs : forall st st',
    infer_checks_seq PE K o _ (consume_item PE o) (map Ok evs) st = (st', [], Ok tt) -> typed_rules (ps_gc st) ->
    forall st0, same_syms st st0 ->
    exists cmds, share_results evs st0 = map Ok cmds /\
      verified_all (er_gctx (ps_gc st)) (map er_cmd cmds) (er_gctx (ps_gc st')).
  Proof.
    induction evs as [|ev evs IH]; intros st st'; cbn [map infer_checks_seq share_results].
    - intros [= <-] _ st0 _. exists []. split; [reflexivity|constructor].
    - cbn [consume_item omits o_omit o]. intros H Ht st0 S. destruct (from_event_same ev st st0 S) as [S' E].
      assert (G : ps_gc (fst (from_event ev st)) = ps_gc st).
      { destruct ev as [p|c]; cbn; [reflexivity|]. unfold share. destruct (share_command (ps_syms st) c) as [[id it|rs]|e| |]; reflexivity. }
      destruct (from_event ev st) as [st1 r]. destruct (from_event ev st0) as [st2 r']. cbn in S', E, G. subst r'.
      destruct r as [[cmd|e| |]|]; cbn in H; try discriminate.
      + destruct (infer_check K o cmd (ps_gc st1)) as [gc [[]|e| |]] eqn:Ei; try discriminate.
        apply infer_check_verified in Ei as [Hv Ht']; [|reflexivity|rewrite G; exact Ht].
        destruct (IH _ _ H Ht' st2 S') as (cmds & -> & Hcs). exists (cmd :: cmds). split; [reflexivity|]. rewrite G in Hv. econstructor; eauto.
      + rewrite <- G in Ht. destruct (IH _ _ H Ht st2 S') as (cmds & -> & Hcs). exists cmds. split; [reflexivity|]. rewrite <- G. exact Hcs.
  Qed.

  Lemma seq_items_ok PE o evs : forall st st',
    infer_checks_seq PE K o _ (consume_item PE o) evs st = (st', [], Ok tt) -> exists evs', evs = map Ok evs'.
  Proof.
    induction evs as [|ev evs IH]; intros st st'; cbn [infer_checks_seq]; [exists []; reflexivity|].
    destruct ev as [ev|e| |]; cbn [consume_item].
    - intros H. assert (X : exists st2, infer_checks_seq PE K o _ (consume_item PE o) evs st2 = (st', [], Ok tt)).
      { destruct (omits o StShare); [unfold filter_infer in H; cbn in H; eauto|]. destruct (from_event ev st) as [st1 r]. destruct (filter_infer PE o _) as [[cmd|e| |]|]; try discriminate; [|eauto].
        destruct (infer_check K o cmd (ps_gc st1)) as [gc [[]|e| |]]; try discriminate. eauto. }
      destruct X as [st2 X]. destruct (IH _ _ X) as [evs' ->]. exists (ev :: evs'). reflexivity.
    - unfold filter_infer. destruct (omits o StInfer); cbn; discriminate.
    - unfold filter_infer. destruct (omits o StInfer); cbn; discriminate.
    - unfold filter_infer. destruct (omits o StInfer); cbn; discriminate.
  Qed.
  Lemma main_verified_consume PE eta jobs evs : consume PE K (Opts eta None jobs) evs (Ok tt) ->
    exists evs' cmds sg, evs = map Ok evs' /\ share_results evs' (pst_new (Opts eta None jobs)) = map Ok cmds /\
      verified_all (empty_sig eta) (map er_cmd cmds) sg.
  Proof.
    intros H. apply consume_ok_iff in H as [st' H]. destruct (seq_items_ok _ _ _ _ _ H) as [evs' ->].
    apply seq_verified with (st0 := pst_new (Opts eta None jobs)) in H as (cmds & Hs & Hv); [|intros c _; reflexivity|split; reflexivity].
    exists evs', cmds. eexists. split; [reflexivity|]. split; [exact Hs|exact Hv].
  Qed.
  Lemma file_commands_map PE items evs' : map (fun r => res_err (@PParse PE) (res_map EvCommand r)) items = map Ok evs' ->
    file_commands PE items = Some evs'.
  Proof.
    revert evs'. induction items as [|[c|e| |] items IH]; intros [|ev evs]; cbn; try discriminate; [reflexivity|].
    intros [= <- H]. rewrite (IH _ H). reflexivity.
  Qed.
  Lemma all_events_map PE files : forall evs', all_events PE files = Some (map Ok evs') -> files_events PE files = Some evs'.
  Proof.
    induction files as [|[[path|e| |] items] files IH]; intros evs'; cbn [all_events files_events]; try discriminate.
    - intros [= H]. destruct evs'; [reflexivity|discriminate].
    - destruct (all_events PE files) as [evs|]; [|discriminate]. cbn. intros [= H]. destruct evs' as [|ev evs']; [discriminate|]. cbn in H. injection H as <- H.
      symmetry in H. apply map_eq_app in H as (l1 & l2 & -> & H1 & H2). rewrite (file_commands_map _ _ l1) by (symmetry; exact H1).
      rewrite (IH l2) by (rewrite H2; reflexivity). reflexivity.
  Qed.
  Lemma main_verified_run PE eta jobs files : ModelProcess.run PE K (Opts eta None jobs) files (Ok tt) ->
    exists evs cmds sg, files_events PE files = Some evs /\ share_results evs (pst_new (Opts eta None jobs)) = map Ok cmds /\
      verified_all (empty_sig eta) (map er_cmd cmds) sg.
  Proof.
    unfold ModelProcess.run. rewrite run_ok_iff. intros (evs & st' & E & H). destruct (seq_items_ok _ _ _ _ _ H) as [evs' ->].
    apply seq_verified with (st0 := pst_new (Opts eta None jobs)) in H as (cmds & Hs & Hv); [|intros c _; reflexivity|split; reflexivity].
    exists evs', cmds. eexists. split; [apply all_events_map; exact E|]. split; [exact Hs|exact Hv].
  Qed.
End Real.

(** ** C23, C25: new symbols *)
Lemma bind_ok {E A B} (r : res E A) (k : A -> res E B) b : res_bind r k = Ok b -> exists a, r = Ok a /\ k a = Ok b.
Proof. destruct r; cbn; try discriminate. eauto. Qed.
Lemma map_res_ok {E A B} (f : A -> res E B) l : forall l', map_res f l = Ok l' -> Forall2 (fun a b => f a = Ok b) l l'.
Proof.
  induction l as [|a l IH]; intros l'; cbn; [intros [= <-]; constructor|]. intros H.
  apply bind_ok in H as (b & E1 & H). apply bind_ok in H as (bs & E2 & H). injection H as <-. constructor; auto.
Qed.
Lemma map_ok {E A B} (f : A -> B) (r : res E A) b : res_map f r = Ok b -> exists a, r = Ok a /\ b = f a.
Proof. destruct r; cbn; try discriminate. intros [= <-]. eauto. Qed.
Section Absent.
  Variable syms : symbols.
  Variable c : sym.
  Hypothesis Hc : forall path x, symbols_get syms path x <> Some c.

  Lemma opt_res_absent o o' (P : lterm -> Prop) : opt_res (share_term syms) o = Ok o' ->
    match o with Some t => forall u, share_term syms t = Ok u -> P u | None => True end -> some_all P o'.
  Proof. destruct o as [t|]; cbn; [|intros [= <-]; exact (fun _ => I)]. intros H Ht. apply map_ok in H as (u & E & ->). cbn. auto. Qed.
  Lemma share_absent t : forall u, share_term syms t = Ok u -> absent c u.
  Proof.
    induction t as [h args Hh Hargs] using pterm_ind'. intros u. cbn [share_term]. intros H. apply bind_ok in H as (hd & Eh & H).
    assert (Ah : absent c hd).
    { clear H. destruct h as [[s|v|]|x [ty|] tm|x ty tm]; cbn [share_apph apph_all opt_res] in *.
      - apply map_ok in Eh as (d & E & ->). unfold share_symb in E. destruct (symbols_get _ _ _) eqn:G; [|discriminate]. injection E as <-. cbn. intros ->. eapply Hc; exact G.
      - injection Eh as <-. exact I.
      - injection Eh as <-. exact I.
      - destruct Hh as [H1 H2]. apply bind_ok in Eh as (oty & E1 & Eh). apply bind_ok in Eh as (t' & E2 & Eh). injection Eh as <-.
        apply map_ok in E1 as (ty' & E1 & ->). cbn. eauto.
      - destruct Hh as [_ H2]. apply bind_ok in Eh as (oty & E1 & Eh). apply bind_ok in Eh as (t' & E2 & Eh). injection Eh as <-.
        injection E1 as <-. cbn. eauto.
      - destruct Hh as [H1 H2]. apply bind_ok in Eh as (ty' & E1 & Eh). apply bind_ok in Eh as (t' & E2 & Eh). injection Eh as <-. cbn. eauto. }
    destruct args as [|a args]; [injection H as <-; exact Ah|].
    apply bind_ok in H as (tl & Et & H). injection H as <-. cbn [absent forall_comb]. split; [exact Ah|].
    apply map_res_ok in Et. clear - Hargs Et. revert Hargs. induction Et as [|a0 b l l' Hab _ IH]; intros Hargs; [exact I|]. inversion Hargs as [|? ? P1 P2]; subst. split; [exact (P1 _ Hab)|exact (IH P2)].
  Qed.
  Lemma share_intro_absent it it' : share_intro syms it = Ok it' -> intro_all (absent c) it'.
  Proof.
    destruct it as [oty otm|ty tm|inj ty]; cbn [share_intro]; intros H.
    - apply bind_ok in H as (o1 & E1 & H). apply bind_ok in H as (o2 & E2 & H). injection H as <-. cbn.
      split; [apply (opt_res_absent _ _ (absent c)) in E1; [exact E1|]|apply (opt_res_absent _ _ (absent c)) in E2; [exact E2|]];
        [destruct oty|destruct otm]; auto; apply share_absent.
    - apply bind_ok in H as (o1 & E1 & H). apply bind_ok in H as (o2 & E2 & H). injection H as <-. cbn. eauto using share_absent.
    - apply bind_ok in H as (o1 & E1 & H). injection H as <-. cbn. eauto using share_absent.
  Qed.
  Lemma share_args_absent args : forall it it', share_args syms it args = Ok it' -> intro_all (absent c) it -> intro_all (absent c) it'.
  Proof.
    induction args as [|[x a] args IH]; intros it it'; cbn [share_args]; [intros [= <-]; auto|]. intros H Hi.
    apply bind_ok in H as (u & E & H). apply IH in H; [exact H|]. apply share_absent in E.
    destruct it as [[ty|] [tm|]|ty tm|inj ty]; cbn in *; tauto.
  Qed.
  Lemma pattern_absent t : forall p, pattern_of_lterm t = Ok p -> absent c t -> absent_pat c p.
  Proof.
    induction t as [ | d | v | k Hk ] using lterm_ind'; cbn [pattern_of_lterm]; intros p; try discriminate.
    - intros [= <-]. cbn. auto.
    - intros [= <-]. cbn. auto.
    - destruct k as [hd args|x a b|x a b]; cbn [pattern_of_lterm] in *; try discriminate. intros H [Ah Aargs]. destruct Hk as [H1 H2].
      apply bind_ok in H as (q & E & H). destruct q as [d ps|m|]; try discriminate. apply bind_ok in H as (qs & E2 & H). injection H as <-.
      destruct (H1 _ E Ah) as [Hd Hps]. cbn. split; [exact Hd|]. apply map_res_ok in E2.
      assert (Hqs : (fix go l := match l with [] => True | p :: l => absent_pat c p /\ go l end) qs).
      { clear - E2 H2 Aargs. revert H2 Aargs. induction E2 as [|a0 b l l' Hab _ IH]; intros H2 Aa; [exact I|]. inversion H2 as [|? ? P1 P2]; subst. destruct Aa as [A1 A2]. split; [exact (P1 _ Hab A1)|exact (IH P2 A2)]. }
      clear - Hps Hqs. induction ps as [|p ps IH]; cbn; [exact Hqs|]. destruct Hps as [P1 P2]. split; [exact P1|exact (IH P2)].
  Qed.
  Lemma joke_absent j p : absent_pat c p -> absent_pat c (joke j p).
  Proof.
    revert p. fix F 1. intros [d ps|m|]; cbn [joke absent_pat]; [|destruct (m =? j); auto|auto].
    intros [Hd H]. split; [exact Hd|]. induction ps as [|p ps IH]; cbn in *; [exact I|]. destruct H as [H1 H2]. split; [apply F; exact H1|apply IH; exact H2].
  Qed.
  Lemma share_command_absent cmd cmd' : share_command syms cmd = Ok cmd' -> absent_cmd c cmd'.
  Proof.
    destruct cmd as [x args it|rs]; cbn [share_command]; intros H.
    - apply bind_ok in H as (it1 & E1 & H). apply bind_ok in H as (it2 & E2 & H). injection H as <-. cbn.
      eapply share_args_absent; [exact E2|]. eapply share_intro_absent; exact E1.
    - apply bind_ok in H as (rs' & E & H). injection H as <-. cbn. apply map_res_ok in E. induction E as [|r r' rs rs' Hr _ IH]; constructor; [|exact IH].
      unfold share_rule in Hr. apply bind_ok in Hr as (ctx & E1 & Hr). apply bind_ok in Hr as (lhs & E2 & Hr). apply bind_ok in Hr as (p & E3 & Hr).
      apply bind_ok in Hr as (tp & E4 & Hr). apply bind_ok in Hr as (rhs & E5 & Hr). injection Hr as <-. cbn.
      apply share_absent in E2, E5. apply pattern_absent in E3; [|exact E2]. apply (joke_absent (length (pr_ctx r))) in E3.
      destruct (joke _ p) as [d ps|m|]; cbn in E4; try discriminate. injection E4 as <-. cbn in *. destruct E3 as [Hd Hps].
      repeat split; auto.
      + clear - Hc E1. apply map_res_ok in E1. induction E1 as [|[x o] [x' o'] l l' H _ IH]; constructor; [|exact IH].
        apply map_ok in H as (o2 & E & [= -> ->]). cbn. eapply opt_res_absent; [exact E|]. destruct o; auto. apply share_absent.
      + clear - Hps. induction ps; constructor; [apply Hps|]. apply IHps. apply Hps.
  Qed.
End Absent.

(** all symbols in the table are smaller than the next one *)
Definition fresh_next (st : pst) : Prop := forall m x c, binding (ps_syms st) m x = Some c -> c < ps_next st.
Lemma fresh_get st path x c : fresh_next st -> symbols_get (ps_syms st) path x = Some c -> c < ps_next st.
Proof.
  intros H. rewrite get_binding. induction (ancestors (sy_cur (ps_syms st))) as [|a l IH]; cbn [first_some]; [discriminate|].
  destruct (binding (ps_syms st) (a ++ path) x) eqn:E; [|exact IH]. intros [= <-]. eapply H; exact E.
Qed.
Lemma fresh_new o : fresh_next (pst_new o).
Proof. intros m x c H. unfold binding in H. destruct m; discriminate. Qed.
Lemma from_event_fresh ev st : fresh_next st ->
  fresh_next (fst (from_event ev st)) /\ ps_next st <= ps_next (fst (from_event ev st)) /\
  (forall cmd, snd (from_event ev st) = Some (Ok cmd) ->
    (forall c, ps_next st <= c -> absent_cmd c cmd) /\
    (forall c it, cmd = CIntro c it -> ps_next st = c /\ c < ps_next (fst (from_event ev st)))).
Proof.
  intros H. destruct ev as [path|cmd]; cbn [from_event].
  - cbn. split; [|split; [lia|discriminate]]. intros m x c. cbn. destruct (set_path_spec (ps_syms st) path m x) as [-> _]. apply H.
  - assert (A : forall cmd', share_command (ps_syms st) cmd = Ok cmd' -> forall c, ps_next st <= c -> absent_cmd c cmd').
    { intros cmd' E c Hc. eapply share_command_absent; [|exact E]. intros path x E'. apply fresh_get in E'; [lia|exact H]. }
    unfold share. destruct (share_command (ps_syms st) cmd) as [[id it|rs]|e| |]; cbn; try (split; [exact H|split; [lia|discriminate]]).
    + split; [|split; [lia|]].
      * intros m x c. cbn. pose proof (insert_spec (ps_syms st) id (ps_next st) m x) as [X _]. unfold symbols_insert in X. cbn [fst] in X. rewrite X.
        destruct (list_eq_dec _ _ _); [destruct (str_eqb x id)|]; [intros [= <-]; lia|..]; intros Hb; apply H in Hb; lia.
      * intros cmd' E. match type of E with Some (res_err _ (res_map _ ?r)) = _ => set (r0 := r) in E end.
        assert (X : r0 = Ok (ps_next st) \/ r0 = Err Reinsertion) by (subst r0; destruct (match m_find _ _ with Some _ => _ | None => _ end); auto).
        destruct X as [-> | ->]; cbn in E; [|discriminate]. injection E as <-. split.
        -- intros c Hc. cbn. exact (A _ eq_refl c Hc).
        -- intros c it' [= <- <-]. split; [reflexivity|lia].
    + split; [exact H|]. split; [lia|]. intros cmd' [= <-]. split; [intros c Hc; exact (A _ eq_refl c Hc)|discriminate].
Qed.

Lemma share_results_fresh evs : forall st, fresh_next st ->
  (forall i c it, nth_error (share_results evs st) i = Some (Ok (CIntro c it)) ->
    ps_next st <= c /\
    (forall j cmd, j <= i -> nth_error (share_results evs st) j = Some (Ok cmd) -> absent_cmd c cmd) /\
    (forall j it', nth_error (share_results evs st) j = Some (Ok (CIntro c it')) -> i = j)).
Proof.
  induction evs as [|ev evs IH]; intros st H; cbn [share_results].
  - intros [|i] c it; discriminate.
  - destruct (from_event_fresh ev st H) as (H1 & H2 & H3). destruct (from_event ev st) as [st1 [r|]]; cbn [fst snd] in *.
    2:{ intros i c it E. destruct (IH st1 H1 i c it E) as (A & B & C). split; [lia|]. split; [exact B|exact C]. }
    intros [|i] c it; cbn [nth_error].
    + intros [= ->]. destruct (H3 _ eq_refl) as [A B]. destruct (B _ _ eq_refl) as [<- B']. split; [lia|]. split.
      * intros [|j] cmd Hj; [|lia]. cbn. intros [= <-]. apply A. lia.
      * intros [|j] it'; cbn; [reflexivity|]. intros E. destruct (IH st1 H1 j _ _ E) as [C _]. lia.
    + intros E. destruct (IH st1 H1 i c it E) as (A & B & C). split; [lia|]. split.
      * intros [|j] cmd Hj; cbn [nth_error]; [|apply B; lia]. intros [= ->]. destruct (H3 _ eq_refl) as [A' _]. apply A'. lia.
      * intros [|j] it'; cbn [nth_error]; [|intros E'; f_equal; eapply C; exact E'].
        intros [= ->]. destruct (H3 _ eq_refl) as [_ B']. destruct (B' _ _ eq_refl). lia.
Qed.
Lemma main_fresh o evs i c it : nth_error (share_results evs (pst_new o)) i = Some (Ok (CIntro c it)) ->
  (forall j cmd, j <= i -> nth_error (share_results evs (pst_new o)) j = Some (Ok cmd) -> absent_cmd c cmd) /\
  (forall j it', nth_error (share_results evs (pst_new o)) j = Some (Ok (CIntro c it')) -> i = j).
Proof. intros E. apply (share_results_fresh evs (pst_new o) (fresh_new o) i c it E). Qed.
Lemma main_distinct o evs i j c it it' :
  nth_error (share_results evs (pst_new o)) i = Some (Ok (CIntro c it)) ->
  nth_error (share_results evs (pst_new o)) j = Some (Ok (CIntro c it')) -> i = j.
Proof. intros E1 E2. apply (main_fresh o evs i c it E1) in E2. exact E2. Qed.
Lemma main_scope o evs i j c it cmd :
  nth_error (share_results evs (pst_new o)) i = Some (Ok (CIntro c it)) -> j <= i ->
  nth_error (share_results evs (pst_new o)) j = Some (Ok cmd) -> absent_cmd c cmd.
Proof. intros E Hj E'. exact (proj1 (main_fresh o evs i c it E) j cmd Hj E'). Qed.

(** ** C42 *)
Lemma main_insert_other s x c y p path : y <> x ->
  symbols_get (set_path (fst (symbols_insert s x c)) p) path y = symbols_get (set_path s p) path y.
Proof.
  intros H. rewrite !get_binding.
  destruct (set_path_spec (fst (symbols_insert s x c)) p [] []) as [_ ->]. destruct (set_path_spec s p [] []) as [_ ->].
  apply first_some_ext. intros a.
  destruct (set_path_spec (fst (symbols_insert s x c)) p (a ++ path) y) as [-> _]. destruct (set_path_spec s p (a ++ path) y) as [-> _].
  destruct (insert_spec s x c (a ++ path) y) as [-> _]. apply str_eqb_neq in H. rewrite H. destruct (list_eq_dec _ _ _); reflexivity.
Qed.
Lemma main_gctx_insert_other gc c ty rw gc' e : gctx_insert gc c ty rw = (gc', Some e) ->
  forall d, d <> c -> get_type gc' d = get_type gc d /\ get_rules gc' d = get_rules gc d.
Proof.
  intros E d Hd. apply insert_cases in E as (H1 & _ & _ & _ & H5). split; [|auto]. rewrite H1.
  destruct (Nat.eqb_spec d c); [contradiction|reflexivity].
Qed.
Lemma main_add_rule_err gc r gc' e : add_rule gc r = (gc', Some e) -> gc' = gc.
Proof. unfold add_rule. destruct (slookup _ _); [discriminate|]. intros [= <- _]. reflexivity. Qed.
