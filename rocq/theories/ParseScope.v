(** * Parsing with scoping is parsing without scoping followed by scoping *)

From Verif Require Import Base ModelSyntax ModelCommand ModelLex ModelParse ParseAuto SpecParse SpecSyntax.

Local Notation tms := (pterm symb).
Local Notation tma := (pterm atom).

(** ** Terms *)
Definition env0 (b : list str) : env := map Some (rev b).

Fixpoint env_of (b : list str) (stk : list (cont symb)) : env :=
  match stk with
  | [] => env0 b
  | CAbst x _ :: stk => Some x :: env_of b stk
  | CProd x _ :: stk => x :: env_of b stk
  | CLPar _ _ :: stk => env_of b stk
  end.

Definition sc_cont (e : env) (c : cont symb) : cont atom :=
  match c with
  | CAbst x ty => CAbst x (option_map (scope_term e) ty)
  | CProd x ty => CProd x (scope_term e ty)
  | CLPar x t => CLPar x (option_map (scope_term e) t)
  end.

Fixpoint sc_stk (b : list str) (stk : list (cont symb)) : list (cont atom) :=
  match stk with
  | [] => []
  | c :: stk => sc_cont (env_of b stk) c :: sc_stk b stk
  end.

Definition sc_ts (e : env) (st : tstate symb) : tstate atom :=
  match st with
  | SInit => SInit
  | SSymb s => SSymb s
  | SVarOf v => SVarOf v
  | SATerm x t => SATerm x (scope_term e t)
  end.

Definition map_tout (b : list str) (o : tout symb) : tout atom :=
  match o with
  | TNext _ st stk => TNext atom (sc_ts (env_of b stk) st) (sc_stk b stk)
  | TDone _ t stk => TDone atom (scope_term (env_of b stk) t) (sc_stk b stk)
  | TErr _ e stk => TErr atom e (sc_stk b stk)
  end.

Lemma find_bound_index s b : forall i,
  find_bound s b i = option_map (fun k => k + i) (index_of s (map Some b)).
Proof.
  induction b as [|x b IH]; intros i; [reflexivity|]. cbn [find_bound map index_of].
  destruct (str_eqb x s); [reflexivity|]. rewrite IH. destruct (index_of s (map Some b)); cbn; [|reflexivity].
  f_equal. lia.
Qed.

Lemma find_stack_index s b stk : forall i,
  match find_stack s (sc_stk b stk) i with
  | inl k => Some k
  | inr k => find_bound s (rev b) k
  end = option_map (fun k => k + i) (index_of s (env_of b stk)).
Proof.
  induction stk as [|c stk IH]; intros i; cbn [sc_stk find_stack env_of].
  - apply find_bound_index.
  - assert (IH' : match find_stack s (sc_stk b stk) (S i) with
        | inl k => Some k
        | inr k => find_bound s (rev b) k
        end = option_map (fun k => k + i) (option_map S (index_of s (env_of b stk)))).
    { rewrite IH. destruct (index_of s (env_of b stk)); cbn; [|reflexivity]. f_equal. lia. }
    destruct c as [x ty|[x|] ty|x ap]; cbn [sc_cont index_of].
    + destruct (str_eqb x s); [reflexivity|exact IH'].
    + destruct (str_eqb x s); [reflexivity|exact IH'].
    + exact IH'.
    + apply IH.
Qed.

Lemma tc_find_index s b stk : tc_find (MkTctx b (sc_stk b stk)) s = index_of s (env_of b stk).
Proof.
  unfold tc_find. cbn [tc_stack tc_bound]. rewrite find_stack_index.
  destruct (index_of s (env_of b stk)); cbn; [|reflexivity]. f_equal. lia.
Qed.

Lemma go_scope s b stk :
  go scope_atom s (MkTctx b (sc_stk b stk)) = scope_term (env_of b stk) (go scope_symb s (MkTctx b stk)).
Proof.
  unfold go, pt_new, scope_symb, scope_atom. cbn [scope_term map]. do 2 f_equal.
  unfold scope_of. destruct (sy_path s); [|reflexivity]. rewrite tc_find_index. reflexivity.
Qed.

Lemma push_scope e t u : pt_push (scope_term e t) (scope_term e u) = scope_term e (pt_push t u).
Proof. destruct t as [h args]. cbn [pt_push scope_term]. rewrite map_app. reflexivity. Qed.

Lemma reduce_scope b stk : forall t,
  reduce (scope_term (env_of b stk) t) (sc_stk b stk) =
  let '(lp, t', stk') := reduce t stk in
  (option_map (fun p => (fst p, option_map (scope_term (env_of b stk')) (snd p))) lp,
   scope_term (env_of b stk') t', sc_stk b stk').
Proof.
  induction stk as [|c stk IH]; intros t; [reflexivity|].
  destruct c as [x ty|x ty|x ap]; cbn [sc_stk sc_cont env_of reduce].
  - rewrite <- IH. reflexivity.
  - rewrite <- IH. reflexivity.
  - reflexivity.
Qed.

Lemma step_aterm_scope b x t stk tok :
  step_aterm atom scope_atom b x (scope_term (env_of b stk) t) (sc_stk b stk) tok
  = map_tout b (step_aterm symb scope_symb b x t stk tok).
Proof.
  pose proof (reduce_scope b stk t) as HR.
  destruct tok as [ | | | | | | | | | | | | | | |s1|o1|]; cbn [step_aterm];
    try (destruct x; [reflexivity|]; rewrite HR;
         destruct (reduce t stk) as [[[[x oa]|] t'] stk']; try reflexivity;
         (cbn; destruct oa as [oa|]; cbn; [rewrite push_scope|]; reflexivity));
    try reflexivity.
  - destruct x; reflexivity.
  - rewrite go_scope, push_scope. reflexivity.
Qed.

Lemma tstep_scope b st stk tok :
  tstep atom scope_atom b (sc_ts (env_of b stk) st) (sc_stk b stk) tok
  = map_tout b (tstep symb scope_symb b st stk tok).
Proof.
  destruct st as [|s|v|x t]; cbn [sc_ts tstep].
  - destruct tok as [ | | | | | | | | | | | | | | |s1|o1|]; try reflexivity.
    cbn [step_init]. destruct (sy_path s1); [reflexivity|]. rewrite go_scope. reflexivity.
  - assert (H : step_aterm atom scope_atom b None (go scope_atom (symb_new s) (MkTctx b (sc_stk b stk))) (sc_stk b stk) tok
       = map_tout b (step_aterm symb scope_symb b None (go scope_symb (symb_new s) (MkTctx b stk)) stk tok))
      by (rewrite go_scope; apply step_aterm_scope).
    destruct tok; try exact H; reflexivity.
  - destruct tok as [ | | | | | | | | | | | | | | |s1|o1|]; try reflexivity.
    cbn [step_varof]. rewrite go_scope. reflexivity.
  - apply step_aterm_scope.
Qed.

Lemma tstep_done A (scope : symb -> tctx A -> A) b st stk tok t stk' :
  tstep A scope b st stk tok = TDone A t stk' -> stk' = [].
Proof.
  assert (HR : forall stk t, match reduce (A := A) t stk with (None, _, stk') => stk' = [] | _ => True end).
  { induction stk0 as [|c stk0 IH]; intros t0; [reflexivity|]. destruct c; cbn [reduce]; try exact I; apply IH. }
  assert (HA : forall x t0, step_aterm A scope b x t0 stk tok = TDone A t stk' -> stk' = []).
  { intros x t0. specialize (HR stk t0).
    destruct tok; cbn [step_aterm]; try discriminate; try (destruct x; discriminate);
      (destruct x; [discriminate|]; destruct (reduce t0 stk) as [[[[x oa]|] t'] stk1]; try discriminate;
       intros [= _ ->]; exact HR). }
  destruct st as [|s|v|x t0]; cbn [tstep].
  - destruct tok as [ | | | | | | | | | | | | | | |s1|o1|]; cbn; try discriminate. destruct (sy_path s1); discriminate.
  - destruct tok; cbn [step_symb]; try discriminate; apply HA.
  - destruct tok; cbn; discriminate.
  - apply HA.
Qed.

(** ** Commands *)
Fixpoint sc_tys (e : env) (b : list str) (c : list tms) : list tma :=
  match b, c with
  | x :: b, ty :: c => scope_term e ty :: sc_tys (Some x :: e) b c
  | _, _ => []
  end.
Fixpoint sc_otys (e : env) (b : list str) (c : list (option tms)) : list (option tma) :=
  match b, c with
  | x :: b, ty :: c => option_map (scope_term e) ty :: sc_otys (Some x :: e) b c
  | _, _ => []
  end.

Lemma sc_tys_snoc b : forall e c x ty, length b = length c ->
  sc_tys e (b ++ [x]) (c ++ [ty]) = sc_tys e b c ++ [scope_term (env0 b ++ e) ty].
Proof.
  induction b as [|y b IH]; intros e [|t c] x ty; try discriminate; [reflexivity|].
  intros [= H]. cbn [app sc_tys]. rewrite IH by exact H. unfold env0. cbn [rev]. rewrite map_app, <- app_assoc. reflexivity.
Qed.
Lemma sc_otys_snoc b : forall e c x ty, length b = length c ->
  sc_otys e (b ++ [x]) (c ++ [ty]) = sc_otys e b c ++ [option_map (scope_term (env0 b ++ e)) ty].
Proof.
  induction b as [|y b IH]; intros e [|t c] x ty; try discriminate; [reflexivity|].
  intros [= H]. cbn [app sc_otys]. rewrite IH by exact H. unfold env0. cbn [rev]. rewrite map_app, <- app_assoc. reflexivity.
Qed.
Lemma scope_args_combine b : forall e c, length b = length c ->
  scope_args e (combine b c) = (combine b (sc_tys e b c), env0 b ++ e).
Proof.
  induction b as [|y b IH]; intros e [|t c]; try discriminate; [reflexivity|].
  intros [= H]. cbn [combine scope_args sc_tys]. rewrite IH by exact H. unfold env0. cbn [rev]. rewrite map_app, <- app_assoc.
  reflexivity.
Qed.
Lemma scope_vars_combine b : forall e c, length b = length c ->
  scope_vars e (combine b c) = (combine b (sc_otys e b c), env0 b ++ e).
Proof.
  induction b as [|y b IH]; intros e [|t c]; try discriminate; [reflexivity|].
  intros [= H]. cbn [combine scope_vars sc_otys]. rewrite IH by exact H. unfold env0. cbn [rev]. rewrite map_app, <- app_assoc.
  reflexivity.
Qed.

Definition sc_rc (b : list str) (c : rulectx tms) : rulectx tma :=
  MkRuleCtx (map scope_rule (rc_rules c)) (sc_otys [] b (rc_vars c)).

Definition sc_cmd (b : list str) (st : cstate tms) : cstate tma :=
  match st with
  | CInit => CInit
  | CPrefix p => CPrefix p
  | CArgs p x c o => CArgs p x (sc_tys [] b c) o
  | CArgsIn p x c y => CArgsIn p x (sc_tys [] b c) y
  | COfEq p x c ty => COfEq p x (sc_tys [] b c) (scope_term (env0 b) ty)
  | CRuleCtx c y => CRuleCtx (sc_rc b c) y
  | CRuleL c => CRuleL (sc_rc (tl b) c)
  | CRuleR c l => CRuleR (sc_rc b c) (scope_term (env0 b ++ [Some joker]) l)
  | CPragma => CPragma
  | CCommand c => CCommand (scope_command c)
  end.

(** as many names as types *)
Definition linv (b : list str) (st : cstate tms) : Prop :=
  match st with
  | CInit | CPrefix _ | CPragma | CCommand _ => b = []
  | CArgs _ _ c _ | CArgsIn _ _ c _ | COfEq _ _ c _ => length b = length c
  | CRuleCtx c _ | CRuleR c _ => length b = length (rc_vars c)
  | CRuleL c => exists b', b = joker :: b' /\ length b' = length (rc_vars c)
  end.

(** the result of a step with scoping, from the one without *)
Definition sc_res (r : cres tms) (r' : cres tma) : Prop :=
  let '(r, b) := r in
  r' = (res_map (sc_cmd b) r, b) /\ match r with Ok st => linv b st | _ => True end.

Lemma sc_same (r : res cmd_error (cstate tms)) b :
  match r with Ok st => linv b st | _ => True end -> sc_res (r, b) (res_map (sc_cmd b) r, b).
Proof. intros H. split; [reflexivity|exact H]. Qed.

Lemma cparse_scope b st tok : linv b st -> sc_res (cparse st b tok) (cparse (sc_cmd b st) b tok).
Proof.
  intros H.
  assert (HL : length (b ++ [@nil ascii]) = S (length b)) by (rewrite app_length; cbn; lia).
  assert (HL' : forall x : str, length (b ++ [x]) = S (length b)) by (intros; rewrite app_length; cbn; lia).
  destruct st as [|p|p x c o|p x c y|p x c ty|c y|c|c l| |c]; cbn [linv sc_cmd] in *.
  - subst b. destruct tok as [ | | | | | | | | | | | | | | |s1|o1|]; try (cbn; auto; fail).
    unfold cparse. destruct (sy_path s1); cbn; auto.
  - subst b. destruct tok as [ | | | | | | | | | | | | | | |s1|o1|]; try (cbn; auto; fail).
    unfold cparse. destruct (sy_path s1); cbn; auto.
  - destruct tok as [ | | | | | | | | | | | | | | |s1|o1|];
      try (unfold cparse; destruct (sy_path s1));
      (destruct p as [[]|]; destruct o as [[]|]; cbn; auto).
  - destruct tok as [ | | | | | | | | | | | | | | |s1|o1|];
      try (unfold cparse; destruct (sy_path s1));
      (destruct y as [[y []]|]; cbn; auto).
  - destruct tok as [ | | | | | | | | | | | | | | |s1|o1|];
      try (unfold cparse; destruct (sy_path s1)); cbn; auto.
  - assert (HN : forall s, sc_otys [] b (rc_vars c) ++ [None] = sc_otys [] (b ++ [s]) (rc_vars c ++ [None]))
      by (intros s; rewrite sc_otys_snoc by exact H; reflexivity).
    destruct tok as [ | | | | | | | | | | | | | | |s1|o1|];
      try (unfold cparse; destruct (sy_path s1));
      (destruct y as [[y []]|]; cbn; auto).
    + unfold rc_push, sc_rc. cbn. rewrite (HN y). split; [reflexivity|]. eexists. split; [reflexivity|].
      rewrite !app_length. cbn. lia.
    + split; [reflexivity|]. eexists. split; [reflexivity|exact H].
    + unfold rc_push, sc_rc. cbn. rewrite (HN y). split; [reflexivity|]. rewrite !app_length. cbn. lia.
  - destruct tok as [ | | | | | | | | | | | | | | |s1|o1|];
      try (unfold cparse; destruct (sy_path s1)); cbn; auto.
  - destruct tok as [ | | | | | | | | | | | | | | |s1|o1|];
      try (unfold cparse; destruct (sy_path s1)); cbn; auto.
  - subst b. destruct tok as [ | | | | | | | | | | | | | | |s1|o1|]; try (cbn; auto; fail).
  - subst b. destruct tok as [ | | | | | | | | | | | | | | |s1|o1|]; try (cbn; auto; fail).
    unfold cparse. destruct (sy_path s1); cbn; auto.
Qed.

Lemma scope_rule_combine b vars l r : length b = length vars ->
  scope_rule (MkPRule (combine b vars) l r)
  = MkPRule (combine b (sc_otys [] b vars)) (scope_term (env0 b ++ [Some joker]) l) (scope_term (env0 b) r).
Proof.
  intros H. unfold scope_rule. cbn [pr_ctx pr_lhs pr_rhs]. rewrite scope_vars_combine by exact H.
  rewrite app_nil_r. reflexivity.
Qed.

Lemma apply_scope b st t tok : linv b st ->
  sc_res (apply st b t tok) (apply (sc_cmd b st) b (scope_term (env0 b) t) tok).
Proof.
  intros H.
  assert (HI : forall c x it, length b = length c ->
    PIntro x (combine b (sc_tys [] b c)) (scope_intro (env0 b) it) = scope_command (PIntro x (combine b c) it)).
  { intros c x it Hl. unfold scope_command. rewrite scope_args_combine by exact Hl. rewrite app_nil_r. reflexivity. }
  destruct st as [|p|p x c o|p x c y|p x c ty|c y|c|c l| |c]; cbn [linv sc_cmd] in *.
  - destruct tok; cbn; auto.
  - destruct tok; cbn; auto.
  - destruct tok; try (destruct p as [[]|]; destruct o as [[]|]; cbn; auto; fail).
    destruct p as [[]|]; destruct o as [[]|]; cbn [apply close res_map sc_res sc_cmd linv]; auto;
      (split; [|reflexivity]); do 3 f_equal;
      [apply (HI c x (IDefinition (Some t) None) H)
      |apply (HI c x (IDefinition None (Some t)) H)
      |apply (HI c x (IDeclaration true t) H)
      |apply (HI c x (IDeclaration false t) H)].
  - destruct tok; try (destruct y as [[y []]|]; cbn; auto; fail).
    destruct y as [[y []]|]; cbn; auto.
    rewrite sc_tys_snoc, app_nil_r by exact H. split; [reflexivity|]. rewrite !app_length. cbn. lia.
  - destruct tok; try (destruct p as [[]|]; cbn; auto; fail).
    destruct p as [[]|]; cbn [apply close res_map sc_res sc_cmd linv]; auto;
      (split; [|reflexivity]); do 3 f_equal;
      [apply (HI c x (IDefinition (Some ty) (Some t)) H)|apply (HI c x (ITheorem ty t) H)].
  - assert (HN : forall s, sc_otys [] b (rc_vars c) ++ [Some (scope_term (env0 b) t)]
        = sc_otys [] (b ++ [s]) (rc_vars c ++ [Some t]))
      by (intros s; rewrite sc_otys_snoc, app_nil_r by exact H; reflexivity).
    destruct tok; try (destruct y as [[y []]|]; cbn; auto; fail);
      (destruct y as [[y []]|]; cbn; auto).
    + unfold rc_push, sc_rc. cbn. rewrite (HN y). split; [reflexivity|]. eexists. split; [reflexivity|].
      rewrite !app_length. cbn. lia.
    + unfold rc_push, sc_rc. cbn. rewrite (HN y). split; [reflexivity|]. rewrite !app_length. cbn. lia.
  - destruct H as (b' & -> & H). destruct tok; try (cbn; auto; eauto; fail).
    cbn. unfold sc_rc. cbn. split; [|exact H]. do 3 f_equal. unfold env0. cbn [rev]. rewrite map_app. reflexivity.
  - destruct tok; try (cbn; auto; fail).
    + cbn. unfold sc_rc, rulectx_add. cbn. split; [|reflexivity].
      rewrite map_app. cbn [map]. rewrite scope_rule_combine by exact H. reflexivity.
    + cbn. split; [|reflexivity]. rewrite map_app. cbn [map].
      rewrite scope_rule_combine by exact H. reflexivity.
  - destruct tok; cbn; auto.
  - destruct tok; cbn; auto.
Qed.

(** ** Running *)
Definition sc_p (st : pstate symb) (ctx : tctx symb) : pstate atom :=
  MkPState (sc_cmd (tc_bound ctx) (ps_cmd st)) (sc_ts (env_of (tc_bound ctx) (tc_stack ctx)) (ps_trm st)).
Definition sc_ctx (ctx : tctx symb) : tctx atom := MkTctx (tc_bound ctx) (sc_stk (tc_bound ctx) (tc_stack ctx)).

Definition pinv (st : pstate symb) (ctx : tctx symb) : Prop :=
  linv (tc_bound ctx) (ps_cmd st) /\ (expects_term (ps_cmd st) = false -> tc_stack ctx = []).

Lemma expects_scope b st : expects_term (sc_cmd b st) = expects_term st.
Proof. destruct st; reflexivity. Qed.

Definition sc_out (o : sout symb) (o' : sout atom) : Prop :=
  match o with
  | SNext _ st ctx => o' = SNext atom (sc_p st ctx) (sc_ctx ctx) /\ pinv st ctx
  | SEmit _ c ctx => ctx = tctx_default /\ o' = SEmit atom (scope_command c) tctx_default
  | SErr _ e _ => exists ctx', o' = SErr atom e ctx'
  | SPanic _ _ => exists ctx', o' = SPanic atom ctx'
  end.

Lemma cmd_out_scope r r' b' : sc_res r (r', b') ->
  sc_out (cmd_out symb (fst r) (MkTctx (snd r) [])) (cmd_out atom r' (MkTctx b' [])).
Proof.
  destruct r as [r b]. intros [[= -> ->] H]. cbn [fst snd].
  destruct r as [st| | |]; cbn; eauto.
  destruct st; cbn in *; try (split; [reflexivity|split; cbn; auto]; fail).
  subst b. auto.
Qed.

Lemma sstep_scope st ctx tok : pinv st ctx ->
  sc_out (sstep symb scope_symb st ctx tok) (sstep atom scope_atom (sc_p st ctx) (sc_ctx ctx) tok).
Proof.
  intros [H1 H2]. destruct ctx as [b stk]. unfold sstep, sc_p, sc_ctx. cbn [ps_cmd ps_trm tc_bound tc_stack] in *.
  rewrite expects_scope. destruct (expects_term (ps_cmd st)) eqn:He.
  - rewrite tstep_scope. destruct (tstep symb scope_symb b (ps_trm st) stk tok) as [trm stk'|t stk'|e stk'] eqn:Et.
    + cbn. split; [reflexivity|]. split; cbn; [exact H1|]. rewrite He. discriminate.
    + rewrite (tstep_done _ _ _ _ _ _ _ _ Et). cbn [map_tout sc_stk env_of].
      pose proof (apply_scope b (ps_cmd st) t tok H1) as Ha.
      destruct (apply (sc_cmd b (ps_cmd st)) b (scope_term (env0 b) t) tok) as [r' b'].
      pose proof (cmd_out_scope _ _ _ Ha) as Hc.
      destruct (apply (ps_cmd st) b t tok) as [r b1]. exact Hc.
    + cbn. eauto.
  - rewrite (H2 eq_refl). cbn [sc_stk].
    pose proof (cparse_scope b (ps_cmd st) tok H1) as Ha.
    destruct (cparse (sc_cmd b (ps_cmd st)) b tok) as [r' b'].
    pose proof (cmd_out_scope _ _ _ Ha) as Hc.
    destruct (cparse (ps_cmd st) b tok) as [r b1]. exact Hc.
Qed.

Lemma pinv_default : pinv pstate_default tctx_default.
Proof. split; cbn; auto. Qed.

Lemma srun_scope toks : forall st ctx, pinv st ctx ->
  let '(r, rest) := srun symb scope_symb st ctx toks in
  let '(r', rest') := srun atom scope_atom (sc_p st ctx) (sc_ctx ctx) toks in
  rest' = rest /\
  match r with
  | RState _ st ctx => r' = RState atom (sc_p st ctx) (sc_ctx ctx)
  | RCmd _ c ctx => ctx = tctx_default /\ r' = RCmd atom (scope_command c) tctx_default
  | RErr _ e _ => exists ctx', r' = RErr atom e ctx'
  | RPanic _ _ => exists ctx', r' = RPanic atom ctx'
  end.
Proof.
  induction toks as [|tok toks IH]; intros st ctx H.
  - cbn. auto.
  - destruct (is_comment tok) eqn:Ec.
    + destruct tok as [ | | | | | | | | | | | | | | |s1|[|o1]|]; try discriminate; cbn [srun]; [apply IH; exact H|auto].
    + rewrite !srun_cons by exact Ec. pose proof (sstep_scope st ctx tok H) as Hs.
      destruct (sstep symb scope_symb st ctx tok) as [st1 ctx1|c1 ctx1|e ctx1|ctx1]; cbn [sc_out] in Hs.
      * destruct Hs as [-> H1]. cbn [s_then]. apply IH. exact H1.
      * destruct Hs as [-> ->]. cbn. auto.
      * destruct Hs as [ctx' ->]. cbn. eauto.
      * destruct Hs as [ctx' ->]. cbn. eauto.
Qed.

Definition sc_item (r : item symb) : item atom := res_map (option_map scope_command) r.

Lemma strict_next_scope toks :
  let '(r, p) := strict_next scope_symb (MkStrict toks tctx_default) in
  let '(r', p') := strict_next scope_atom (MkStrict toks tctx_default) in
  r' = sc_item r /\ st_toks p' = st_toks p /\
  forall c, r = Ok (Some c) -> st_ctx p = tctx_default /\ st_ctx p' = tctx_default.
Proof.
  rewrite !strict_next_run. destruct toks as [|tok toks]; [cbn; repeat split; discriminate|].
  pose proof (srun_scope (tok :: toks) _ _ pinv_default) as H.
  destruct (srun symb scope_symb pstate_default tctx_default (tok :: toks)) as [r rest].
  change (sc_p pstate_default tctx_default) with (@pstate_default atom) in H.
  change (sc_ctx tctx_default) with (@tctx_default atom) in H.
  destruct (srun atom scope_atom pstate_default tctx_default (tok :: toks)) as [r' rest'].
  destruct H as [-> H]. destruct r as [st ctx|c ctx|e ctx|ctx].
  - subst r'. cbn. repeat split; discriminate.
  - destruct H as [-> ->]. cbn. repeat split.
  - destruct H as [ctx' ->]. cbn. repeat split; discriminate.
  - destruct H as [ctx' ->]. cbn. repeat split; discriminate.
Qed.

Lemma main_scoping_strict toks l r :
  outcome (strict_next scope_symb) (MkStrict toks tctx_default) l r ->
  outcome (strict_next scope_atom) (MkStrict toks tctx_default) (map scope_command l) r.
Proof.
  intros H. remember (MkStrict toks tctx_default) as p eqn:Ep. revert toks Ep.
  induction H as [p H|p e H|p i p1 l r E H IH]; intros toks ->;
    pose proof (strict_next_scope toks) as Hs.
  - destruct (strict_next scope_symb _) as [r1 p1]. cbn in H. subst r1.
    destruct (strict_next scope_atom (MkStrict toks tctx_default)) as [r2 p2] eqn:E2. destruct Hs as (-> & _).
    apply outcome_end. rewrite E2. reflexivity.
  - destruct (strict_next scope_symb _) as [r1 p1]. cbn in H. subst r1.
    destruct (strict_next scope_atom (MkStrict toks tctx_default)) as [r2 p2] eqn:E2. destruct Hs as (-> & _).
    apply outcome_err. rewrite E2. reflexivity.
  - rewrite E in Hs. destruct (strict_next scope_atom (MkStrict toks tctx_default)) as [r2 p2] eqn:E2.
    destruct Hs as (-> & Ht & Hc). destruct (Hc i eq_refl) as [Hc1 Hc2].
    destruct p1 as [t1 c1], p2 as [t2 c2]. cbn in *. subst.
    eapply outcome_ok; [exact E2|]. apply IH. reflexivity.
Qed.

(** ** Line by line *)
Lemma lrun_scope toks : forall st ctx buf open, pinv st ctx ->
  let '(r, ctx1, buf1) := lrun symb scope_symb st ctx buf open toks in
  let '(r', ctx1', buf1') := lrun atom scope_atom (sc_p st ctx) (sc_ctx ctx) (map scope_command buf) open toks in
  match r with
  | Ok (st1, o) => pinv st1 ctx1 /\ r' = Ok (sc_p st1 ctx1, o) /\ ctx1' = sc_ctx ctx1 /\ buf1' = map scope_command buf1
  | Err e => r' = Err e
  | Panic => r' = Panic
  | Fuel => r' = Fuel
  end.
Proof.
  induction toks as [|tok toks IH]; intros st ctx buf open H.
  - cbn. auto.
  - destruct (is_comment tok) eqn:Ec.
    + destruct tok as [ | | | | | | | | | | | | | | |s1|o1|]; try discriminate; cbn [lrun]. apply IH. exact H.
    + rewrite !lrun_cons by exact Ec. pose proof (sstep_scope st ctx tok H) as Hs.
      destruct (sstep symb scope_symb st ctx tok) as [st1 ctx1|c1 ctx1|e ctx1|ctx1]; cbn [sc_out] in Hs.
      * destruct Hs as [-> H1]. cbn [l_then]. apply IH. exact H1.
      * destruct Hs as [-> ->]. cbn [l_then]. apply (IH pstate_default tctx_default (c1 :: buf) 0 pinv_default).
      * destruct Hs as [ctx' ->]. cbn. reflexivity.
      * destruct Hs as [ctx' ->]. cbn. reflexivity.
Qed.

(** corresponding states of the lazy parsers *)
Definition sc_lazy (p : lazy symb) (p' : lazy atom) : Prop :=
  ok_pstate symb (lz_state p) /\ pinv (lz_state p) (lz_ctx p) /\
  p' = MkLazy (lz_lines p) (lz_open p) (sc_p (lz_state p) (lz_ctx p)) (sc_ctx (lz_ctx p)) (map scope_command (lz_buf p)).

Lemma ok_scope st ctx : ok_pstate symb st -> ok_pstate atom (sc_p st ctx).
Proof.
  intros [H1 H2]. split.
  - unfold sc_p, not_command in *. cbn. destruct (ps_cmd st); auto.
  - unfold sc_p. cbn. rewrite expects_scope. intros H. rewrite (H2 H). reflexivity.
Qed.

Definition sc_next (r : item symb * lazy symb) (r' : item atom * lazy atom) : Prop :=
  let '(r, p) := r in
  let '(r', p') := r' in
  r' = sc_item r /\ forall c, r = Ok (Some c) -> sc_lazy p p'.

Lemma lazy_lines_scope junk lines : forall open st ctx, ok_pstate symb st -> pinv st ctx ->
  sc_next (lazy_lines scope_symb junk lines open st ctx)
          (lazy_lines scope_atom junk lines open (sc_p st ctx) (sc_ctx ctx)).
Proof.
  induction lines as [|line lines IH]; intros open st ctx Hok H; cbn [lazy_lines].
  - split; [|intros c; destruct (ps_cmd st), open; discriminate]. unfold sc_p. cbn [ps_cmd].
    destruct (ps_cmd st), open; reflexivity.
  - destruct (comment open line) as [o l]. destruct (0 <? o); [apply IH; assumption|].
    rewrite !feed_line_run by (try apply ok_scope; exact Hok).
    pose proof (lrun_scope (lex junk l) st ctx [] 0 H) as HL.
    pose proof (lrun_ok symb scope_symb (lex junk l) st ctx [] 0) as HO.
    destruct (lrun symb scope_symb st ctx [] 0 (lex junk l)) as [[r ctx1] buf1].
    change (map scope_command []) with (@nil (pcommand tma)) in HL.
    destruct (lrun atom scope_atom (sc_p st ctx) (sc_ctx ctx) [] 0 (lex junk l)) as [[r' ctx1'] buf1'].
    destruct r as [[st1 o1]| | |].
    + destruct HL as (H1 & -> & -> & ->).
      pose proof (HO _ _ _ _ Hok eq_refl) as Hok1.
      rewrite <- map_rev. destruct (rev buf1) as [|c buf]; cbn [map]; [apply IH; assumption|].
      split; [reflexivity|]. intros c' _. split; [exact Hok1|]. split; [exact H1|reflexivity].
    + subst r'. split; [reflexivity|discriminate].
    + subst r'. split; [reflexivity|discriminate].
    + subst r'. split; [reflexivity|discriminate].
Qed.

Lemma lazy_next_scope junk p p' : sc_lazy p p' ->
  sc_next (lazy_next scope_symb junk p) (lazy_next scope_atom junk p').
Proof.
  intros (H1 & H2 & ->). unfold lazy_next. cbn [lz_buf lz_lines lz_open lz_state lz_ctx].
  destruct (lz_buf p) as [|c buf]; cbn [map].
  - apply lazy_lines_scope; assumption.
  - split; [reflexivity|]. intros c' _. split; [exact H1|]. split; [exact H2|reflexivity].
Qed.

Lemma main_scoping_lazy_aux junk p l r :
  outcome (lazy_next scope_symb junk) p l r -> forall p', sc_lazy p p' ->
  outcome (lazy_next scope_atom junk) p' (map scope_command l) r.
Proof.
  intros H. induction H as [p H|p e H|p i p1 l r E H IH]; intros p' Hp;
    pose proof (lazy_next_scope junk p p' Hp) as Hs; unfold sc_next in Hs.
  - destruct (lazy_next scope_symb junk p) as [r1 p1]. cbn in H. subst r1.
    destruct (lazy_next scope_atom junk p') as [r2 p2] eqn:E2. destruct Hs as (-> & _).
    apply outcome_end. rewrite E2. reflexivity.
  - destruct (lazy_next scope_symb junk p) as [r1 p1]. cbn in H. subst r1.
    destruct (lazy_next scope_atom junk p') as [r2 p2] eqn:E2. destruct Hs as (-> & _).
    apply outcome_err. rewrite E2. reflexivity.
  - rewrite E in Hs. destruct (lazy_next scope_atom junk p') as [r2 p2] eqn:E2.
    destruct Hs as (-> & Hc). cbn [map].
    eapply outcome_ok; [exact E2|]. apply IH. apply (Hc i eq_refl).
Qed.

Lemma main_scoping_lazy junk lines l r :
  outcome (lazy_next scope_symb junk) (lazy_new lines) l r ->
  outcome (lazy_next scope_atom junk) (lazy_new lines) (map scope_command l) r.
Proof.
  intros H. apply (main_scoping_lazy_aux junk _ l r H). split; [apply ok_default|]. split; [exact pinv_default|reflexivity].
Qed.

(** every run of the strict parser has an outcome, and only one *)
Lemma outcome_det {S I E} (next : S -> res E (option I) * S) s l r :
  outcome next s l r -> forall l' r', outcome next s l' r' -> l' = l /\ r' = r.
Proof.
  intros H. induction H as [s H|s e H|s i s1 l r H H1 IH]; intros l' r' H'.
  - inversion H' as [s' H2|s' e' H2|s' i' s1' l1 r1 H2 H3]; subst; [auto|congruence|]. rewrite H2 in H. discriminate.
  - inversion H' as [s' H2|s' e' H2|s' i' s1' l1 r1 H2 H3]; subst; [congruence|split; congruence|]. rewrite H2 in H. discriminate.
  - inversion H' as [s' H2|s' e' H2|s' i' s1' l1 r1 H2 H3]; subst.
    + rewrite H in H2. discriminate.
    + rewrite H in H2. discriminate.
    + rewrite H in H2. injection H2 as <- <-. destruct (IH _ _ H3) as [-> ->]. auto.
Qed.
