(** * Lemmas for C80: names of symbols and modules *)

From Verif Require Import Base LibMono ModelTerm ModelGctx ModelCommand ModelSubst ModelReduce ModelInfer ModelSyntax ModelSymbols ModelShare ModelLex ModelParse ModelMake ModelProcess ModelMain
  SpecTerm SpecConv SpecQuery SpecSyntax SpecSymbols SpecShare SpecProcess SpecDecide SpecMake SpecParse SpecProgram SpecWhole SpecAlpha SpecRename
  Erase MainSymbols MainKernel MainGctx MainProcess MainRun MainVerify MainDecide MainProgram MainWhole MainAlpha MainAlphaSyn MainAlphaProg.

Section Ren.
  Variables mu rho : str -> str.
  Hypothesis HR : renaming mu rho.
  Let Hmu : forall x y, mu x = mu y -> x = y := proj1 HR.
  Let Hrho : forall x y, rho x = rho y -> x = y := proj1 (proj2 HR).
  Let Htype : rho ($"Type") = $"Type" := proj1 (proj2 (proj2 HR)).
  Let Hjoker : rho ($"_") = $"_" := proj2 (proj2 (proj2 HR)).

  Lemma eqb_inj (f : str -> str) : (forall x y, f x = f y -> x = y) -> forall x y, str_eqb (f x) (f y) = str_eqb x y.
  Proof.
    intros Hf x y. destruct (str_eqb x y) eqn:E.
    - apply str_eqb_eq in E as ->. apply str_eqb_refl.
    - apply str_eqb_neq in E. apply str_eqb_neq. auto.
  Qed.

  (** ** Symbol tables *)
  Fixpoint rn_mod (m : module) : module :=
    match m with Module d c => Module (map (fun p => (rho (fst p), snd p)) d) (map (fun p => (mu (fst p), rn_mod (snd p))) c) end.
  Definition rn_syms (s : symbols) : symbols := Symbols (rn_mod (sy_root s)) (map mu (sy_cur s)).
  Lemma mget_rn {A B} (f : str -> str) (g : A -> B) (m : strmap A) k : (forall x y, f x = f y -> x = y) ->
    mget (map (fun p => (f (fst p), g (snd p))) m) (f k) = option_map g (mget m k).
  Proof. intros Hf. induction m as [|[k' a] m IH]; cbn; [reflexivity|]. rewrite (eqb_inj f Hf). destruct (str_eqb k k'); [reflexivity|exact IH]. Qed.
  Lemma data_rn m x : mget (m_data (rn_mod m)) (rho x) = mget (m_data m) x.
  Proof. destruct m as [d c]. cbn [rn_mod m_data]. rewrite (mget_rn rho (fun x => x) d x Hrho). destruct (mget d x); reflexivity. Qed.
  Lemma find_rn path : forall m, m_find (rn_mod m) (map mu path) = option_map rn_mod (m_find m path).
  Proof.
    induction path as [|p path IH]; intros [d c]; [reflexivity|]. cbn [map m_find rn_mod m_children]. rewrite (mget_rn mu rn_mod c p Hmu).
    destruct (mget c p) as [m'|]; cbn [option_map]; [apply IH|reflexivity].
  Qed.
  Lemma update_rn f f' : (forall m, f' (rn_mod m) = rn_mod (f m)) -> forall path m, m_update (rn_mod m) (map mu path) f' = rn_mod (m_update m path f).
  Proof.
    intros Hf. induction path as [|p path IH]; intros [d c]; [apply Hf|]. cbn [map m_update rn_mod m_children m_data minsert]. rewrite (mget_rn mu rn_mod c p Hmu).
    unfold minsert. cbn [rn_mod map fst snd]. f_equal. f_equal. f_equal. rewrite <- IH. destruct (mget c p); reflexivity.
  Qed.
  Lemma removelast_map {A B} (f : A -> B) l : removelast (map f l) = map f (removelast l).
  Proof. induction l as [|a [|b l] IH]; [reflexivity|reflexivity|]. cbn [map removelast] in *. f_equal. exact IH. Qed.
  Lemma close_rn n : forall s, close_all n (rn_syms s) = rn_syms (close_all n s).
  Proof.
    assert (C : forall s, ctx_close (rn_syms s) = (rn_syms (fst (ctx_close s)), snd (ctx_close s))).
    { intros [root [|p cur]]; [reflexivity|]. unfold ctx_close, rn_syms. cbn [sy_cur sy_root fst snd]. rewrite <- removelast_map. reflexivity. }
    induction n as [|n IH]; intros s; [reflexivity|]. cbn [close_all]. rewrite C. destruct (ctx_close s) as [s' []]; cbn [fst snd]; [apply IH|reflexivity].
  Qed.
  Lemma open_rn s p : ctx_open (rn_syms s) (mu p) = rn_syms (ctx_open s p).
  Proof.
    destruct s as [root cur]. unfold ctx_open, rn_syms. cbn [sy_cur sy_root]. change [mu p] with (map mu [p]). rewrite <- map_app, (update_rn (fun m => m) (fun m => m)); reflexivity.
  Qed.
  Lemma set_path_rn s path : set_path (rn_syms s) (map mu path) = rn_syms (set_path s path).
  Proof.
    unfold set_path. cbn [rn_syms sy_cur]. rewrite map_length. change (Symbols (rn_mod (sy_root s)) (map mu (sy_cur s))) with (rn_syms s). rewrite close_rn.
    generalize (close_all (S (length (sy_cur s))) s). induction path as [|p path IH]; intros s'; [reflexivity|]. cbn [map fold_left]. rewrite open_rn. apply IH.
  Qed.
  Lemma insert_rn s x c : symbols_insert (rn_syms s) (rho x) c = (rn_syms (fst (symbols_insert s x c)), snd (symbols_insert s x c)).
  Proof.
    destruct s as [root cur]. unfold symbols_insert, rn_syms. cbn [sy_root sy_cur fst snd]. f_equal.
    - f_equal. apply update_rn. intros [d ch]. reflexivity.
    - rewrite find_rn. destruct (m_find root cur) as [m|]; cbn [option_map]; [rewrite data_rn|]; reflexivity.
  Qed.
  Lemma ancestors_rn cur : ancestors (map mu cur) = map (map mu) (ancestors cur).
  Proof. induction cur as [|p cur IH]; [reflexivity|]. cbn [map ancestors]. rewrite IH, map_app, !map_map. reflexivity. Qed.
  Lemma ctx_find_rn s path : ctx_find (rn_syms s) (map mu path) = map rn_mod (ctx_find s path).
  Proof.
    destruct s as [root cur]. unfold ctx_find, rn_syms. cbn [sy_root sy_cur]. rewrite ancestors_rn. induction (ancestors cur) as [|a l IH]; [reflexivity|].
    cbn [map flat_map]. rewrite map_app, IH. f_equal. rewrite <- map_app, find_rn. destruct (m_find root (a ++ path)); reflexivity.
  Qed.
  Lemma get_rn s path x : symbols_get (rn_syms s) (map mu path) (rho x) = symbols_get s path x.
  Proof.
    unfold symbols_get. rewrite ctx_find_rn. induction (ctx_find s path) as [|m l IH]; [reflexivity|]. cbn [map first_some]. rewrite data_rn, IH. reflexivity.
  Qed.

  (** ** Scoping *)
  Definition ra (a : atom) : atom := match a with AConst s => AConst (rn_symb mu rho s) | _ => a end.
  Fixpoint rc (t : pterm atom) : pterm atom :=
    let '(PTm h args) := t in
    PTm (match h with
         | HAtom a => HAtom (ra a)
         | HAbst x ty t => HAbst x (option_map rc ty) (rc t)
         | HProd x ty t => HProd x (rc ty) (rc t)
         end) (map rc args).
  Definition rc_args (args : list (str * pterm atom)) := map (fun x => (fst x, rc (snd x))) args.
  Definition rc_vars (vars : list (str * option (pterm atom))) := map (fun x => (fst x, option_map rc (snd x))) vars.
  Definition rc_rule (r : prule_ (pterm atom)) : prule_ (pterm atom) := MkPRule (rc_vars (pr_ctx r)) (rc (pr_lhs r)) (rc (pr_rhs r)).
  Definition rc_intro (it : intro_ (pterm atom) (pterm atom)) : intro_ (pterm atom) (pterm atom) :=
    match it with
    | IDefinition ty tm => IDefinition (option_map rc ty) (option_map rc tm)
    | ITheorem ty tm => ITheorem (rc ty) (rc tm)
    | IDeclaration inj ty => IDeclaration inj (rc ty)
    end.
  Definition rc_cmd (c : scoped) : scoped :=
    match c with
    | PIntro x args it => PIntro (rho x) (rc_args args) (rc_intro it)
    | PRules rules => PRules (map rc_rule rules)
    end.
  Notation re := (map (option_map rho)).
  Lemma index_rn x e : index_of (rho x) (re e) = index_of x e.
  Proof. induction e as [|[y|] e IH]; cbn [map option_map index_of]; [reflexivity| |]; rewrite ?(eqb_inj rho Hrho), IH; reflexivity. Qed.
  Lemma scope_of_rn e s : scope_of (re e) (rn_symb mu rho s) = ra (scope_of e s).
  Proof.
    destruct s as [[|p path] x]; [|reflexivity]. unfold scope_of, rn_symb. cbn [sy_path sy_name map]. rewrite index_rn. destruct (index_of x e) as [i|]; [reflexivity|].
    rewrite <- Htype at 1. rewrite (eqb_inj rho Hrho). destruct (str_eqb x ($"Type")); reflexivity.
  Qed.
  Lemma scope_rn t : forall e, pa (scope_term (re e) (rn_term mu rho t)) = pa (rc (scope_term e t)).
  Proof.
    induction t as [h args Hh Ha] using pterm_ind'. intros e. cbn [rn_term scope_term rc pa]. f_equal.
    - destruct h as [s|x [A|] t|x A t]; cbn [apph_all option_map] in *.
      + rewrite scope_of_rn. reflexivity.
      + destruct Hh as [HA Ht]. rewrite HA. f_equal. exact (Ht (Some x :: e)).
      + destruct Hh as [_ Ht]. f_equal. exact (Ht (Some x :: e)).
      + destruct Hh as [HA Ht]. rewrite HA. f_equal. exact (Ht (x :: e)).
    - rewrite !map_map. clear Hh. induction Ha as [|a args H _ IH]; [reflexivity|]. cbn [map]. rewrite H, IH. reflexivity.
  Qed.
  Lemma scope_rn_opt e t : option_map pa (option_map (scope_term (re e)) (option_map (rn_term mu rho) t)) = option_map pa (option_map rc (option_map (scope_term e) t)).
  Proof. destruct t as [t|]; cbn; [|reflexivity]. rewrite scope_rn. reflexivity. Qed.
  Lemma scope_rn_args args : forall e, pa_args (fst (scope_args (re e) (map (fun a => (rho (fst a), rn_term mu rho (snd a))) args))) = pa_args (rc_args (fst (scope_args e args))) /\
    snd (scope_args (re e) (map (fun a => (rho (fst a), rn_term mu rho (snd a))) args)) = re (snd (scope_args e args)).
  Proof.
    induction args as [|[x A] args IH]; intros e; [split; reflexivity|]. cbn [map scope_args fst snd]. specialize (IH (Some x :: e)). cbn [map option_map] in IH.
    destruct (scope_args (Some (rho x) :: re e) _) as [l e1], (scope_args (Some x :: e) args) as [l' e2]. cbn [fst snd] in *. destruct IH as [IH1 IH2]. split; [|exact IH2].
    unfold pa_args, rc_args in *. cbn [map fst snd]. rewrite IH1, scope_rn. reflexivity.
  Qed.
  Lemma scope_rn_vars vars : forall e, pa_vars (fst (scope_vars (re e) (map (fun a => (rho (fst a), option_map (rn_term mu rho) (snd a))) vars))) = pa_vars (rc_vars (fst (scope_vars e vars))) /\
    snd (scope_vars (re e) (map (fun a => (rho (fst a), option_map (rn_term mu rho) (snd a))) vars)) = re (snd (scope_vars e vars)).
  Proof.
    induction vars as [|[x A] vars IH]; intros e; [split; reflexivity|]. cbn [map scope_vars fst snd]. specialize (IH (Some x :: e)). cbn [map option_map] in IH.
    destruct (scope_vars (Some (rho x) :: re e) _) as [l e1], (scope_vars (Some x :: e) vars) as [l' e2]. cbn [fst snd] in *. destruct IH as [IH1 IH2]. split; [|exact IH2].
    unfold pa_vars, rc_vars in *. cbn [map fst snd]. rewrite IH1, scope_rn_opt. reflexivity.
  Qed.
  Lemma scope_rn_rule r : pa_rule (scope_rule (rn_rule mu rho r)) = pa_rule (rc_rule (scope_rule r)).
  Proof.
    destruct r as [vars lhs rhs]. unfold scope_rule, rn_rule. cbn [pr_ctx pr_lhs pr_rhs]. destruct (scope_rn_vars vars []) as [H1 H2]. cbn [map] in H1, H2.
    destruct (scope_vars [] (map _ vars)) as [l e1], (scope_vars [] vars) as [l' e2]. cbn [fst snd] in *. subst e1. unfold pa_rule, rc_rule. cbn [pr_ctx pr_lhs pr_rhs].
    rewrite H1, scope_rn. f_equal. rewrite <- scope_rn, map_app. cbn [map option_map]. rewrite Hjoker. reflexivity.
  Qed.
  Lemma scope_rn_command c : pa_cmd (scope_command (rn_command mu rho c)) = pa_cmd (rc_cmd (scope_command c)).
  Proof.
    destruct c as [x args it|rules]; cbn [rn_command scope_command].
    - destruct (scope_rn_args args []) as [H1 H2]. cbn [map] in H1, H2. destruct (scope_args [] (map _ args)) as [l e1], (scope_args [] args) as [l' e2]. cbn [fst snd] in *. subst e1.
      cbn [rc_cmd pa_cmd]. rewrite H1. f_equal. destruct it as [A t|A t|inj A]; cbn [rn_intro scope_intro rc_intro pa_intro]; rewrite ?scope_rn_opt, ?scope_rn; reflexivity.
    - cbn [rc_cmd pa_cmd]. f_equal. rewrite !map_map. apply map_ext. apply scope_rn_rule.
  Qed.

  (** ** Sharing *)
  Inductive ren_err : share_error -> share_error -> Prop :=
  | re_undeclared s : ren_err (UndeclaredSymbol (symb_show s)) (UndeclaredSymbol (symb_show (rn_symb mu rho s)))
  | re_prepattern : ren_err NoPrepattern NoPrepattern
  | re_top : ren_err NoTopPattern NoTopPattern.
  Definition rr {A} (r r' : sres A) : Prop :=
    match r, r' with
    | Ok a, Ok a' => a = a'
    | Err e, Err e' => ren_err e e'
    | Panic, Panic | Fuel, Fuel => True
    | _, _ => False
    end.
  Lemma rr_bind {A B} (r r' : sres A) (f f' : A -> sres B) : rr r r' -> (forall a, rr (f a) (f' a)) -> rr (res_bind r f) (res_bind r' f').
  Proof. intros H Hf. destruct r, r'; cbn in *; try contradiction; auto. subst. apply Hf. Qed.
  Lemma rr_map {A B} (r r' : sres A) (f : A -> B) : rr r r' -> rr (res_map f r) (res_map f r').
  Proof. destruct r, r'; cbn; try contradiction; auto. congruence. Qed.
  Lemma rr_self {A} (r : sres A) : (forall s, r <> Err (UndeclaredSymbol s)) -> rr r r.
  Proof. destruct r as [a|[s| |]| |]; cbn; intros H; auto; try constructor. destruct (H s eq_refl). Qed.
  Lemma rr_map_res {A B C} (f : A -> sres C) (f' : B -> sres C) (g : A -> B) l : Forall (fun a => rr (f a) (f' (g a))) l -> rr (map_res f l) (map_res f' (map g l)).
  Proof. induction 1 as [|a l H _ IH]; [reflexivity|]. cbn [map map_res]. apply rr_bind; [exact H|]. intros b. apply rr_bind; [exact IH|]. reflexivity. Qed.
  Section Sh.
    Variable syms : symbols.
    Lemma symb_rn s : rr (share_symb syms s) (share_symb (rn_syms syms) (rn_symb mu rho s)).
    Proof. unfold share_symb. cbn [rn_symb sy_path sy_name]. rewrite get_rn. destruct (symbols_get syms (sy_path s) (sy_name s)); [reflexivity|]. apply (re_undeclared s). Qed.
    Lemma share_rn t : rr (share_term syms t) (share_term (rn_syms syms) (rc t)).
    Proof.
      induction t as [h args Hh Ha] using pterm_ind'. cbn [rc share_term]. apply rr_bind.
      - destruct h as [[s|v|]|x [A|] t|x A t]; cbn [apph_all share_apph option_map ra opt_res] in *.
        + apply rr_map. apply symb_rn.
        + reflexivity.
        + reflexivity.
        + destruct Hh as [HA Ht]. apply rr_bind; [apply rr_map; exact HA|]. intros A'. apply rr_bind; [exact Ht|reflexivity].
        + destruct Hh as [_ Ht]. apply rr_bind; [reflexivity|]. intros A'. apply rr_bind; [exact Ht|reflexivity].
        + destruct Hh as [HA Ht]. apply rr_bind; [exact HA|]. intros A'. apply rr_bind; [exact Ht|reflexivity].
      - intros head. destruct args as [|a args]; [reflexivity|]. cbn [map]. change (rc a :: map rc args) with (map rc (a :: args)). apply rr_bind; [|reflexivity]. apply rr_map_res. exact Ha.
    Qed.
    Lemma share_rn_opt t : rr (opt_res (share_term syms) t) (opt_res (share_term (rn_syms syms)) (option_map rc t)).
    Proof. destruct t as [t|]; cbn; [|reflexivity]. apply rr_map. apply share_rn. Qed.
    Lemma pattern_err t s : pattern_of_lterm t <> Err (UndeclaredSymbol s).
    Proof.
      revert s. induction t as [|c|n|c IH] using lterm_ind'; intros s; cbn; try discriminate. destruct c as [h args|id a b|id [a|] b]; cbn [comb_all pattern_of_lterm] in *; try discriminate.
      destruct IH as [Hh Ha]. specialize (Hh s). destruct (pattern_of_lterm h) as [[c ps| |]|e| |]; cbn [res_bind]; try discriminate; try congruence.
      assert (X : map_res pattern_of_lterm args <> Err (UndeclaredSymbol s)).
      { clear Hh. induction Ha as [|a args H _ IH]; [discriminate|]. cbn [map_res]. specialize (H s). destruct (pattern_of_lterm a); cbn [res_bind]; try discriminate; try congruence.
        destruct (map_res pattern_of_lterm args); cbn [res_bind]; try discriminate; try congruence. }
      destruct (map_res pattern_of_lterm args); cbn [res_bind]; try discriminate; congruence.
    Qed.
    Lemma share_rule_rn r : rr (share_rule syms r) (share_rule (rn_syms syms) (rc_rule r)).
    Proof.
      destruct r as [ctx lhs rhs]. unfold share_rule, rc_rule. cbn [pr_ctx pr_lhs pr_rhs]. unfold rc_vars at 1 2. rewrite map_length. apply rr_bind.
      { apply rr_map_res. apply Forall_forall. intros [x o] _. cbn [fst snd]. apply rr_map. apply share_rn_opt. }
      intros ctx'. apply rr_bind; [apply share_rn|]. intros lhs'. apply rr_bind; [apply rr_self; apply pattern_err|]. intros p.
      apply rr_bind; [apply rr_self; intros s; destruct (joke (length ctx) p); discriminate|]. intros q. apply rr_bind; [apply share_rn|]. reflexivity.
    Qed.
    Lemma share_intro_rn it : rr (share_intro syms it) (share_intro (rn_syms syms) (rc_intro it)).
    Proof.
      destruct it as [A t|A t|inj A]; cbn [rc_intro share_intro].
      - apply rr_bind; [apply share_rn_opt|]. intros A'. apply rr_bind; [apply share_rn_opt|reflexivity].
      - apply rr_bind; [apply share_rn|]. intros A'. apply rr_bind; [apply share_rn|reflexivity].
      - apply rr_bind; [apply share_rn|reflexivity].
    Qed.
    Lemma share_args_rn rargs : forall it, rr (share_args syms it rargs) (share_args (rn_syms syms) it (rc_args rargs)).
    Proof.
      induction rargs as [|[x A] rargs IH]; intros it; [reflexivity|]. cbn [rc_args map share_args fst snd]. apply rr_bind; [apply share_rn|]. intros A'. apply IH.
    Qed.
    Definition ren_name (c : command_ str intro rule) : command_ str intro rule := match c with CIntro x it => CIntro (rho x) it | CRules rs => CRules rs end.
    Lemma share_command_rn c : rr (res_map ren_name (share_command syms c)) (share_command (rn_syms syms) (rc_cmd c)).
    Proof.
      destruct c as [x args it|rs]; cbn [rc_cmd share_command].
      - pose proof (share_intro_rn it) as H. destruct (share_intro syms it) as [it'|e| |], (share_intro (rn_syms syms) (rc_intro it)) as [it2|e2| |]; cbn in H |- *; try contradiction; auto.
        subst it2. pose proof (share_args_rn (rev args) it') as H. unfold rc_args in *. rewrite map_rev in H.
        destruct (share_args syms it' (rev args)), (share_args (rn_syms syms) it' _); cbn in H |- *; try contradiction; auto. congruence.
      - assert (H : rr (map_res (share_rule syms) rs) (map_res (share_rule (rn_syms syms)) (map rc_rule rs))).
        { apply rr_map_res. apply Forall_forall. intros r _. apply share_rule_rn. }
        destruct (map_res (share_rule syms) rs), (map_res (share_rule (rn_syms syms)) (map rc_rule rs)); cbn in H |- *; try contradiction; auto. congruence.
    Qed.
  End Sh.

  (** ** Elaboration *)
  Definition rn_op (o : symop) : symop := match o with SetPath p => SetPath (map mu p) | Insert x c => Insert (rho x) c end.
  Lemma hist_rn ops : symhist (map rn_op ops) = rn_syms (symhist ops).
  Proof.
    unfold symhist. change symbols_new with (rn_syms symbols_new) at 1. generalize symbols_new. induction ops as [|op ops IH]; intros s; [reflexivity|]. cbn [map fold_left].
    rewrite <- IH. f_equal. destruct op as [path|x c]; cbn [rn_op symstep]; [apply set_path_rn|]. rewrite insert_rn. reflexivity.
  Qed.
  Lemma resolves_rn ops path x c : resolves (map rn_op ops) (map mu path) (rho x) c <-> resolves ops path x c.
  Proof. rewrite <- (proj1 (main_get (map rn_op ops) (map mu path) (rho x)) c), <- (proj1 (main_get ops path x) c), hist_rn, get_rn. reflexivity. Qed.
  Lemma unbound_rn ops x : unbound (map rn_op ops) (cur_module (map rn_op ops)) (rho x) <-> unbound ops (cur_module ops) x.
  Proof.
    destruct (main_insert (map rn_op ops) (rho x) 0) as (_ & H1 & _), (main_insert ops x 0) as (_ & H2 & _). cbn zeta in *. rewrite <- H1, <- H2, hist_rn, insert_rn. reflexivity.
  Qed.
  Definition table (ops : list symop) (s : symb) : option nat := symbols_get (symhist ops) (sy_path s) (sy_name s).
  Lemma table_meaning ops : meaning_in ops (table ops).
  Proof. intros s c. apply (proj1 (main_get ops (sy_path s) (sy_name s))). Qed.
  Lemma meaning_rn ops R R' : meaning_in ops R -> meaning_in (map rn_op ops) R' -> forall s, R' (rn_symb mu rho s) = R s.
  Proof.
    intros H H' s. assert (E : forall c, R' (rn_symb mu rho s) = Some c <-> R s = Some c).
    { intros c. rewrite (H s c), (H' _ c). cbn [rn_symb sy_path sy_name]. apply resolves_rn. }
    destruct (R' (rn_symb mu rho s)) as [c|]; [symmetry; apply E; reflexivity|]. destruct (R s) as [c|]; [|reflexivity]. apply E. reflexivity.
  Qed.
  Section Den.
    Variables R R' : symb -> option nat.
    Hypothesis HRR : forall s, R' (rn_symb mu rho s) = R s.
    Lemma den_rn t : forall u, denotes R t u <-> denotes R' (rc t) u.
    Proof.
      induction t as [h args Hh Ha] using pterm_ind'. intros u. cbn [rc].
      assert (Hargs : forall us, Forall2 (denotes R) args us <-> Forall2 (denotes R') (map rc args) us).
      { clear Hh. induction Ha as [|a args Ha _ IH]; intros us; cbn [map].
        - split; intros X; inversion X; subst; constructor.
        - split; intros X; inversion X; subst; constructor; try (apply Ha; assumption); apply IH; assumption. }
      set (h' := match h with HAtom a => HAtom (ra a) | HAbst x ty t => HAbst x (option_map rc ty) (rc t) | HProd x ty t => HProd x (rc ty) (rc t) end).
      assert (Hhead : forall v, den_head R h v <-> den_head R' h' v).
      { intros v. subst h'. destruct h as [[s|v'|]|x [A|] t|x A t]; cbn [apph_all option_map ra] in *.
        - split; intros X; inversion X; subst; constructor; [rewrite HRR|rewrite <- HRR]; assumption.
        - split; intros X; inversion X; subst; constructor.
        - split; intros X; inversion X; subst; constructor.
        - destruct Hh as [HA Ht]. split; intros X; inversion X; subst; constructor; try (apply HA; assumption); apply Ht; assumption.
        - destruct Hh as [_ Ht]. split; intros X; inversion X; subst; constructor; apply Ht; assumption.
        - destruct Hh as [HA Ht]. split; intros X; inversion X; subst; constructor; try (apply HA; assumption); apply Ht; assumption. }
      split; intros X; inversion X; subst; constructor; try (apply Hhead; assumption); apply Hargs; assumption.
    Qed.
    Lemma elab_opt_rn t u : elab_opt R t u <-> elab_opt R' (option_map rc t) u.
    Proof. destruct t as [t|]; cbn; split; intros X; inversion X; subst; constructor; apply den_rn; assumption. Qed.
    Lemma elab_intro_rn it v : elab_intro R it v <-> elab_intro R' (rc_intro it) v.
    Proof. destruct it as [A t|A t|inj A]; cbn; split; intros X; inversion X; subst; constructor; first [apply den_rn; assumption|apply elab_opt_rn; assumption]. Qed.
    Lemma elab_rule_rn r v : elab_rule R r v <-> elab_rule R' (rc_rule r) v.
    Proof.
      assert (Hc : forall l l', Forall2 (elab_opt R) (map snd l) l' <-> Forall2 (elab_opt R') (map snd (rc_vars l)) l').
      { induction l as [|[x o] l IH]; intros l'; cbn [map rc_vars snd].
        - split; intros X; inversion X; subst; constructor.
        - split; intros X; inversion X; subst; constructor; first [apply elab_opt_rn; assumption|apply IH; assumption]. }
      assert (Hl : forall l, length (rc_vars l) = length l) by (intros l; apply map_length).
      destruct r as [ctx lhs rhs]. unfold rc_rule. cbn [pr_ctx pr_lhs pr_rhs]. split; intros X; inversion X as [? ctx' ? lhs' c ps ? rhs' X1 X2 X3 X4]; subst.
      - apply (el_rule R') with (lhs' := lhs'); [apply Hc; exact X1|apply den_rn; exact X2|rewrite Hl; exact X3|apply den_rn; exact X4].
      - apply (el_rule R) with (lhs' := lhs'); [apply Hc; exact X1|apply den_rn; exact X2|rewrite <- Hl; exact X3|apply den_rn; exact X4].
    Qed.
  End Den.
  Lemma nest_prods_rc args : forall t, nest_prods (rc_args args) (rc t) = rc (nest_prods args t).
  Proof. induction args as [|[x A] args IH]; intros t; [reflexivity|]. cbn [rc_args map nest_prods rc fst snd]. rewrite <- IH. reflexivity. Qed.
  Lemma nest_absts_rc args : forall t, nest_absts (rc_args args) (rc t) = rc (nest_absts args t).
  Proof. induction args as [|[x A] args IH]; intros t; [reflexivity|]. cbn [rc_args map nest_absts rc fst snd option_map]. rewrite <- IH. reflexivity. Qed.
  Lemma nest_rc args it : nest (rc_args args) (rc_intro it) = rc_intro (nest args it).
  Proof. destruct it as [[A|] [t|]|A t|inj A]; cbn; rewrite ?nest_prods_rc, ?nest_absts_rc; reflexivity. Qed.
  Lemma elab_intro_ren R R' args it args' it' v : (forall s, R' (rn_symb mu rho s) = R s) -> pa_args (rc_args args) = pa_args args' -> pa_intro (rc_intro it) = pa_intro it' ->
    (elab_intro R (nest args it) v <-> elab_intro R' (nest args' it') v).
  Proof.
    intros H Ea Ei. rewrite (elab_intro_rn R R' H), <- nest_rc, (elab_intro_pa R'), nest_pa, Ea, Ei, <- nest_pa, <- (elab_intro_pa R'). reflexivity.
  Qed.
  Lemma elab_rules_ren R R' rs : (forall s, R' (rn_symb mu rho s) = R s) -> forall rs' vs, map pa_rule (map rc_rule rs) = map pa_rule rs' -> (Forall2 (elab_rule R) rs vs <-> Forall2 (elab_rule R') rs' vs).
  Proof.
    intros H. induction rs as [|r rs IH]; intros [|r' rs'] vs E; try discriminate; [split; intros X; inversion X; subst; constructor|].
    assert (E1 := f_equal (hd (pa_rule r)) E). assert (E2 := f_equal (@tl _) E). cbn [map hd tl] in E1, E2.
    assert (Hr : forall v, elab_rule R r v <-> elab_rule R' r' v) by (intros v; rewrite (elab_rule_rn R R' H), (elab_rule_pa R'), E1, <- (elab_rule_pa R'); reflexivity).
    split; intros X; inversion X; subst; constructor; try (apply Hr; assumption); apply (IH rs' _ E2); assumption.
  Qed.
  Definition ren_cmd (c c' : pcommand (pterm symb)) : Prop := pa_cmd (rc_cmd (scope_command c)) = pa_cmd (scope_command c').
  Lemma elab_command_ren ops n c c' v ops1 n1 : ren_cmd c c' -> elab_command ops n c v ops1 n1 -> elab_command (map rn_op ops) n c' v (map rn_op ops1) n1.
  Proof.
    intros E H. unfold ren_cmd in E. destruct H as [c x args it it' R H1 H2 H3 H4|c rules rules' R H1 H2 H3]; rewrite H1 in E; cbn [rc_cmd pa_cmd] in E;
      destruct (scope_command c') as [y args' itt|rs'] eqn:E'; cbn [pa_cmd] in E; try discriminate.
    - injection E as <- Ea Ei. rewrite map_app. cbn [map rn_op]. eapply el_intro; [exact E'|apply table_meaning| |apply unbound_rn; exact H4].
      apply (elab_intro_ren R _ args it args' itt it' (meaning_rn _ _ _ H2 (table_meaning _)) Ea Ei). exact H3.
    - injection E as E. eapply el_rules; [exact E'|apply table_meaning|]. apply (elab_rules_ren R _ rules (meaning_rn _ _ _ H2 (table_meaning _)) rs' rules' E). exact H3.
  Qed.
  Lemma elab_command_ren' ops n c c' v ops1' n1 : ren_cmd c c' -> elab_command (map rn_op ops) n c' v ops1' n1 -> exists ops1, ops1' = map rn_op ops1 /\ elab_command ops n c v ops1 n1.
  Proof.
    intros E H. unfold ren_cmd in E. destruct H as [c' x args it it' R H1 H2 H3 H4|c' rules rules' R H1 H2 H3]; rewrite H1 in E; cbn [rc_cmd pa_cmd] in E;
      destruct (scope_command c) as [y args' itt|rs'] eqn:E'; cbn [rc_cmd pa_cmd] in E; try discriminate.
    - injection E as <- Ea Ei. exists (ops ++ [Insert y n]). split; [rewrite map_app; reflexivity|]. eapply el_intro; [exact E'|apply table_meaning| |apply unbound_rn; exact H4].
      apply (elab_intro_ren _ R args' itt args it it' (meaning_rn _ _ _ (table_meaning _) H2) Ea Ei). exact H3.
    - injection E as E. exists ops. split; [reflexivity|]. eapply el_rules; [exact E'|apply table_meaning|]. apply (elab_rules_ren _ R rs' (meaning_rn _ _ _ (table_meaning _) H2) rules rules' E). exact H3.
  Qed.
  Lemma elab_commands_ren ops n cs vs ops1 n1 : elab_commands ops n cs vs ops1 n1 -> forall cs', Forall2 ren_cmd cs cs' -> elab_commands (map rn_op ops) n cs' vs (map rn_op ops1) n1.
  Proof.
    induction 1 as [|ops n c v ops1 n1 cs vs ops2 n2 Hc _ IH]; intros cs' H; inversion H; subst; [constructor|]. econstructor; [|apply IH; assumption].
    eapply elab_command_ren; eassumption.
  Qed.
  Lemma elab_commands_ren' ops' n cs' vs ops1' n1 : elab_commands ops' n cs' vs ops1' n1 -> forall ops cs, ops' = map rn_op ops -> Forall2 ren_cmd cs cs' ->
    exists ops1, ops1' = map rn_op ops1 /\ elab_commands ops n cs vs ops1 n1.
  Proof.
    induction 1 as [ops0 n0|ops' n c v ops1 n1 cs' vs ops2 n2 Hc _ IH]; intros ops cs -> H; inversion H; subst; [exists ops; split; [reflexivity|constructor]|].
    eapply elab_command_ren' in Hc as (opsa & -> & Hc); [|eassumption]. destruct (IH opsa _ eq_refl ltac:(eassumption)) as (opsb & E & Hb). exists opsb. split; [exact E|]. econstructor; eassumption.
  Qed.
  Definition ren_src (src src' : source) : Prop := fst src' = map mu (fst src) /\ Forall2 ren_cmd (snd src) (snd src').
  Lemma elab_sources_ren ops n srcs vs : elab_sources ops n srcs vs -> forall srcs', Forall2 ren_src srcs srcs' -> elab_sources (map rn_op ops) n srcs' vs.
  Proof.
    induction 1 as [|ops n m cs vs ops1 n1 srcs vs' Hc _ IH]; intros srcs' H; inversion H as [|? [m' cs'] ? ? [Hm Hcs] ?]; subst; [constructor|]. cbn in Hm, Hcs. subst m'.
    econstructor; [|apply IH; assumption]. eapply elab_commands_ren in Hc; [|exact Hcs]. rewrite map_app in Hc. exact Hc.
  Qed.
  Lemma elab_sources_ren' ops' n srcs' vs : elab_sources ops' n srcs' vs -> forall ops srcs, ops' = map rn_op ops -> Forall2 ren_src srcs srcs' -> elab_sources ops n srcs vs.
  Proof.
    induction 1 as [ops0 n0|ops' n m' cs' vs ops1 n1 srcs' vs' Hc _ IH]; intros ops srcs -> H; inversion H as [|[m cs] ? ? ? [Hm Hcs] ?]; subst; [constructor|]. cbn in Hm, Hcs. subst m'.
    eapply elab_commands_ren' in Hc as (opsa & -> & Hc); [|instantiate (1 := ops ++ [SetPath m]); rewrite map_app; reflexivity|exact Hcs]. econstructor; [exact Hc|]. eapply IH; [reflexivity|assumption].
  Qed.
  Lemma alpha_ren srcs srcs' : alpha_sources (rn_sources mu rho srcs) srcs' -> Forall2 ren_src srcs srcs'.
  Proof.
    revert srcs'. induction srcs as [|[m cs] srcs IH]; intros srcs' H; inversion H as [|? [m' cs'] ? ? [Hm Hcs] Hs]; subst; [constructor|]. constructor; [|apply IH; exact Hs].
    cbn [fst snd rn_source] in *. split; [cbn; congruence|]. clear H Hm Hs IH. cbn [snd]. revert cs' Hcs. induction cs as [|c cs IH]; intros cs' H; inversion H; subst; [constructor|]. constructor; [|apply IH; assumption].
    unfold ren_cmd. rewrite <- scope_rn_command. apply alpha_scope_command. assumption.
  Qed.

  (** ** Runs *)
  Definition ren_ev (ev1 ev2 : event) : Prop :=
    match ev1, ev2 with
    | EvModule p, EvModule q => q = map mu p
    | EvCommand c, EvCommand d => pa_cmd (rc_cmd c) = pa_cmd d
    | _, _ => False
    end.
  Definition ren_st (st1 st2 : pst) : Prop := ps_syms st2 = rn_syms (ps_syms st1) /\ ps_next st2 = ps_next st1 /\ geq (ps_gc st1) (ps_gc st2).
  Lemma share_ren c1 c2 st1 st2 : pa_cmd (rc_cmd c1) = pa_cmd c2 -> ps_syms st2 = rn_syms (ps_syms st1) -> ps_next st2 = ps_next st1 ->
    ps_syms (fst (share c2 st2)) = rn_syms (ps_syms (fst (share c1 st1))) /\ ps_next (fst (share c2 st2)) = ps_next (fst (share c1 st1)) /\
    ps_gc (fst (share c1 st1)) = ps_gc st1 /\ ps_gc (fst (share c2 st2)) = ps_gc st2 /\
    match snd (share c1 st1), snd (share c2 st2) with
    | Ok a, Ok b => er_cmd a = er_cmd b
    | Err e, Err e' => rn_result mu rho (PE := parse_error) (Err (PKo e)) (Err (PKo e'))
    | Panic, Panic | Fuel, Fuel => True
    | _, _ => False
    end.
  Proof.
    intros E Es En. set (st0 := PSt (rn_syms (ps_syms st1)) (ps_next st1) (ps_gc st1)).
    pose proof (share_same (rc_cmd c1) c2 st0 st2 E (eq_sym Es) (eq_sym En)) as (X1 & X2 & X3 & X4 & X5). rewrite <- X1, <- X2. clear X1 X2.
    pose proof (share_command_rn (ps_syms st1) c1) as H. subst st0. unfold share in X3, X5 |- *. cbn [ps_syms ps_next ps_gc] in *.
    fold (share c2 st2) in X4, X5 |- *.
    destruct (share_command (ps_syms st1) c1) as [[x it|rs]|e| |], (share_command (rn_syms (ps_syms st1)) (rc_cmd c1)) as [b|e'| |]; cbn [res_map rr ren_name] in H; try contradiction; subst.
    - rewrite insert_rn in *. destruct (symbols_insert (ps_syms st1) x (ps_next st1)) as [syms r]. cbn [fst snd ps_syms ps_next ps_gc] in *. do 3 (split; [reflexivity|]). split; [exact X4|].
      destruct r as [id|e| |]; cbn [res_map res_err] in *; destruct (snd (share c2 st2)); try contradiction; auto. subst. apply rnr_same. discriminate.
    - cbn [fst snd ps_syms ps_next ps_gc] in *. do 3 (split; [reflexivity|]). split; [exact X4|exact X5].
    - cbn [fst snd ps_syms ps_next ps_gc] in *. do 3 (split; [reflexivity|]). split; [exact X4|]. destruct (snd (share c2 st2)); try contradiction. subst.
      destruct H; [apply rnr_undeclared|apply rnr_same; discriminate|apply rnr_same; discriminate].
    - cbn [fst snd ps_syms ps_next ps_gc] in *. do 3 (split; [reflexivity|]). split; [exact X4|exact X5].
    - cbn [fst snd ps_syms ps_next ps_gc] in *. do 3 (split; [reflexivity|]). split; [exact X4|exact X5].
  Qed.
  Section Seq.
    Variables (O1 O2 : query -> nat -> bool) (n1 n2 : nat) (o : opts).
    Notation seq O n := (infer_checks_seq parse_error (real_kernel O n) o _ (consume_item parse_error o)).
    Lemma infer_not_share K cmd gc s : snd (infer_check K o cmd gc) <> Err (KoShare (UndeclaredSymbol s)).
    Proof.
      unfold infer_check, infer_with. destruct cmd as [c it|rules].
      - destruct (k_intro K gc it) as [[ty chk]|e| |]; cbn [ko_typing res_err snd]; try discriminate.
        destruct chk as [chk|].
        + destruct (omits o StCheck); [|destruct (k_check K gc chk) as [[]|e| |]; cbn [ko_typing res_err snd]; try discriminate];
            destruct (gctx_insert gc c ty (rewritable it)) as [g [e|]]; cbn; discriminate.
        + destruct (gctx_insert gc c ty (rewritable it)) as [g [e|]]; cbn; discriminate.
      - assert (X : forall u, snd (rewrites K unit (fun chk gc s => (s, if omits o StCheck then Ok tt else ko_typing (k_check K gc chk))) rules gc u) <> Err (KoShare (UndeclaredSymbol s))).
        { induction rules as [|r rules IH]; intros u; cbn [rewrites]; [discriminate|]. destruct (rule_try r) as [r'|e| |]; try apply IH. destruct (k_rewrite K gc r') as [chk|e| |]; cbn [ko_typing res_err snd]; try discriminate.
          destruct (omits o StCheck); [apply IH|]. destruct (k_check K gc chk) as [[]|e| |]; cbn [ko_typing res_err snd]; try discriminate. apply IH. }
        specialize (X tt). destruct (rewrites _ _ _ rules gc tt) as [u [[]|e| |]]; cbn [snd] in *; try discriminate; [|congruence].
        assert (Y : forall g, snd (add_rules rules g) <> Err (KoShare (UndeclaredSymbol s))).
        { clear. induction rules as [|r rules IH]; intros g; cbn [add_rules]; [discriminate|]. destruct (add_rule g r) as [g' [e|]]; cbn; [discriminate|apply IH]. }
        specialize (Y gc). destruct (add_rules rules gc). exact Y.
    Qed.
    Lemma seq_ren evs1 evs2 : Forall2 ren_ev evs1 evs2 -> forall st1 st2, ren_st st1 st2 ->
      snd (seq O1 n1 (map Ok evs1) st1) = Fuel \/ snd (seq O2 n2 (map Ok evs2) st2) = Fuel \/ rn_result mu rho (snd (seq O1 n1 (map Ok evs1) st1)) (snd (seq O2 n2 (map Ok evs2) st2)).
    Proof.
      induction 1 as [|ev1 ev2 evs1 evs2 Hev _ IH]; intros st1 st2 (S1 & S2 & G); cbn [map infer_checks_seq]; [right; right; apply rnr_same; discriminate|].
      cbn [consume_item]. destruct (omits o StShare).
      { cbn [filter_infer]. apply IH. split; [exact S1|]. split; assumption. }
      destruct ev1 as [p|c1], ev2 as [q|c2]; cbn [ren_ev] in Hev; try contradiction; cbn [from_event].
      { subst q. cbn [option_map filter_infer]. apply IH. split; [cbn; rewrite S1; apply set_path_rn|]. split; [exact S2|exact G]. }
      pose proof (share_ren c1 c2 st1 st2 Hev S1 S2) as (X1 & X2 & X3 & X4 & X5).
      pose proof (fun st' cmd' => share_proper c1 st1 st' cmd') as P1. pose proof (fun st' cmd' => share_proper c2 st2 st' cmd') as P2.
      destruct (share c1 st1) as [st1' r1], (share c2 st2) as [st2' r2]. cbn [fst snd] in *.
      destruct r1 as [a|e| |], r2 as [b|e'| |]; try contradiction; cbn [option_map res_err filter_infer]; try (right; right; cbn; first [exact X5|apply rnr_same; discriminate]).
      destruct (omits o StInfer).
      { apply IH. split; [exact X1|]. split; [exact X2|]. rewrite X3, X4. exact G. }
      assert (G' : geq (ps_gc st1') (ps_gc st2')) by (rewrite X3, X4; exact G).
      pose proof (geq_infer_check O1 O2 n1 n2 o _ _ a b G' X5 (P1 _ _ eq_refl) (P2 _ _ eq_refl)) as St. pose proof (infer_not_share (real_kernel O1 n1) a (ps_gc st1')) as N.
      destruct (infer_check (real_kernel O1 n1) o a (ps_gc st1')) as [g1 r1], (infer_check (real_kernel O2 n2) o b (ps_gc st2')) as [g2 r2]. destruct St as [F|[F|[F1 F2]]]; cbn [fst snd] in *.
      - subst r1. left. reflexivity.
      - subst r2. right. left. reflexivity.
      - subst r2. destruct r1 as [[]|e| |]; try (right; right; cbn; apply rnr_same; intros s; try discriminate; specialize (N s); congruence). apply IH. split; [exact X1|]. split; [exact X2|]. apply F2. reflexivity.
    Qed.
  End Seq.
  Lemma ren_events srcs srcs' : Forall2 ren_src srcs srcs' -> Forall2 ren_ev (program_events srcs) (program_events srcs').
  Proof.
    induction 1 as [|[m cs] [m' cs'] srcs srcs' [Hm H] _ IH]; [constructor|]. cbn in Hm, H. subst m'. unfold program_events. cbn [flat_map].
    apply Forall2_app; [|exact IH]. constructor; [reflexivity|]. clear IH. induction H as [|c c' cs cs' Hc _ IH]; constructor; [|exact IH]. exact Hc.
  Qed.
  Lemma ren_st_new o : ren_st (pst_new o) (pst_new o).
  Proof. split; [reflexivity|]. split; [reflexivity|]. apply geq_new. Qed.
End Ren.

(** ** The programs *)
Lemma main_rename_elaborates mu rho srcs srcs' vs : renaming mu rho -> alpha_sources (rn_sources mu rho srcs) srcs' -> (elaborates srcs vs <-> elaborates srcs' vs).
Proof.
  intros HR H. apply (alpha_ren mu rho HR) in H. split; intros E.
  - exact (elab_sources_ren mu rho HR [] 0 srcs vs E srcs' H).
  - exact (elab_sources_ren' mu rho HR [] 0 srcs' vs E [] srcs eq_refl H).
Qed.
Lemma main_rename_verdict mu rho junk junk' O1 O2 n1 n2 eta inputs inputs' srcs srcs' r r' :
  renaming mu rho -> Forall2 (source_of junk) inputs srcs -> Forall2 (source_of junk') inputs' srcs' -> alpha_sources (rn_sources mu rho srcs) srcs' ->
  kocheck junk (real_kernel O1 n1) (Opts eta None false) false inputs r -> kocheck junk' (real_kernel O2 n2) (Opts eta None false) false inputs' r' ->
  r = Fuel \/ r' = Fuel \/ rn_result mu rho r r'.
Proof.
  intros HR H H' Ha Hk Hk'. apply (kocheck_seq _ _ _ _ _ _ H) in Hk. apply (kocheck_seq _ _ _ _ _ _ H') in Hk'. subst r r'.
  apply (seq_ren mu rho HR); [|apply ren_st_new]. apply ren_events. apply (alpha_ren mu rho HR). exact Ha.
Qed.
Lemma main_rename_web mu rho junk junk' O1 O2 n1 n2 eta om modules modules' srcs srcs' r r' :
  renaming mu rho -> Forall2 (web_source junk) modules srcs -> Forall2 (web_source junk') modules' srcs' -> alpha_sources (rn_sources mu rho srcs) srcs' ->
  web_check junk (real_kernel O1 n1) (Opts eta om false) modules r -> web_check junk' (real_kernel O2 n2) (Opts eta om false) modules' r' ->
  r = Fuel \/ r' = Fuel \/ rn_result mu rho r r'.
Proof.
  intros HR H H' Ha Hk Hk'. apply (web_seq _ _ _ _ _ _ _ H) in Hk. apply (web_seq _ _ _ _ _ _ _ H') in Hk'. subst r r'.
  apply (seq_ren mu rho HR); [|apply ren_st_new]. apply ren_events. apply (alpha_ren mu rho HR). exact Ha.
Qed.
Lemma rn_ok {PE} mu rho r' : rn_result (PE := PE) mu rho (Ok tt) r' -> r' = Ok tt.
Proof. intros H. inversion H. reflexivity. Qed.
Lemma rn_ok' {PE} mu rho r : rn_result (PE := PE) mu rho r (Ok tt) -> r = Ok tt.
Proof. intros H. inversion H. reflexivity. Qed.
(** what is accepted with threads or a channel, is accepted sequentially *)
Lemma accepted_seq junk O n eta jobs channel inputs srcs : Forall2 (source_of junk) inputs srcs ->
  kocheck junk (real_kernel O n) (Opts eta None jobs) channel inputs (Ok tt) -> kocheck junk (real_kernel O n) (Opts eta None false) false inputs (Ok tt).
Proof.
  intros H Hk. apply (kocheck_seq _ _ _ _ _ _ H). apply kocheck_events in Hk as (srcs1 & Hs & Hk). destruct (sources_opens _ _ _ Hs) as (files1 & Ho1 & E1), (sources_opens _ _ _ H) as (files & Ho & E).
  rewrite <- (opens_det_all _ _ _ Ho _ Ho1), E in E1. injection E1 as E1. rewrite <- E1 in Hk. apply consume_ok_iff in Hk as (st & Hk).
  change (infer_checks_seq parse_error (real_kernel O n) (Opts eta None jobs) _ (consume_item parse_error (Opts eta None jobs)) (map Ok (program_events srcs)) (pst_new (Opts eta None jobs)))
    with (infer_checks_seq parse_error (real_kernel O n) (Opts eta None false) _ (consume_item parse_error (Opts eta None false)) (map Ok (program_events srcs)) (pst_new (Opts eta None false))) in Hk.
  rewrite Hk. reflexivity.
Qed.
Lemma main_rename_accepted mu rho junk junk' O1 O2 n1 n2 eta jobs channel inputs inputs' srcs srcs' :
  renaming mu rho -> Forall2 (source_of junk) inputs srcs -> Forall2 (source_of junk') inputs' srcs' -> alpha_sources (rn_sources mu rho srcs) srcs' ->
  (kocheck junk (real_kernel O1 n1) (Opts eta None jobs) channel inputs (Ok tt) -> forall r', kocheck junk' (real_kernel O2 n2) (Opts eta None false) false inputs' r' -> r' = Ok tt \/ r' = Fuel) /\
  (kocheck junk' (real_kernel O2 n2) (Opts eta None jobs) channel inputs' (Ok tt) -> forall r, kocheck junk (real_kernel O1 n1) (Opts eta None false) false inputs r -> r = Ok tt \/ r = Fuel).
Proof.
  intros HR H H' Ha. split; intros Hk r' Hk'.
  - apply (accepted_seq _ _ _ _ _ _ _ _ H) in Hk. destruct (main_rename_verdict _ _ _ _ _ _ _ _ _ _ _ _ _ _ _ HR H H' Ha Hk Hk') as [X|[X|X]]; [discriminate|auto|]. left. exact (rn_ok _ _ _ X).
  - apply (accepted_seq _ _ _ _ _ _ _ _ H') in Hk. destruct (main_rename_verdict _ _ _ _ _ _ _ _ _ _ _ _ _ _ _ HR H H' Ha Hk' Hk) as [X|[X|X]]; [auto|discriminate|]. left. exact (rn_ok' _ _ _ X).
Qed.
Lemma without_rules_rn mu rho srcs : without_rules srcs -> without_rules (rn_sources mu rho srcs).
Proof.
  intros Hw m cs rs Hi Hr. apply in_map_iff in Hi as ([m' cs'] & E & Hi). injection E as <- <-. apply in_map_iff in Hr as ([x args it|rules] & E & Hr); [discriminate|]. exact (Hw _ _ _ Hi Hr).
Qed.
Lemma main_rename_simple mu rho junk junk' O1 O2 eta jobs jobs' channel channel' inputs inputs' srcs srcs' :
  renaming mu rho -> Forall2 (source_of junk) inputs srcs -> Forall2 (source_of junk') inputs' srcs' -> alpha_sources (rn_sources mu rho srcs) srcs' -> without_rules srcs ->
  ((exists n, kocheck junk (real_kernel O1 n) (Opts eta None jobs) channel inputs (Ok tt)) <->
   (exists n, kocheck junk' (real_kernel O2 n) (Opts eta None jobs') channel' inputs' (Ok tt))).
Proof.
  intros HR H H' Ha Hw. assert (T : typable_sources eta srcs <-> typable_sources eta srcs').
  { unfold typable_sources. split; intros (vs & sg & E & Ht); exists vs, sg; (split; [apply (main_rename_elaborates mu rho srcs srcs' vs HR Ha); exact E|exact Ht]). }
  destruct (main_whole_accepts junk O1 eta jobs channel inputs srcs H Hw) as (n0 & A1 & A2).
  destruct (main_whole_accepts junk' O2 eta jobs' channel' inputs' srcs' H' (without_rules_alpha _ _ Ha (without_rules_rn mu rho _ Hw))) as (n0' & B1 & B2). split; intros [n Hk].
  - exists n0'. apply B1; [lia|]. apply T. exact (A2 n Hk).
  - exists n0. apply A1; [lia|]. apply T. exact (B2 n Hk).
Qed.
Lemma infer_elaborates junk K eta jobs channel inputs srcs : Forall2 (source_of junk) inputs srcs ->
  (kocheck junk K (Opts eta (Some StInfer) jobs) channel inputs (Ok tt) <-> exists vs, elaborates srcs vs).
Proof.
  intros H. split.
  - intros Hk. apply kocheck_events in Hk as (srcs1 & Hs & Hk). destruct (sources_opens _ _ _ Hs) as (files1 & Ho1 & E1), (sources_opens _ _ _ H) as (files & Ho & E).
    rewrite <- (opens_det_all _ _ _ Ho _ Ho1), E in E1. injection E1 as E1. rewrite <- E1 in Hk.
    apply events_infer in Hk as [vs Hk]; [|eapply source_of_nonempty; exact H]. exists vs. exact Hk.
  - intros [vs E]. apply main_kocheck_infer. exists srcs, vs. split; assumption.
Qed.
Lemma main_rename_infer mu rho junk junk' K K' eta eta' jobs jobs' channel channel' inputs inputs' srcs srcs' :
  renaming mu rho -> Forall2 (source_of junk) inputs srcs -> Forall2 (source_of junk') inputs' srcs' -> alpha_sources (rn_sources mu rho srcs) srcs' ->
  (kocheck junk K (Opts eta (Some StInfer) jobs) channel inputs (Ok tt) <-> kocheck junk' K' (Opts eta' (Some StInfer) jobs') channel' inputs' (Ok tt)).
Proof.
  intros HR H H' Ha. rewrite (infer_elaborates _ _ _ _ _ _ _ H), (infer_elaborates _ _ _ _ _ _ _ H'). split; intros [vs E]; exists vs; apply (main_rename_elaborates mu rho srcs srcs' vs HR Ha); exact E.
Qed.
