(** * Proofs of the properties of the global context, assembled *)

From Verif Require Import Base LibMono ModelTerm ModelGctx ModelCommand ModelSubst ModelReduce ModelInfer
  SpecTerm SpecConv SpecTyping SpecQuery
  RefMachine RefMono RefSafe RefSound RefSym Erase SimReduce Inv SoundInfer RefInfer KernelFacts MainKernel.

Open Scope sm_scope.

Lemma slookup_insert {A} (m : smap A) c a d : slookup (fst (sinsert m c a)) d = if d =? c then Some a else slookup m d.
Proof. reflexivity. Qed.

(** rules belong to symbols with a type *)
Definition typed_rules (gc : gctx) : Prop := forall c, get_type gc c = None -> get_rules gc c = None.

Definition def_rules (c : sym) (ty : typing) : list rule :=
  match t_tm ty with None => [] | Some tm => [MkRule [] (TopPat c []) tm] end.

Lemma insert_cases gc c ty rw gc' e : gctx_insert gc c ty rw = (gc', e) ->
  (forall d, get_type gc' d = if d =? c then Some (t_ty ty) else get_type gc d) /\
  (e = None -> get_type gc c = None /\ (forall d, get_rules gc' d = if (d =? c) && rw then Some (def_rules c ty) else get_rules gc d)) /\
  (e = None \/ e = Some Reintroduction) /\
  (get_type gc c <> None -> e = Some Reintroduction /\ get_rules gc' = get_rules gc) /\
  (forall d, d <> c -> get_rules gc' d = get_rules gc d).
Proof.
  unfold gctx_insert, intro_type, intro_rules. cbn. unfold get_type, get_rules.
  destruct (slookup (g_types gc) c) eqn:Et.
  - intros [= <- <-]. cbn. split; [reflexivity|]. split; [discriminate|]. split; [auto|]. split; auto.
  - destruct rw; cbn.
    + destruct (slookup (g_rules gc) c) eqn:Er; intros [= <- <-]; cbn;
        (split; [reflexivity|]; split; [|split; [auto|split; [congruence|]]]);
        try discriminate.
      * intros d Hd. destruct (Nat.eqb_spec d c); [contradiction|reflexivity].
      * intros _. split; [reflexivity|]. intros d. unfold def_rules. rewrite andb_true_r. reflexivity.
      * intros d Hd. destruct (Nat.eqb_spec d c); [contradiction|reflexivity].
    + intros [= <- <-]. cbn. split; [reflexivity|]. split; [|split; [auto|split; [congruence|auto]]].
      intros _. split; [reflexivity|]. intros d. rewrite andb_false_r. reflexivity.
Qed.
Lemma add_rule_cases gc r gc' e : add_rule gc r = (gc', e) ->
  get_type gc' = get_type gc /\
  (forall d, get_rules gc' d = match get_rules gc d with
                               | None => None
                               | Some rs => Some (if tp_symbol (r_lhs r) =? d then rs ++ [r] else rs)
                               end).
Proof.
  unfold add_rule, get_rules. destruct (slookup (g_rules gc) (tp_symbol (r_lhs r))) as [rs|] eqn:E; intros [= <- <-].
  - split; [reflexivity|]. intros d. cbn. rewrite (Nat.eqb_sym (tp_symbol (r_lhs r)) d).
    destruct (Nat.eqb_spec d (tp_symbol (r_lhs r))) as [->|]; [rewrite E; reflexivity|]. now destruct (slookup _ d).
  - split; [reflexivity|]. intros d. destruct (slookup (g_rules gc) d) eqn:E'; [|reflexivity].
    destruct (Nat.eqb_spec (tp_symbol (r_lhs r)) d); [congruence|reflexivity].
Qed.

Lemma ghist_spec ops : forall gc gc' es c, ghist gc ops = (gc', es) -> inserts_ok ops es ->
  typed_rules gc ->
  get_type gc' c = match get_type gc c with Some t => Some t | None => hist_type c ops end /\
  get_rules gc' c = match get_type gc c with
                    | None => hist_rules c ops
                    | Some _ => match get_rules gc c with None => None | Some rs => Some (rs ++ added_rules c ops) end
                    end.
Proof.
  induction ops as [|o ops IH]; intros gc gc' es c; cbn [ghist].
  - intros [= <- <-] _ Ht. cbn. split.
    + destruct (get_type gc c); reflexivity.
    + destruct (get_type gc c) eqn:E; [destruct (get_rules gc c); rewrite ?app_nil_r; reflexivity|auto].
  - destruct (gstep gc o) as [gc1 e] eqn:E1. destruct (ghist gc1 ops) as [gc2 es'] eqn:E2. intros [= <- <-] Hok Ht.
    destruct o as [d ty rw|r]; cbn [inserts_ok gstep hist_type hist_rules added_rules] in *.
    + destruct Hok as [-> Hok]. apply insert_cases in E1. destruct E1 as (H1 & H2 & _). destruct (H2 eq_refl) as [Hn Hr].
      assert (Ht1 : typed_rules gc1).
      { intros x. rewrite H1, Hr. destruct (x =? d); [discriminate|]. cbn. apply Ht. }
      destruct (IH _ _ _ c E2 Hok Ht1) as [I1 I2]. rewrite H1 in I1, I2. rewrite Hr in I2. rewrite I1, I2.
      rewrite (Nat.eqb_sym d c). destruct (Nat.eqb_spec c d) as [->|Hne].
      * rewrite Hn. split; [reflexivity|]. rewrite (Ht d Hn). destruct rw; reflexivity.
      * cbn. auto.
    + apply add_rule_cases in E1. destruct E1 as [H1 H2].
      assert (Ht1 : typed_rules gc1).
      { intros x. rewrite H1, H2. intros Hx. rewrite (Ht x Hx). reflexivity. }
      destruct (IH _ _ _ c E2 Hok Ht1) as [I1 I2]. rewrite H1 in I1, I2. rewrite H2 in I2. rewrite I1, I2.
      split; [reflexivity|]. destruct (get_type gc c); [|reflexivity]. destruct (get_rules gc c) as [rs|]; [|reflexivity].
      destruct (tp_symbol (r_lhs r) =? c); [rewrite <- app_assoc; reflexivity|reflexivity].
Qed.

Lemma main_hist ops gc es c : ghist gctx_new ops = (gc, es) -> inserts_ok ops es ->
  get_type gc c = hist_type c ops /\ get_rules gc c = hist_rules c ops.
Proof.
  intros H Hok. apply (ghist_spec _ _ _ _ c H Hok). intros d _. reflexivity.
Qed.
Lemma main_reintro gc c ty rw t : get_type gc c = Some t -> snd (gctx_insert gc c ty rw) = Some Reintroduction.
Proof.
  intros H. destruct (gctx_insert gc c ty rw) as [gc' e] eqn:E. apply insert_cases in E.
  destruct E as (_ & _ & _ & E & _). apply E. congruence.
Qed.

(** ** C15 *)
Lemma hist_no_rules ops : forall gc gc' es c, ghist gc ops = (gc', es) ->
  (forall ty rw, In (OInsert c ty rw) ops -> rw = false) -> get_rules gc c = None -> get_rules gc' c = None.
Proof.
  induction ops as [|o ops IH]; intros gc gc' es c; cbn [ghist]; [intros [= <- <-]; auto|].
  destruct (gstep gc o) as [gc1 e] eqn:E1. destruct (ghist gc1 ops) as [gc2 es'] eqn:E2. intros [= <- <-] Hin Hg.
  apply (IH _ _ _ _ E2); [intros; eapply Hin; right; eassumption|].
  destruct o as [d ty rw|r]; cbn [gstep] in *.
  - destruct (Nat.eq_dec d c) as [->|Hne].
    + assert (rw = false) as -> by (eapply Hin; left; reflexivity).
      unfold gctx_insert, intro_type in E1. cbn in E1. destruct (slookup (g_types gc) c); injection E1 as <- <-; exact Hg.
    + apply insert_cases in E1. destruct E1 as (_ & _ & _ & _ & E1). rewrite E1; auto.
  - apply add_rule_cases in E1. destruct E1 as [_ E1]. rewrite E1, Hg. reflexivity.
Qed.

(** terms without rules for their head evaluate to themselves *)
Definition plain_cell (l : loc) (u : tm) (h : heap) : Prop := nth_error h l = Some (RCState (RState [] u []) false false).
Lemma r_unwind_apps c us : forall stack vs h, Forall2 (fun l u => plain_cell l u h) stack vs ->
  exists stack' h', r_unwind [] (apps (Const c) us) stack h = Ok ((Const c, stack'), h') /\
    Forall2 (fun l u => plain_cell l u h') stack' (us ++ vs) /\ (forall l u, plain_cell l u h -> plain_cell l u h').
Proof.
  induction us as [|u us IH] using rev_ind; intros stack vs h H.
  - exists stack, h. cbn. auto.
  - rewrite apps_app. cbn [apps r_unwind]. unfold bind, r_from_ctx_term, r_alloc.
    assert (Hm : forall l u', plain_cell l u' h -> plain_cell l u' (h ++ [RCState (RState [] u []) false false])).
    { intros l u' Hl. unfold plain_cell in *. now apply nth_error_app_l. }
    destruct (IH (length h :: stack) (u :: vs) (h ++ [RCState (RState [] u []) false false])) as (st' & h' & E & F & G).
    + constructor; [apply nth_error_snoc|]. clear - H Hm. induction H; constructor; auto.
    + exists st', h'. split; [etransitivity; [|exact E]; reflexivity|]. rewrite <- app_assoc. split; [exact F|]. auto.
Qed.
Lemma r_of_rstate_plain n l u h : plain_cell l u h -> r_of_rstate n l h = Fuel \/ r_of_rstate n l h = Ok (u, h).
Proof.
  intros H. destruct n; [left; reflexivity|right]. cbn [r_of_rstate]. unfold bind, r_borrow, r_read, bind.
  unfold plain_cell in H. rewrite H. reflexivity.
Qed.
Lemma r_whnf_no_rules sg n c us h t h' : sg_rules sg c = None ->
  r_whnf sg n (apps (Const c) us) h = Ok (t, h') -> t = apps (Const c) us.
Proof.
  intros Hc. unfold r_whnf, r_whnf_, r_fresh. destruct n as [|n]; [discriminate|].
  unfold bind at 1.
  change (r_state_whnf sg (S n) (RState [] (apps (Const c) us) [])) with
    (bind (r_unwind [] (apps (Const c) us) []) (fun x => let '(t, stack) := x in
       r_head sg n (r_state_whnf sg n) (fun t1 t2 => r_conv_loop sg n [(t1, t2)]) [] t stack)).
  destruct (r_unwind_apps c us [] [] [] (Forall2_nil _)) as (st & h1 & E & F & _).
  unfold bind at 1. rewrite E. cbn [r_head]. rewrite Hc. unfold ret at 1.
  unfold r_of_state. cbn [rs_ctx rs_term rs_stack]. unfold bind at 1, ret at 1. unfold bind at 1. rewrite app_nil_r in F.
  assert (Hm : mapM (r_of_rstate (S n)) st h1 = Fuel \/ mapM (r_of_rstate (S n)) st h1 = Ok (us, h1)).
  { clear E. induction F as [|l u ls us Hl F IH]; [right; reflexivity|]. cbn [mapM]. unfold bind, ret.
    destruct (r_of_rstate_plain (S n) l u h1 Hl) as [->| ->]; [left; reflexivity|].
    destruct IH as [->| ->]; auto. }
  destruct Hm as [->| ->]; [discriminate|]. cbn. intros [= <- _]. reflexivity.
Qed.

Lemma main_no_compute ops gc es c : ghist gctx_new ops = (gc, es) ->
  (forall ty rw, In (OInsert c ty rw) ops -> rw = false) ->
  get_rules gc c = None /\
  (forall r, tp_symbol (r_lhs r) = c -> add_rule gc r = (gc, Some NonRewritable)) /\
  (forall uniq n t us t', ers t = apps (Const c) us -> run (whnf uniq gc n t) = Ok t' -> ers t' = ers t).
Proof.
  intros H Hin. assert (Hr : get_rules gc c = None) by (eapply hist_no_rules; eauto).
  split; [exact Hr|]. split.
  - intros r Hs. unfold add_rule. unfold get_rules in Hr. rewrite Hs, Hr. reflexivity.
  - intros uniq n t us t' Et Hw. apply run_whnf_ref in Hw. destruct Hw as [h Hw]. rewrite Et in *.
    eapply r_whnf_no_rules; [|exact Hw]. cbn. rewrite Hr. reflexivity.
Qed.

(** ** C17 *)
Lemma hist_concerns ops : forall gc gc' es c, ghist gc ops = (gc', es) -> Forall (concerns c) ops ->
  g_eta gc' = g_eta gc /\ forall d, d <> c -> get_type gc' d = get_type gc d /\ get_rules gc' d = get_rules gc d.
Proof.
  induction ops as [|o ops IH]; intros gc gc' es c; cbn [ghist]; [intros [= <- <-]; auto|].
  destruct (gstep gc o) as [gc1 e] eqn:E1. destruct (ghist gc1 ops) as [gc2 es'] eqn:E2. intros [= <- <-] Hf.
  inversion Hf as [|? ? Ho Hf']; subst. destruct (IH _ _ _ _ E2 Hf') as [I1 I2].
  assert (Hg : g_eta gc1 = g_eta gc).
  { clear - E1. destruct o; cbn [gstep] in E1.
    - unfold gctx_insert, intro_type, intro_rules, sinsert in E1. destruct (slookup (g_types gc) c); [injection E1 as <- _; reflexivity|].
      destruct rewritable; injection E1 as <- _; reflexivity.
    - unfold add_rule in E1. destruct (slookup _ _); injection E1 as <- _; reflexivity. }
  split; [congruence|]. intros d Hd. destruct (I2 d Hd) as [-> ->].
  destruct o as [c' ty rw|r]; cbn [gstep concerns] in *; subst.
  - apply insert_cases in E1. destruct E1 as (H1 & _ & _ & _ & H2). rewrite H1, H2 by assumption.
    destruct (Nat.eqb_spec d c); [contradiction|auto].
  - apply add_rule_cases in E1. destruct E1 as [H1 H2]. rewrite H1, H2. split; [reflexivity|].
    destruct (Nat.eqb_spec (tp_symbol (r_lhs r)) d); [congruence|]. destruct (get_rules gc d); reflexivity.
Qed.

Section Fresh.
  Variable uniq : nat -> bool.
  Variables gc gc' : gctx.
  Variable ops : list gop.
  Variable es : list (option gctx_error).
  Variable c : sym.
  Hypothesis Hops : Forall (concerns c) ops.
  Hypothesis Hgc' : ghist gc ops = (gc', es).
  Hypothesis Hty : forall d ty, get_type gc d = Some ty -> absent c ty.
  Hypothesis Hrhs : forall d rs r, get_rules gc d = Some rs -> In r rs -> absent c (r_rhs r).

  Lemma run_eq0 {X} (P : X -> Prop) m m' : eq0 P m m' -> run m = run m'.
  Proof. intros H. unfold run. destruct (H (MSt [] 0) eq_refl) as [-> _]. reflexivity. Qed.

  Notation A := (fun d => d <> c).
  Lemma fr_eta : g_eta gc = g_eta gc'.
  Proof. symmetry. eapply hist_concerns; eassumption. Qed.
  Lemma fr_types d : A d -> get_type gc d = get_type gc' d.
  Proof. intros H. symmetry. eapply hist_concerns; eassumption. Qed.
  Lemma fr_rules d : A d -> get_rules gc d = get_rules gc' d.
  Proof. intros H. symmetry. eapply hist_concerns; eassumption. Qed.
  Lemma fr_ty d ty : A d -> get_type gc d = Some ty -> wfl A False ty.
  Proof. intros _ H. apply absent_wfl. eauto. Qed.
  Lemma fr_rhs d rs r : A d -> get_rules gc d = Some rs -> In r rs -> wfl A False (r_rhs r).
  Proof. intros _ H H'. apply absent_wfl. eauto. Qed.
  Lemma fr_wfs t : absent c t -> wfs A True False (sterm_of_lterm t).
  Proof. intros H. apply wfs_of_lterm. now apply absent_wfl. Qed.
  Lemma fr_all lc : Forall (absent c) lc -> Forall (wfl A False) lc.
  Proof. intros H. eapply Forall_impl; [|exact H]. intros; now apply absent_wfl. Qed.

  Lemma main_fresh_whnf n t : absent c t ->
    run (whnf uniq gc n (sterm_of_lterm t)) = run (whnf uniq gc' n (sterm_of_lterm t)).
  Proof. intros H. exact (run_eq0 _ _ _ (whnf_eq0 A uniq gc gc' fr_eta fr_rules fr_rhs n _ (fr_wfs _ H))). Qed.
  Lemma main_fresh_convertible n t u : absent c t -> absent c u ->
    run (convertible uniq gc n (sterm_of_lterm t) (sterm_of_lterm u)) = run (convertible uniq gc' n (sterm_of_lterm t) (sterm_of_lterm u)).
  Proof. intros H H'. exact (run_eq0 _ _ _ (convertible_eq0 A uniq gc gc' fr_eta fr_rules fr_rhs n _ _ (fr_wfs _ H) (fr_wfs _ H'))). Qed.
  Lemma main_fresh_infer n lc t : Forall (absent c) lc -> absent c t ->
    run (infer uniq gc n (lctx_of lc) (sterm_of_lterm t)) = run (infer uniq gc' n (lctx_of lc) (sterm_of_lterm t)).
  Proof.
    intros H H'. refine (run_eq0 _ _ _ (proj1 (infer_eq0 A uniq gc gc' fr_eta fr_types fr_rules fr_ty fr_rhs n) _ _ _ (fr_wfs _ H'))).
    apply lctx_of_ws. now apply fr_all.
  Qed.
  Lemma main_fresh_kintro n it : intro_all (absent c) it -> run (kintro uniq gc n it) = run (kintro uniq gc' n it).
  Proof.
    intros H. refine (run_eq0 _ _ _ (kintro_eq0 A uniq gc gc' fr_eta fr_types fr_rules fr_ty fr_rhs n it _)).
    destruct it as [[ty|] [tm|]|ty tm|inj ty]; cbn in *; intuition auto using absent_wfl. all: apply absent_wfl; assumption.
  Qed.
  Lemma main_fresh_rewrite n r : Forall (absent c) (r_ctx r) -> absent c (r_lhs r) ->
    run (rewrite uniq gc n r) = run (rewrite uniq gc' n r).
  Proof.
    intros H1 H2. exact (run_eq0 _ _ _ (rewrite_eq0 A uniq gc gc' fr_eta fr_types fr_rules fr_ty fr_rhs n r (fr_all _ H1) (absent_wfl _ _ H2))).
  Qed.
  Lemma main_fresh_check n k : Forall (absent c) (t_lc k) -> absent c (t_ty k) -> absent c (t_tm k) ->
    run (check_check uniq gc n k) = run (check_check uniq gc' n k).
  Proof.
    intros H1 H2 H3.
    exact (run_eq0 _ _ _ (check_check_eq0 A uniq gc gc' fr_eta fr_types fr_rules fr_ty fr_rhs n k (fr_all _ H1) (absent_wfl _ _ H2) (absent_wfl _ _ H3))).
  Qed.
End Fresh.

Lemma main_rewritable (it : intro) :
  rewritable it = false <-> (exists ty tm, it = ITheorem ty tm) \/ (exists ty, it = IDeclaration false ty).
Proof.
  split.
  - destruct it as [oty otm|ty tm|[|] ty]; cbn; try discriminate; intros _; eauto.
  - intros [(ty & tm & ->)|(ty & ->)]; reflexivity.
Qed.
Lemma main_stable ops ops' gc es c t : ghist gctx_new (ops ++ ops') = (gc, es) -> inserts_ok (ops ++ ops') es ->
  hist_type c ops = Some t -> get_type gc c = Some t.
Proof.
  intros H Hok Ht. destruct (main_hist _ _ _ c H Hok) as [-> _]. clear H Hok.
  induction ops as [|[d ty rw|r] ops IH]; cbn in *; [discriminate| |auto]. destruct (d =? c); auto.
Qed.
