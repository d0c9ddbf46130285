(** * A test for programs with recursive functions *)

From Verif Require Import Base LibMono ModelTerm ModelGctx ModelCommand ModelSubst ModelReduce ModelInfer ModelSyntax ModelSymbols ModelShare ModelProcess
  SpecTerm SpecConv SpecConvFacts SpecRed SpecSN SpecType SpecProcess SpecDomain SpecTotal SpecRec SpecRecProg RedConfl Erase RedCheck RedEnum CompCheck
  TypeFacts DomFacts MainVerify MainTyped MainTotal MainProgTotal SamplesTyped SamplesProg SnBase SnRec MainDef MainRec.

(** ** Right-hand sides *)
Definition inb (u : tm) (l : list tm) : bool := existsb (fun v => if tm_eq_dec u v then true else false) l.
Lemma inb_ok u l : inb u l = true -> In u l.
Proof. unfold inb. rewrite existsb_exists. intros (v & Hv & E). destruct (tm_eq_dec u v) as [->|]; [exact Hv|discriminate]. Qed.
(** [X] is a list of the terms for which there may be calls. *)
Fixpoint guardedb (f k : nat) (X : list tm) (t : tm) {struct t} : bool :=
  match t with
  | Kind | Typ | Var _ => true
  | Const c => c <? f
  | App t u => guardedb f k X u && (guardedb f k X t || inb u X && partialb f k X k t)
  | Lam _ _ => false
  | ULam t => guardedb f k (map (lift 1) X) t
  | Pi A B => guardedb f k X A && guardedb f k (map (lift 1) X) B
  end
with partialb (f k : nat) (X : list tm) (j : nat) (t : tm) {struct t} : bool :=
  match j, t with
  | 0, Const c => c =? f
  | S j, App t u => partialb f k X j t && guardedb f k X u
  | _, _ => false
  end.
Lemma guardedb_eq f k X t u : guardedb f k X (App t u) = guardedb f k X u && (guardedb f k X t || inb u X && partialb f k X k t).
Proof. reflexivity. Qed.
Lemma partialb_eq f k X j t u : partialb f k X (S j) (App t u) = partialb f k X j t && guardedb f k X u.
Proof. reflexivity. Qed.
Lemma guardedb_ok f k t : (forall X (Y : tm -> Prop), (forall u, In u X -> Y u) -> guardedb f k X t = true -> guarded f k Y t) /\
  forall X (Y : tm -> Prop) j, (forall u, In u X -> Y u) -> partialb f k X j t = true -> partial f k Y j t.
Proof.
  assert (U : forall X (Y : tm -> Prop), (forall u, In u X -> Y u) -> forall u, In u (map (lift 1) X) -> under Y u).
  { intros X Y HX u Hu. apply in_map_iff in Hu as (v & <- & Hv). exists v. auto. }
  induction t as [| |c|n|t [IHt1 IHt2] u [IHu _]|A _ t _|t [IHt _]|A [IHA _] B [IHB _]]; (split; [intros X Y HX|intros X Y j HX]); try (destruct j; discriminate).
  - constructor.
  - constructor.
  - cbn. intros H. constructor. apply Nat.ltb_lt. exact H.
  - destruct j; [|discriminate]. cbn. intros H. apply Nat.eqb_eq in H as ->. constructor.
  - constructor.
  - rewrite guardedb_eq, andb_true_iff, orb_true_iff, andb_true_iff. intros [H1 [H2|[H2 H3]]]; [apply gd_app; eauto|]. apply gd_call; eauto using inb_ok.
  - destruct j as [|j]; [discriminate|]. rewrite partialb_eq, andb_true_iff. intros [H1 H2]. constructor; eauto.
  - discriminate.
  - intros H. constructor. apply (IHt (map (lift 1) X)); [apply U; exact HX|exact H].
  - cbn. rewrite andb_true_iff. intros [H1 H2]. constructor; [eauto|]. apply (IHB (map (lift 1) X)); [apply U; exact HX|exact H2].
Qed.
(** All parts of a pattern *)
Fixpoint all_subpats (p : pat) : list pat := p :: match p with PatSymb _ ps => flat_map all_subpats ps | _ => [] end.
Lemma all_subpats_ok p : forall q, In q (all_subpats p) -> subpat q p.
Proof.
  induction p as [c ps IH|m|] using pat_ind'; cbn; intros q [<-|H]; try destruct H; try (apply subpat_refl).
  apply in_flat_map in H as (p & Hp & Hq). rewrite Forall_forall in IH. eapply subpat_arg; [exact Hp|]. apply IH; assumption.
Qed.

Section Test.
  Variable gc : gctx.
  Let rules := gctx_rules gc.
  Notation sg := (er_gctx gc).

  Definition no_ruleb (c : nat) : bool := forallb (fun '(d, _) => negb (d =? c)) rules.
  Definition baseb (t : tm) : bool := match head t with Const c => no_ruleb c | _ => false end.
  Fixpoint first_orderb (t : tm) : bool := baseb t || match t with Pi A B => baseb A && first_orderb B | _ => false end.
  Fixpoint datab (p : pat) : bool :=
    match p with
    | PatVar _ | PatJoker => true
    | PatSymb c ps => no_ruleb c && match sg_type sg c with Some A => first_orderb (strip A) | None => false end && forallb datab ps
    end.
  Definition inners (ps : list pat) (k : nat) : list tm :=
    match nth_error ps k with Some (PatSymb _ qs) => map pterm (filter no_jokerb (flat_map all_subpats qs)) | _ => [] end.
  Definition structural_ruleb (f n k : nat) (r : srule) : bool :=
    match sg_type sg f with Some A => baseb (target (strip A)) | None => false end &&
    (length (sr_args r) =? n) && forallb datab (sr_args r) && guardedb f k (inners (sr_args r) k) (strip (sr_rhs r)).
  (** All rules for [f] pass a test. *)
  Definition rules_for (f : nat) (test : srule -> bool) : bool := forallb (fun '(d, r) => if negb (d =? f) then true else test r) rules.
  Definition no_argsb (r : srule) : bool := match sr_args r with [] => true | _ => false end.
  Definition arity (f : nat) : nat := match find (fun '(d, _) => d =? f) rules with Some (_, r) => length (sr_args r) | None => 0 end.
  Definition rec_arg (f : nat) : nat :=
    match find (fun k => rules_for f (structural_ruleb f (arity f) k)) (seq 0 (arity f)) with Some k => k | None => 0 end.
  Definition structuralb : bool :=
    completeb gc && forallb (fun '(c, _) => if rules_for c no_argsb then true else rules_for c (structural_ruleb c (arity c) (rec_arg c))) rules.

  Lemma gctx_rule c r : rule_of sg c r -> In (c, r) rules.
  Proof.
    intros (rs & Hrs & Hin & _). revert c rs r Hrs Hin. apply (rules_in gc (fun c r => In (c, r) rules)). apply Forall_forall. intros [c r] H. exact H.
  Qed.
  Lemma no_ruleb_ok c : no_ruleb c = true -> no_rule sg c.
  Proof.
    unfold no_ruleb. rewrite forallb_forall. intros H r Hr. apply gctx_rule in Hr. specialize (H _ Hr). cbn in H. rewrite Nat.eqb_refl in H. discriminate.
  Qed.
  Lemma baseb_ok t : baseb t = true -> base sg t.
  Proof. unfold baseb. destruct (head t) eqn:E; try discriminate. intros H. exists c. split; [exact E|apply no_ruleb_ok; exact H]. Qed.
  Lemma first_orderb_ok t : first_orderb t = true -> first_order sg t.
  Proof.
    induction t as [| |c|n|t IHt u IHu|A IHA t IHt|t IHt|A IHA B IHB]; cbn [first_orderb]; rewrite orb_true_iff; intros [H|H]; try discriminate; try (apply fo_base, baseb_ok, H).
    apply andb_true_iff in H as [H1 H2]. apply fo_pi; [apply baseb_ok; exact H1|auto].
  Qed.
  Lemma datab_ok p : datab p = true -> data sg p.
  Proof.
    induction p as [c ps IH|m|] using pat_ind'; cbn [datab]; [|constructor|constructor].
    rewrite !andb_true_iff. intros [[H1 H2] H3]. destruct (sg_type sg c) as [A|] eqn:E; [|discriminate].
    apply (data_symb _ _ A); [apply no_ruleb_ok; exact H1|exact E|apply first_orderb_ok; exact H2|].
    rewrite forallb_forall in H3. rewrite Forall_forall in IH |- *. auto.
  Qed.
  Lemma inners_ok ps k u : In u (inners ps k) -> inner ps k u.
  Proof.
    unfold inners, inner. destruct (nth_error ps k) as [[c qs| |]|]; try contradiction. intros H. apply in_map_iff in H as (p & <- & Hp). apply filter_In in Hp as [Hp Hj].
    apply in_flat_map in Hp as (q & Hq & Hp). apply no_jokerb_ok in Hj. exists c, qs, q, p. split; [reflexivity|]. split; [exact Hq|]. split; [apply all_subpats_ok; exact Hp|].
    split; [exact Hj|apply inst_pterm; exact Hj].
  Qed.
  Lemma structural_ruleb_ok f n k r : structural_ruleb f n k r = true -> structural_rule sg f n k r.
  Proof.
    unfold structural_ruleb, structural_rule. rewrite !andb_true_iff. intros [[[H1 H2] H3] H4].
    destruct (sg_type sg f) as [A|]; [|discriminate]. split; [exists A; split; [reflexivity|apply baseb_ok; exact H1]|]. split; [apply Nat.eqb_eq; exact H2|].
    split; [rewrite forallb_forall in H3; apply Forall_forall; intros q Hq; apply datab_ok, H3, Hq|].
    eapply (proj1 (guardedb_ok f k _)); [|exact H4]. apply inners_ok.
  Qed.
  Lemma rules_for_ok f test : rules_for f test = true -> forall r, rule_of sg f r -> test r = true.
  Proof. unfold rules_for. rewrite forallb_forall. intros H r Hr. apply gctx_rule in Hr. specialize (H _ Hr). cbn in H. rewrite Nat.eqb_refl in H. exact H. Qed.
  Lemma no_argsb_ok r : no_argsb r = true -> sr_args r = [].
  Proof. unfold no_argsb. destruct (sr_args r); [reflexivity|discriminate]. Qed.
  (** Symbols without rules need no test. *)
  Lemma all_rules (Q : nat -> Prop) test : (forall c, no_rule sg c -> Q c) -> (forall c, test c = true -> Q c) -> forallb (fun '(c, _) => test c) rules = true -> forall c, Q c.
  Proof.
    intros H0 H1 H c. destruct (test c) eqn:E; [auto|]. apply H0. intros r Hr. apply gctx_rule in Hr. rewrite forallb_forall in H. specialize (H _ Hr). cbn in H. congruence.
  Qed.
  Lemma structuralb_ok : structuralb = true -> structural sg.
  Proof.
    unfold structuralb. rewrite andb_true_iff. intros [H1 H2]. split; [apply gctx_left_linear; unfold completeb in H1; rewrite !andb_true_iff in H1; apply H1|]. split; [apply completeb_ok; exact H1|].
    exists arity, rec_arg. refine (all_rules _ _ _ _ H2).
    - intros c Hc. left. intros r Hr. destruct (Hc _ Hr).
    - intros c H. apply orb_true_iff in H as [H|H]; [left|right]; intros r Hr; apply (rules_for_ok _ _ H) in Hr; [apply no_argsb_ok|apply structural_ruleb_ok]; exact Hr.
  Qed.
End Test.

(** ** Commands *)
Section Commands.
  Variables (uniq : nat -> bool) (gc : gctx) (n : nat).
  (** the types in a context of a rule, from left to right *)
  Fixpoint typesb (G tys : list lterm) : bool :=
    match tys with
    | [] => true
    | A :: tys => match ModelInfer.run (ModelInfer.infer uniq gc n (lctx_of G) (sterm_of_lterm A)) with Ok SType => typesb (G ++ [A]) tys | _ => false end
    end.
  (** A rule that the kernel does not check: variables for the jokers, with numbers from [m] on, and for variables without types the types of arguments
      at their positions *)
  Fixpoint ldom (k : nat) (A : lterm) : option lterm :=
    match A with LComb (Prod _ A B) => match k with 0 => if scopedb 0 (erl A) then Some A else None | S k => ldom k B end | _ => None end.
  Fixpoint name_pat (ty : option lterm) (p : pattern) (st : nat * list (nat * option lterm)) : pattern * (nat * list (nat * option lterm)) :=
    match p with
    | PMVar m => (PMVar m, (fst st, (m, ty) :: snd st))
    | PJoker => (PMVar (fst st), (S (fst st), (fst st, ty) :: snd st))
    | PSymb c ps =>
      let (qs, st) := (fix go i ps st := match ps with
        | [] => ([], st)
        | p :: ps => let (q, st) := name_pat (match get_type gc c with Some A => ldom i A | None => None end) p st in let (qs, st) := go (S i) ps st in (q :: qs, st)
        end) 0 ps st in (PSymb c qs, st)
    end.
  Definition name_rule (r : rule) : rule :=
    let m := length (r_ctx r) in
    match name_pat None (pattern_of_top (r_lhs r)) (m, []) with
    | (PSymb c qs, (m', l)) =>
      MkRule (rev (map (fun x => ([], match nth_error (rev (r_ctx r)) x with Some (_, Some A) => Some A | _ =>
        match find (fun '(y, ty) => (y =? x) && match ty with Some _ => true | None => false end) l with Some (_, ty) => ty | None => None end end)) (seq 0 m')))
        (TopPat c qs) (r_rhs r)
    | _ => r
    end.
  Fixpoint fillb (p q : pat) {struct p} : bool :=
    match p, q with
    | PatVar m, PatVar m' => m =? m'
    | PatJoker, PatVar _ => true
    | PatSymb c ps, PatSymb d qs => (c =? d) && (fix go ps qs := match ps, qs with [], [] => true | p :: ps, q :: qs => fillb p q && go ps qs | _, _ => false end) ps qs
    | _, _ => false
    end.
  Definition usableb (r : srule) : bool :=
    let vs := flat_map pat_vars (sr_args r) in forallb (fun m => m <? sr_vars r) vs && forallb (fun m => existsb (Nat.eqb m) vs) (seq 0 (sr_vars r)).
  Definition namedb (r r' : srule) : bool :=
    (if srule_eq_dec r' r then true else false) ||
    negb (forallb no_jokerb (sr_args r)) && scopedb (sr_vars r) (sr_rhs r) && usableb r' && nodupb (flat_map pat_vars (sr_args r')) &&
    fillb (PatSymb 0 (sr_args r)) (PatSymb 0 (sr_args r')) && (if tm_eq_dec (sr_rhs r') (sr_rhs r) then true else false).
  Definition typed_ruleb (r : rule) : bool :=
    let r2 := name_rule r in namedb (er_rule r) (er_rule r2) && (tp_symbol (r_lhs r2) =? tp_symbol (r_lhs r)) &&
    match rule_try r2 with
    | Ok r' => typesb [] (r_ctx r') && match ModelInfer.run (rewrite uniq gc n r') with
        | Ok chk => match ModelInfer.run (check_check uniq gc n chk) with Ok tt => true | _ => false end
        | _ => false
        end
    | _ => false
    end.
  Definition cmd_okb (cmd : command) : bool :=
    match cmd with
    | CIntro _ _ => true
    | CRules rs => forallb (fun r => match tp_args (r_lhs r) with [] => false | _ => true end &&
        match rule_try r with Ok r' => typesb [] (r_ctx r') | _ => typed_ruleb r end) rs
    end.
  Hypothesis Hgc : terminating gc.
  Hypothesis Hcr : church_rosser (er_gctx gc).
  Lemma typesb_ok tys : forall G, type_ctx (er_gctx gc) (dctx G) -> typesb G tys = true -> type_ctx (er_gctx gc) (dctx (G ++ tys)).
  Proof.
    induction tys as [|A tys IH]; intros G HG; cbn [typesb]; [rewrite app_nil_r; auto|].
    destruct (ModelInfer.run _) as [ty|e| |] eqn:E; try discriminate. destruct ty; try discriminate. intros H.
    replace (G ++ A :: tys) with ((G ++ [A]) ++ tys) by (rewrite <- app_assoc; reflexivity). apply IH; [|exact H].
    unfold dctx. rewrite rev_app_distr. cbn. constructor; [exact HG|].
    apply (infer_full n gc Hgc) in E as [E _]; [exact E|exact HG].
  Qed.
  Lemma fillb_ok p : forall q, fillb p q = true -> fill (fun x => x) p q.
  Proof.
    induction p as [c ps IH|m|] using pat_ind'; intros [d qs|m'|]; cbn [fillb]; try discriminate.
    - rewrite andb_true_iff. intros [E H]. apply Nat.eqb_eq in E as ->. constructor. revert qs H. induction IH as [|p ps Hp _ IH]; intros [|q qs]; try discriminate; [constructor|].
      rewrite andb_true_iff. intros [H1 H2]. constructor; auto.
    - intros H. apply Nat.eqb_eq in H as ->. apply (fill_var (fun x => x)).
    - constructor.
  Qed.
  Lemma usableb_ok r : usableb r = true -> usable r.
  Proof.
    unfold usableb. rewrite andb_true_iff, !forallb_forall. intros [H1 H2] m. split.
    - intros Hm. specialize (H2 m ltac:(apply in_seq; lia)). apply existsb_exists in H2 as (y & Hy & E). apply Nat.eqb_eq in E as ->. exact Hy.
    - intros Hm. apply Nat.ltb_lt. auto.
  Qed.
  Lemma namedb_ok r r' : namedb r r' = true -> named r r'.
  Proof.
    unfold namedb. rewrite orb_true_iff, !andb_true_iff. intros [H|[[[[[H1 H2] H3] H4] H5] H6]].
    - destruct (srule_eq_dec r' r); [left; assumption|discriminate].
    - right. split; [intros Hf; rewrite (proj2 (forallb_forall _ _)) in H1; [discriminate|]; rewrite Forall_forall in Hf; intros p Hp; apply no_jokerb_all, Hf, Hp|].
      split; [apply scopedb_ok; exact H2|]. split; [apply usableb_ok; exact H3|]. split; [apply nodupb_ok; exact H4|]. exists (fun x => x). split.
      + apply fillb_ok in H5. inversion H5; subst. assumption.
      + destruct (tm_eq_dec (sr_rhs r') (sr_rhs r)) as [->|]; [|discriminate]. symmetry. apply ren_id_ext. reflexivity.
  Qed.
  Lemma typed_ruleb_ok r : typed_ruleb r = true -> typed_rule (er_gctx gc) (tp_symbol (r_lhs r)) (er_rule r).
  Proof.
    unfold typed_ruleb. rewrite !andb_true_iff. intros [[H1 H2] H3]. destruct (rule_try (name_rule r)) as [r'|e| |] eqn:E; try discriminate. apply andb_true_iff in H3 as [H3 H4].
    destruct (ModelInfer.run (rewrite _ _ _ _)) as [chk|e| |] eqn:E1; try discriminate. destruct (ModelInfer.run (check_check _ _ _ _)) as [[]|e| |] eqn:E2; try discriminate.
    exists (er_rule (name_rule r)). split; [apply namedb_ok; exact H1|]. apply Nat.eqb_eq in H2 as <-.
    eapply (rule_good (fun _ => uniq) n gc); [exact Hgc|exact Hcr|exact E|exact (typesb_ok _ [] (tc_nil _) H3)|exact E1|exact E2].
  Qed.
  Lemma cmd_okb_ok cmd : cmd_okb cmd = true -> cmd_typed gc cmd /\ cmd_args cmd.
  Proof.
    destruct cmd as [c it|rs]; cbn; [tauto|]. rewrite forallb_forall. intros H. split; apply Forall_forall; intros r Hr; specialize (H _ Hr); apply andb_true_iff in H as [H1 H2].
    - destruct (rule_try r) as [r'|e| |]; [exact (typesb_ok _ [] (tc_nil _) H2)|..]; apply typed_ruleb_ok; exact H2.
    - destruct (tp_args (r_lhs r)); [discriminate|]. discriminate.
  Qed.
End Commands.

(** ** Programs *)
Section Program.
  Variable P : sig -> Prop.
  Hypothesis HP : normal_class P.
  Variable classb : gctx -> bool.
  Hypothesis classb_ok : forall gc, classb gc = true -> P (er_gctx gc).
  Variables (O : query -> nat -> bool) (PE : Type) (jobs : bool) (uniq : nat -> bool) (n : nat).
  Let o := Opts false None jobs.
  Notation seq n := (infer_checks_seq PE (real_kernel O n) o _ (consume_item PE o)).

  (** The contexts and commands of a program up to the first error pass the tests. *)
  Fixpoint programb (evs : list event) (st : pst) : bool :=
    match evs with
    | [] => true
    | ev :: evs =>
      match ev with EvModule _ => true | EvCommand cmd => classb (ps_gc st) && match snd (share cmd st) with Ok cmd' => cmd_okb uniq (ps_gc st) n cmd' | _ => true end end &&
      match seq n [Ok ev] st with
      | (st', _, Ok tt) => programb evs st'
      | (_, _, Fuel) => false
      | _ => true
      end
    end.
  Lemma seq_cons k ev evs st : seq k (ev :: evs) st =
    match seq k [ev] st with (st', [], Ok tt) => seq k evs st' | (st', rest, r) => (st', rest ++ evs, r) end.
  Proof.
    cbn [infer_checks_seq]. destruct (consume_item PE o ev st) as [st1 r]. destruct (filter_infer PE o r) as [[cmd|e| |]|]; try reflexivity.
    destruct (infer_check (real_kernel O k) o cmd (ps_gc st1)) as [gc [[]|e| |]]; reflexivity.
  Qed.
  Lemma main_classb evs : programb evs (pst_new o) = true -> program_in P O PE o evs.
  Proof.
    assert (X : forall evs pre0 st, programb evs st = true -> (forall pre cmd post st, pre0 ++ evs = pre ++ EvCommand cmd :: post -> length pre < length pre0 -> accepted O PE o pre st ->
        P (er_gctx (ps_gc st)) /\ forall st' cmd', share cmd st = (st', Ok cmd') -> cmd_typed (ps_gc st) cmd' /\ cmd_args cmd') ->
      accepted O PE o pre0 st -> program_in P O PE o (pre0 ++ evs)).
    2:{ intros H. apply (X evs [] (pst_new o) H); [cbn; lia|]. exists 0. reflexivity. }
    clear evs. induction evs as [|ev evs IH]; intros pre0 st H Hpre Ha.
    - intros pre cmd post st' E. apply Hpre with (post := post); [exact E|]. apply (f_equal (@length _)) in E. rewrite !app_length in E. cbn in E. lia.
    - cbn [programb] in H. apply andb_true_iff in H as [H1 H2].
      (* the command after [pre0] *)
      assert (Hdet : forall st', accepted O PE o pre0 st' -> st' = st).
      { intros st' [k1 A1]. destruct Ha as [k2 A2]. destruct (Nat.le_ge_cases k1 k2) as [L|L].
        - pose proof (seq_mono O k1 k2 L PE o (map Ok pre0) (pst_new o)) as Y. rewrite A1 in Y. rewrite Y in A2 by discriminate. congruence.
        - pose proof (seq_mono O k2 k1 L PE o (map Ok pre0) (pst_new o)) as Y. rewrite A2 in Y. rewrite Y in A1 by discriminate. congruence. }
      assert (Hnow : forall cmd st', ev = EvCommand cmd -> accepted O PE o pre0 st' -> P (er_gctx (ps_gc st')) /\
        forall st2 cmd', share cmd st' = (st2, Ok cmd') -> cmd_typed (ps_gc st') cmd' /\ cmd_args cmd').
      { intros cmd st' -> A'. rewrite (Hdet _ A'). apply andb_true_iff in H1 as [Hs Hc]. apply classb_ok in Hs. split; [exact Hs|].
        intros st2 cmd' E. rewrite E in Hc. cbn in Hc.
        assert (Hb : built (er_gctx (ps_gc st))).
        { apply (main_built P HP O PE jobs pre0); [|exact Ha]. intros pre c post s E'. apply (Hpre pre c (post ++ EvCommand cmd :: evs)).
          - rewrite E', <- app_assoc. reflexivity.
          - apply (f_equal (@length _)) in E'. rewrite app_length in E'. cbn in E'. lia. }
        destruct (built_terminating P HP _ Hb Hs) as [Hgc Hcr]. eapply cmd_okb_ok; eassumption. }
      destruct (seq n [Ok ev] st) as [[st1 rest] r] eqn:E.
      assert (Hr : r = Ok tt \/ r <> Fuel /\ r <> Ok tt) by (destruct r as [[]|e| |]; [left; reflexivity|right; split; discriminate|right; split; discriminate|discriminate]).
      destruct Hr as [->|[Hf Hne]].
      + replace (pre0 ++ ev :: evs) with ((pre0 ++ [ev]) ++ evs) by (rewrite <- app_assoc; reflexivity). apply (IH _ st1 H2).
        * intros pre cmd post st' E' Hl A'. rewrite app_length in Hl. cbn in Hl. rewrite <- app_assoc in E'. cbn in E'.
          destruct (Nat.eq_dec (length pre) (length pre0)) as [El|El]; [|apply (Hpre pre cmd post); [exact E'|lia|exact A']].
          assert (pre = pre0 /\ EvCommand cmd = ev) as [-> <-].
          { clear - E' El. revert pre0 E' El. induction pre as [|x pre IH]; intros [|y pre0]; cbn; intros E' El; try discriminate; [injection E' as -> _; auto|].
            injection E' as -> E'. destruct (IH _ E' ltac:(lia)) as [-> ->]. auto. }
          apply (Hnow _ _ eq_refl A').
        * destruct Ha as [k A]. exists (Nat.max k n).
          assert (Er : rest = []).
          { clear - E. cbn [infer_checks_seq] in E. destruct (consume_item PE o (Ok ev) st) as [s1 q]. destruct (filter_infer PE o q) as [[cmd|e| |]|]; try discriminate.
            - destruct (infer_check _ _ cmd (ps_gc s1)) as [gc [[]|e| |]]; try discriminate. congruence.
            - congruence. }
          subst rest. rewrite map_app. etransitivity; [apply (seq_app O PE false jobs (Nat.max k n) (map Ok pre0) (map Ok [ev]) (pst_new o) st)|].
          { etransitivity; [apply (seq_mono O k (Nat.max k n) ltac:(lia) PE o (map Ok pre0) (pst_new o)); fold o; rewrite A; discriminate|exact A]. }
          etransitivity; [apply (seq_mono O n (Nat.max k n) ltac:(lia) PE o [Ok ev] st); fold o; rewrite E; discriminate|exact E].
      + (* an error: nothing after it is accepted *)
        intros pre cmd post st' E' A'. destruct (Nat.lt_trichotomy (length pre) (length pre0)) as [L|[L|L]].
        * apply (Hpre pre cmd post st' E' L A').
        * assert (pre = pre0 /\ EvCommand cmd = ev) as [-> <-].
          { clear - E' L. revert pre0 E' L. induction pre as [|x pre IH]; intros [|y pre0]; cbn; intros E' El; try discriminate; [injection E' as -> _; auto|].
            injection E' as -> E'. destruct (IH _ E' ltac:(lia)) as [-> ->]. auto. }
          apply (Hnow _ _ eq_refl A').
        * exfalso. assert (exists more, pre = pre0 ++ ev :: more) as [more ->].
          { clear - E' L. revert pre0 E' L. induction pre as [|x pre IH]; intros [|y pre0]; cbn; intros E' El; try lia; injection E' as -> E'; [eauto|].
            destruct (IH _ E' ltac:(lia)) as [m ->]. eauto. }
          destruct A' as [k A']. destruct Ha as [k' A].
          set (m := Nat.max k (Nat.max k' n)). 
          assert (B : seq m (map Ok (pre0 ++ ev :: more)) (pst_new o) = (st', [], Ok tt)).
          { etransitivity; [apply (seq_mono O k m ltac:(lia) PE o _ (pst_new o)); fold o; rewrite A'; discriminate|exact A']. }
          assert (B0 : seq m (map Ok pre0) (pst_new o) = (st, [], Ok tt)).
          { etransitivity; [apply (seq_mono O k' m ltac:(lia) PE o _ (pst_new o)); fold o; rewrite A; discriminate|exact A]. }
          rewrite map_app in B. pose proof (seq_app O PE false jobs m _ (map Ok (ev :: more)) _ _ B0) as B2. fold o in B2. rewrite B2 in B. clear B2. cbn [map] in B. rewrite seq_cons in B.
          assert (B1 : seq m [Ok ev] st = (st1, rest, r)).
          { etransitivity; [apply (seq_mono O n m ltac:(lia) PE o [Ok ev] st); fold o; rewrite E; exact Hf|exact E]. }
          rewrite B1 in B. destruct rest, r as [[]|e| |]; try discriminate; congruence.
  Qed.
End Program.
Lemma main_programb O PE jobs uniq n evs : programb structuralb O PE jobs uniq n evs (pst_new (Opts false None jobs)) = true -> structural_program O PE (Opts false None jobs) evs.
Proof. exact (main_classb structural structural_class structuralb structuralb_ok O PE jobs uniq n evs). Qed.
