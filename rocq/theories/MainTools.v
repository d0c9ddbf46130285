(** * Lemmas for C63: counting and inlining *)

From Coq Require Import Permutation.
From Verif Require ModelPath ModelProcess MainProcess MainRun MainVerify MainPath.
From Verif Require Import Base ModelTerm ModelCommand ModelSyntax ModelSymbols ModelShare ModelTools SpecTerm SpecSymbols SpecSyntax SpecShare SpecProcess SpecParse SpecMake SpecProgram SpecTools ModelLex ModelParse ModelMake ModelFmt ModelMain ParseAuto ParseLex ParseCmd ParseTerm ParsePrint ParseScope MainParse MainFmt MainShare MainReads MainLines MainMake MainProgram.

(** ** Counting *)
Lemma occ_app s l1 l2 : occurrences s (l1 ++ l2) = occurrences s l1 + occurrences s l2.
Proof. apply count_occ_app. Qed.
Definition add_uses (o : option nat) (n : nat) : option nat :=
  match o, n with
  | None, 0 => None
  | None, _ => Some n
  | Some k, _ => Some (k + n)
  end.
Lemma add_uses_app o m n : add_uses (add_uses o m) n = add_uses o (m + n).
Proof. destruct o as [k|], m as [|m], n as [|n]; cbn; try reflexivity; try (apply f_equal; lia). Qed.
Definition atom_consts (a : atom) : list symb := match a with AConst c => [c] | _ => [] end.
Lemma flat_map_ext' {A B} (f g : A -> list B) l : Forall (fun a => f a = g a) l -> flat_map f l = flat_map g l.
Proof. induction 1; cbn; congruence. Qed.
Lemma flat_map_flat_map {A B C} (f : A -> list B) (g : B -> list C) l : flat_map g (flat_map f l) = flat_map (fun a => flat_map g (f a)) l.
Proof. induction l; cbn; [reflexivity|]. rewrite flat_map_app. congruence. Qed.
Lemma atoms_consts t : flat_map atom_consts (atoms t) = consts t.
Proof.
  induction t as [h args Hh Ha] using pterm_ind'. cbn [atoms consts]. rewrite flat_map_app. f_equal.
  - destruct h as [a|x [ty|] tm|x ty tm]; cbn [apph_all head_consts] in *; rewrite ?flat_map_app; cbn.
    + destruct a; reflexivity.
    + destruct Hh as [-> ->]. reflexivity.
    + apply Hh.
    + destruct Hh as [-> ->]. reflexivity.
  - rewrite flat_map_flat_map. apply flat_map_ext'. exact Ha.
Qed.
Lemma count_atom_spec m a s : count_atom m a s = add_uses (m s) (occurrences s (atom_consts a)).
Proof.
  destruct a as [c|v|]; cbn [count_atom atom_consts]; [|destruct (m s); cbn; rewrite ?Nat.add_0_r; reflexivity|destruct (m s); cbn; rewrite ?Nat.add_0_r; reflexivity].
  unfold sm_set, occurrences. cbn [count_occ]. destruct (symb_eq_dec s c) as [->|N].
  - destruct (symb_eq_dec c c); [|contradiction]. destruct (m c); cbn; f_equal; lia.
  - destruct (symb_eq_dec c s); [congruence|]. destruct (m s); cbn; rewrite ?Nat.add_0_r; reflexivity.
Qed.
Lemma add_uses_0 o : add_uses o 0 = o.
Proof. destruct o; cbn; rewrite ?Nat.add_0_r; reflexivity. Qed.
Lemma count_atoms_spec l s : forall m, fold_left count_atom l m s = add_uses (m s) (occurrences s (flat_map atom_consts l)).
Proof.
  induction l as [|a l IH]; intros m; cbn [fold_left flat_map]; [symmetry; apply add_uses_0|].
  rewrite IH, count_atom_spec, add_uses_app, occ_app. reflexivity.
Qed.
Lemma count_term_spec m t s : count_term m t s = add_uses (m s) (occurrences s (consts t)).
Proof. unfold count_term. rewrite count_atoms_spec, atoms_consts. reflexivity. Qed.
Lemma count_opt_spec m t s : count_opt m t s = add_uses (m s) (occurrences s (opt_consts t)).
Proof. destruct t; cbn [count_opt opt_consts]; [apply count_term_spec|symmetry; apply add_uses_0]. Qed.
Lemma count_args_spec (args : list (str * pterm atom)) s : forall m, fold_left (fun m a => count_term m (snd a)) args m s = add_uses (m s) (occurrences s (flat_map (fun x => consts (snd x)) args)).
Proof.
  induction args as [|a l IH]; intros m; cbn [fold_left flat_map]; [symmetry; apply add_uses_0|].
  rewrite IH, count_term_spec, add_uses_app, occ_app. reflexivity.
Qed.
Lemma count_command_spec m cmd s : count_command m cmd s =
  match cmd with
  | PIntro x _ _ => add_uses (if symb_eq_dec s (symb_new x) then Some 0 else m s) (occurrences s (command_consts cmd))
  | PRules _ => m s
  end.
Proof.
  destruct cmd as [x args it|rs]; [|reflexivity]. cbn [command_consts]. rewrite occ_app, <- add_uses_app.
  change (if symb_eq_dec s (symb_new x) then Some 0 else m s) with (sm_set m (symb_new x) (Some 0) s). rewrite <- count_args_spec. cbn [count_command].
  destruct it as [ty tm|ty tm|inj ty]; cbn [intro_consts]; rewrite ?count_opt_spec, ?count_term_spec, ?add_uses_app, ?occ_app; reflexivity.
Qed.
Lemma intro_uses_app l1 l2 : intro_uses (l1 ++ l2) = intro_uses l1 ++ intro_uses l2.
Proof. apply flat_map_app. Qed.
Lemma count_from post s : (forall c, In c post -> forall x, s = symb_new x -> ~ introduces c x) -> forall m,
  fold_left count_command post m s = add_uses (m s) (occurrences s (intro_uses post)).
Proof.
  induction post as [|c post IH]; intros Hp m; cbn [fold_left]; [symmetry; apply add_uses_0|].
  rewrite IH by (intros c' Hc; apply Hp; right; exact Hc). rewrite count_command_spec. cbn [intro_uses flat_map].
  destruct c as [x args it|rs].
  - destruct (symb_eq_dec s (symb_new x)) as [E|_]; [destruct (Hp _ (or_introl eq_refl) x E); repeat eexists|].
    rewrite add_uses_app. f_equal. symmetry. apply occ_app.
  - reflexivity.
Qed.

Lemma main_count_introduced pre x args it post : (forall c, In c post -> ~ introduces c x) ->
  symcount (pre ++ PIntro x args it :: post) (symb_new x) = Some (occurrences (symb_new x) (intro_uses (PIntro x args it :: post))).
Proof.
  intros H. unfold symcount. rewrite fold_left_app. cbn [fold_left]. rewrite count_from.
  - rewrite count_command_spec. destruct (symb_eq_dec _ _) as [_|N]; [|contradiction]. rewrite add_uses_app. cbn [add_uses]. f_equal. symmetry. apply occ_app.
  - intros c Hc y [= <-]. apply H. exact Hc.
Qed.
Lemma main_count_other cmds s : (forall c x, In c cmds -> s = symb_new x -> ~ introduces c x) ->
  symcount cmds s = match occurrences s (intro_uses cmds) with 0 => None | n => Some n end.
Proof.
  intros H. unfold symcount. rewrite count_from; [|intros c Hc x E; exact (H c x Hc E)]. unfold sm_empty, add_uses. destruct (occurrences s (intro_uses cmds)); reflexivity.
Qed.

(** ** Counting in programs that elaborate *)
Lemma scope_introduces c x : introduces (scope_command c) x <-> introduces c x.
Proof.
  destruct c as [y args it|rs]; cbn [scope_command]; [|split; intros (? & ? & [=])]. destruct (scope_args [] args). split; intros (? & ? & [= -> _ _]); repeat eexists.
Qed.
Definition in_module (m : list str) (ops : list symop) : Prop := exists l, ops = SetPath m :: map (fun p => Insert (fst p) (snd p)) l.
Lemma in_module_cur l : forall cur, fold_left (fun cur o => match o with SetPath path => path | Insert _ _ => cur end) (map (fun p : str * sym => Insert (fst p) (snd p)) l) cur = cur.
Proof. induction l; intros cur; cbn; auto. Qed.
Lemma in_module_bound m ops x d : in_module m ops -> In (Insert x d) ops -> ~ unbound ops (cur_module ops) x.
Proof.
  intros [l ->] Hin Hu. destruct Hin as [Hin|Hin]; [discriminate|]. apply in_split in Hin as (l1 & l2 & E).
  assert (exists l', l1 = map (fun p : str * sym => Insert (fst p) (snd p)) l') as [l' ->].
  { apply map_eq_app in E as (l' & _ & _ & <- & _). eauto. }
  apply (Hu (SetPath m :: map (fun p => Insert (fst p) (snd p)) l') d l2); [cbn; congruence|].
  unfold cur_module. cbn. rewrite !in_module_cur. reflexivity.
Qed.
Lemma elab_uses ops n c v ops' n' : nonempty c -> elab_command ops n c v ops' n' ->
  match scope_command c with
  | PIntro _ _ _ => forall s, In s (command_consts (scope_command c)) -> exists d, resolves ops (sy_path s) (sy_name s) d
  | PRules _ => True
  end.
Proof.
  intros Hn H. inversion H as [? x args it it' R E M Hi _|? rules rules' R E M _]; subst; rewrite E; [|exact I]. intros s Hs.
  destruct (elab_share_intro (symhist ops) x args it it') as (r & Er & _); [apply (Hn _ _ _ E)|eapply elab_intro_ext; [|exact Hi]; intros s'; apply names_eq; exact M|].
  pose proof (proj1 (proj1 (main_share_intro (symhist ops) x args it)) (ex_intro _ _ Er)) as Hf. rewrite Forall_forall in Hf. specialize (Hf s Hs).
  destruct (resolve (symhist ops) s) as [d|] eqn:Ed; [|contradiction]. exists d. apply (names_resolve ops). exact Ed.
Qed.
Lemma elab_module m ops n c v ops' n' : in_module m ops -> elab_command ops n c v ops' n' -> in_module m ops' /\ incl ops ops' /\
  forall x, introduces c x -> (exists d, In (Insert x d) ops') /\ forall d, ~ In (Insert x d) ops.
Proof.
  intros Hm H. assert (Hm' := Hm). destruct Hm' as [l Hl]. inversion H as [? x args it it' R E M _ Hu|? rules rules' R E M _]; [subst ops'|clear Hl; subst].
  - split; [exists (l ++ [(x, n)]); subst ops; rewrite map_app; reflexivity|]. split; [intros o Ho; apply in_or_app; left; exact Ho|].
    intros y Hy. apply scope_introduces in Hy as (a & i & Hy). rewrite E in Hy. injection Hy as <- _ _. split; [exists n; apply in_or_app; right; left; reflexivity|].
    intros d Hd. exact (in_module_bound m ops x d Hm Hd Hu).
  - split; [exact Hm|]. split; [apply incl_refl|]. intros y Hy. apply scope_introduces in Hy as (a & i & Hy). rewrite E in Hy. discriminate.
Qed.
Lemma elab_no_intro m ops n cs vs ops' n' : in_module m ops -> elab_commands ops n cs vs ops' n' -> forall x d, In (Insert x d) ops -> forall c, In c cs -> ~ introduces c x.
Proof.
  intros Hm H. induction H as [|ops n c v ops1 n1 cs vs ops2 n2 H1 _ IH]; intros x d Hx c' Hc; [contradiction|].
  destruct (elab_module _ _ _ _ _ _ _ Hm H1) as (Hm1 & Hi & Hd). destruct Hc as [<-|Hc]; [|exact (IH Hm1 x d (Hi _ Hx) c' Hc)].
  intros Hin. apply (proj2 (Hd x Hin) d). exact Hx.
Qed.
Lemma elab_once m ops n cs vs ops' n' : Forall nonempty cs -> in_module m ops -> elab_commands ops n cs vs ops' n' ->
  forall pre c x post, cs = pre ++ c :: post -> introduces c x ->
  (forall c', In c' post -> ~ introduces c' x) /\ occurrences (symb_new x) (intro_uses (map scope_command pre)) = 0.
Proof.
  intros Hne Hm H. induction H as [|ops n c v ops1 n1 cs vs ops2 n2 H1 H2 IH]; intros pre c0 x post E Hx; [destruct pre; discriminate|].
  destruct (elab_module _ _ _ _ _ _ _ Hm H1) as (Hm1 & Hi & Hd). inversion Hne as [|? ? N1 N2]; subst.
  destruct pre as [|c1 pre]; injection E as -> ->.
  - split; [|reflexivity]. destruct (proj1 (Hd x Hx)) as [d Hin]. intros c' Hc. exact (elab_no_intro m ops1 n1 post vs ops2 n2 Hm1 H2 x d Hin c' Hc).
  - destruct (IH N2 Hm1 pre c0 x post eq_refl Hx) as [I1 I2]. split; [exact I1|]. cbn [map].
    change (intro_uses (scope_command c1 :: map scope_command pre)) with (match scope_command c1 with PIntro _ _ _ => command_consts (scope_command c1) | PRules _ => [] end ++ intro_uses (map scope_command pre)).
    rewrite occ_app, I2, Nat.add_0_r. pose proof (elab_uses _ _ _ _ _ _ N1 H1) as Hu. destruct (scope_command c1) as [y args it|rs] eqn:Ec; [|reflexivity].
    apply count_occ_not_In. intros Hin. destruct (Hu _ Hin) as (d & p & rest & _ & (q1 & q2 & E & _) & _). cbn in E.
    assert (Hin' : In (Insert x d) ops) by (rewrite E; apply in_elt).
    exact (elab_no_intro m ops n (c1 :: pre ++ c0 :: post) (v :: vs) ops2 n2 Hm (els_cons _ _ _ _ _ _ _ _ _ _ H1 H2) x d Hin' c0 (or_intror (in_elt _ _ _)) Hx).
Qed.
Theorem main_count_program m cs vs c x : Forall nonempty cs -> elaborates [(m, cs)] vs -> In c cs -> introduces c x ->
  symcount (map scope_command cs) (symb_new x) = Some (occurrences (symb_new x) (intro_uses (map scope_command cs))).
Proof.
  intros Hne H Hc Hx. inversion H as [|? ? ? ? ? ops1 n1 ? ? H1 H2]; subst. apply in_split in Hc as (pre & post & ->).
  destruct (elab_once m [SetPath m] 0 _ _ _ _ Hne ltac:(exists []; reflexivity) H1 pre c x post eq_refl Hx) as [I1 I2].
  assert (Hx' := Hx). apply scope_introduces in Hx' as (args & it & E). rewrite map_app. cbn [map]. rewrite E, main_count_introduced.
  - rewrite intro_uses_app, occ_app, I2. reflexivity.
  - intros c' Hc' Hi. apply in_map_iff in Hc' as (c0 & <- & Hc'). apply scope_introduces in Hi. exact (I1 c0 Hc' Hi).
Qed.

(** ** Inlining *)
Definition minv (m1 m2 : defs) (l : list symb) : Prop :=
  forall s, (m1 s = m2 s /\ (m1 s <> None -> occurrences s l <= 1)) \/ (m1 s = None /\ occurrences s l = 0).
Lemma minv_count m1 m2 l l' : (forall s, occurrences s l' <= occurrences s l) -> minv m1 m2 l -> minv m1 m2 l'.
Proof. intros H Hi s. specialize (H s). destruct (Hi s) as [[E N]|[E N]]; [left; split; [exact E|intros X; specialize (N X); lia]|right; split; [exact E|lia]]. Qed.

Definition go_args : defs -> list (pterm symb) -> list (pterm symb) * defs :=
  fix go (m : defs) (args : list (pterm symb)) : list (pterm symb) * defs :=
    match args with
    | [] => ([], m)
    | a :: args => let '(a, m) := subst m a in let '(args, m) := go m args in (a :: args, m)
    end.
Lemma subst_eq m h args : subst m (PTm h args) =
  let '(args, m) := go_args m args in
  match h with
  | HAtom a =>
    match m a with
    | None => (PTm (HAtom a) args, m)
    | Some (PTm h' args') => (PTm h' (args' ++ args), sm_set m a None)
    end
  | HAbst x None tm => let '(tm, m) := subst m tm in (PTm (HAbst x None tm) args, m)
  | HAbst x (Some ty) tm => let '(ty, m) := subst m ty in let '(tm, m) := subst m tm in (PTm (HAbst x (Some ty) tm) args, m)
  | HProd x ty tm => let '(ty, m) := subst m ty in let '(tm, m) := subst m tm in (PTm (HProd x ty tm) args, m)
  end.
Proof. reflexivity. Qed.

Definition expands (t : pterm symb) : Prop := forall m1 m2 rest, minv m1 m2 (leaves t ++ rest) ->
  expand m2 t (fst (subst m1 t)) /\ minv (snd (subst m1 t)) m2 rest.
Ltac occ := intros ?s; rewrite ?occ_app; unfold occurrences; lia.
Lemma go_expands args : Forall expands args -> forall m1 m2 rest, minv m1 m2 (flat_map leaves args ++ rest) ->
  Forall2 (expand m2) args (fst (go_args m1 args)) /\ minv (snd (go_args m1 args)) m2 rest.
Proof.
  induction 1 as [|a args Ha _ IH]; intros m1 m2 rest Hi; cbn [go_args flat_map] in *; [split; [constructor|exact Hi]|]. fold go_args.
  rewrite <- app_assoc in Hi. destruct (Ha m1 m2 _ Hi) as [E1 I1]. destruct (subst m1 a) as [a' m1']. cbn [fst snd] in *.
  destruct (IH m1' m2 rest I1) as [E2 I2]. destruct (go_args m1' args) as [args' m1'']. cbn [fst snd] in *. split; [constructor; assumption|exact I2].
Qed.
Lemma subst_expands t : expands t.
Proof.
  induction t as [h args Hh Ha] using pterm_ind'. intros m1 m2 rest Hi. rewrite subst_eq.
  pose (hl := match h with HAtom a => [a] | HAbst _ None t => leaves t | HAbst _ (Some ty) t | HProd _ ty t => leaves ty ++ leaves t end).
  change (leaves (PTm h args)) with (hl ++ flat_map leaves args) in Hi.
  destruct (go_expands args Ha m1 m2 (hl ++ rest)) as [E1 I1].
  { eapply minv_count; [|exact Hi]. occ. }
  destruct (go_args m1 args) as [args' m1']. cbn [fst snd] in *. clear Hi. subst hl.
  destruct h as [a|x [ty|] tm|x ty tm]; cbn [apph_all] in Hh.
  - destruct (I1 a) as [[Ea Na]|[Ea Na]].
    2:{ exfalso. revert Na. rewrite occ_app. unfold occurrences. cbn [count_occ]. destruct (symb_eq_dec a a); [lia|congruence]. }
    destruct (m1' a) as [[h l]|] eqn:E.
    + cbn [fst snd]. split; [apply ex_def; [congruence|exact E1]|]. intros s. unfold sm_set. destruct (symb_eq_dec s a) as [->|N].
      * right. split; [reflexivity|]. specialize (Na ltac:(discriminate)). revert Na. rewrite occ_app. unfold occurrences. cbn [count_occ]. destruct (symb_eq_dec a a); [lia|congruence].
      * assert (X : minv m1' m2 rest) by (eapply minv_count; [|exact I1]; occ). exact (X s).
    + cbn [fst snd]. split; [apply ex_symb; [congruence|exact E1]|]. eapply minv_count; [|exact I1]. occ.
  - destruct Hh as [Hty Htm]. rewrite <- app_assoc in I1. destruct (Hty _ _ _ I1) as [E2 I2]. destruct (subst m1' ty) as [ty' m2']. cbn [fst snd] in *.
    destruct (Htm _ _ _ I2) as [E3 I3]. destruct (subst m2' tm) as [tm' m3']. cbn [fst snd] in *. split; [constructor; assumption|exact I3].
  - destruct Hh as [_ Htm]. destruct (Htm m1' m2 rest I1) as [E3 I3]. destruct (subst m1' tm) as [tm' m3']. cbn [fst snd] in *. split; [constructor; assumption|exact I3].
  - destruct Hh as [Hty Htm]. rewrite <- app_assoc in I1. destruct (Hty _ _ _ I1) as [E2 I2]. destruct (subst m1' ty) as [ty' m2']. cbn [fst snd] in *.
    destruct (Htm _ _ _ I2) as [E3 I3]. destruct (subst m2' tm) as [tm' m3']. cbn [fst snd] in *. split; [constructor; assumption|exact I3].
Qed.
Lemma subst_opt_expands t m1 m2 rest : minv m1 m2 (opt_leaves t ++ rest) ->
  expand_opt m2 t (fst (subst_opt m1 t)) /\ minv (snd (subst_opt m1 t)) m2 rest.
Proof.
  destruct t as [t|]; cbn [subst_opt opt_leaves]; [|split; [constructor|exact H]]. intros H. destruct (subst_expands t _ _ _ H) as [E I].
  destruct (subst m1 t). cbn [fst snd] in *. split; [constructor; exact E|exact I].
Qed.
Lemma subst_args_expands args : forall m1 m2 rest, minv m1 m2 (flat_map (fun a => leaves (snd a)) args ++ rest) ->
  Forall2 (expand_arg m2) args (fst (subst_args m1 args)) /\ minv (snd (subst_args m1 args)) m2 rest.
Proof.
  induction args as [|[x t] args IH]; intros m1 m2 rest Hi; cbn [subst_args flat_map snd] in *; [split; [constructor|exact Hi]|].
  rewrite <- app_assoc in Hi. destruct (subst_expands t m1 m2 _ Hi) as [E1 I1]. destruct (subst m1 t) as [a' m1']. cbn [fst snd] in *.
  destruct (IH m1' m2 rest I1) as [E2 I2]. destruct (subst_args m1' args) as [args' m1'']. cbn [fst snd] in *. split; [constructor; [split; [reflexivity|exact E1]|exact E2]|exact I2].
Qed.
Lemma subst_intro_expands it m1 m2 rest : minv m1 m2 (intro_leaves it ++ rest) ->
  expand_intro m2 it (fst (subst_intro m1 it)) /\ minv (snd (subst_intro m1 it)) m2 rest.
Proof.
  destruct it as [ty tm|ty tm|inj ty]; cbn [intro_leaves subst_intro]; rewrite <- ?app_assoc; intros Hi.
  - destruct (subst_opt_expands _ _ _ _ Hi) as [E1 I1]. destruct (subst_opt m1 ty) as [ty' m1']. cbn [fst snd] in *.
    destruct (subst_opt_expands _ _ _ _ I1) as [E2 I2]. destruct (subst_opt m1' tm) as [tm' m2']. cbn [fst snd] in *. split; [constructor; assumption|exact I2].
  - destruct (subst_expands _ _ _ _ Hi) as [E1 I1]. destruct (subst m1 ty) as [ty' m1']. cbn [fst snd] in *.
    destruct (subst_expands _ _ _ _ I1) as [E2 I2]. destruct (subst m1' tm) as [tm' m2']. cbn [fst snd] in *. split; [constructor; assumption|exact I2].
  - destruct (subst_expands _ _ _ _ Hi) as [E1 I1]. destruct (subst m1 ty) as [ty' m1']. cbn [fst snd] in *. split; [constructor; assumption|exact I1].
Qed.
Lemma body_defines x args it t : body args it = Some t <-> defines x (PIntro x args it) t.
Proof.
  split.
  - destruct args as [|a args]; destruct it as [ty [tm|]|ty tm|inj ty]; cbn; try discriminate; intros [= <-]; constructor.
  - intros H. inversion H; subst; reflexivity.
Qed.
Lemma at_most_once_cons listed c cmds : at_most_once listed (c :: cmds) -> at_most_once listed cmds.
Proof. intros H pre c' x t post ->. apply (H (c :: pre) c' x t post). reflexivity. Qed.
Lemma inline_inlined listed cmds : at_most_once listed cmds -> forall m1 m2, minv m1 m2 (flat_map cmd_leaves cmds) ->
  inlined listed m2 cmds (inline_ listed m1 cmds).
Proof.
  induction cmds as [|c cmds IH]; intros Ho m1 m2 Hi; cbn [inline_ flat_map] in *; [constructor|].
  pose proof (at_most_once_cons _ _ _ Ho) as Ho'. destruct c as [x args it|rs]; cbn [inline_command]; [|constructor; apply IH; assumption].
  destruct (if listed x then body args it else None) as [t|] eqn:Eb.
  - destruct (listed x) eqn:Ex; [|discriminate]. apply (body_defines x) in Eb as Hd.
    destruct (subst_expands t m1 m2 (flat_map cmd_leaves cmds)) as [E I].
    { eapply minv_count; [|exact Hi]. intros s. inversion Hd; subst; cbn [cmd_leaves intro_leaves flat_map opt_leaves app]; rewrite ?occ_app; lia. }
    destruct (subst m1 t) as [t' m1']. cbn [fst snd app] in *. eapply il_remove; [exact Ex|exact Hd|exact E|]. apply IH; [exact Ho'|].
    intros s. unfold sm_set. destruct (symb_eq_dec s (symb_new x)) as [->|N]; [|apply I].
    left. split; [reflexivity|]. intros _. exact (Ho [] _ x t cmds eq_refl Ex Hd).
  - cbn [cmd_leaves] in Hi. rewrite <- app_assoc in Hi.
    destruct (subst_args_expands args m1 m2 _ Hi) as [E1 I1]. destruct (subst_args m1 args) as [args' m1']. cbn [fst snd] in *.
    rewrite <- ?app_assoc in I1. destruct (subst_intro_expands it m1' m2 _ I1) as [E2 I2]. destruct (subst_intro m1' it) as [it' m2']. cbn [fst snd app] in *.
    apply il_keep; [|exact E1|exact E2|apply IH; assumption]. intros t Hl Hd. rewrite Hl in Eb. apply body_defines in Hd. congruence.
Qed.
Theorem main_inline listed cmds : at_most_once listed cmds -> inlined listed sm_empty cmds (inline listed cmds).
Proof. intros H. apply inline_inlined; [exact H|]. intros s. left. split; [reflexivity|]. intros N. destruct N. reflexivity. Qed.

(** ** Both *)
Lemma index_of_none x e : ~ In (Some x) e -> SpecSyntax.index_of x e = None.
Proof.
  induction e as [|[y|] e IH]; cbn; intros H; [reflexivity| |].
  - destruct (str_eqb y x) eqn:E; [apply str_eqb_eq in E; subst; destruct H; left; reflexivity|]. rewrite IH; [reflexivity|tauto].
  - rewrite IH; [reflexivity|]. intros H'. apply H. right. exact H'.
Qed.
Definition consts_of (o : option (pterm atom)) : list symb := opt_consts o.
Section Free.
  Variable x : str.
  Hypothesis Hx : x <> $"Type".
  Notation s := (symb_new x).
  Lemma scope_occ t : forall e, ~ In (Some x) e -> ~ In x (bound_names t) -> occurrences s (consts (scope_term e t)) = occurrences s (leaves t).
  Proof.
    induction t as [h args Hh Ha] using pterm_ind'. intros e He Hb. cbn [scope_term consts leaves bound_names] in *.
    rewrite in_app_iff in Hb. rewrite !occ_app. f_equal.
    - clear Ha. destruct h as [a|y [ty|] tm|[y|] ty tm]; cbn [apph_all head_consts option_map] in *; rewrite ?occ_app.
      + unfold scope_of. destruct a as [path name]; cbn [sy_path sy_name]. destruct path as [|p path]; [|reflexivity].
        destruct (str_eq_dec name x) as [->|N].
        * rewrite (index_of_none x e He). destruct (str_eqb x ($"Type")) eqn:E; [apply str_eqb_eq in E; contradiction|reflexivity].
        * assert (occurrences s [Symb [] name] = 0) as ->.
          { unfold occurrences. cbn [count_occ]. destruct (symb_eq_dec _ _) as [E|]; [|reflexivity]. injection E as ->. contradiction. }
          destruct (SpecSyntax.index_of name e); [reflexivity|]. destruct (str_eqb name ($"Type")); [reflexivity|].
          unfold occurrences. cbn [count_occ]. destruct (symb_eq_dec _ _) as [E|]; [|reflexivity]. injection E as ->. contradiction.
      + destruct Hh as [H1 H2]. rewrite H1, H2; [reflexivity| | |exact He|]; cbn in Hb |- *; rewrite ?in_app_iff in *; [|tauto|tauto]. intros [[= ->]|H]; tauto.
      + destruct Hh as [_ H2]. rewrite H2; [reflexivity| |]; cbn in Hb |- *; rewrite ?in_app_iff in *; [|tauto]. intros [[= ->]|H]; tauto.
      + destruct Hh as [H1 H2]. rewrite H1, H2; [reflexivity| | |exact He|]; cbn in Hb |- *; rewrite ?in_app_iff in *; [|tauto|tauto]. intros [[= ->]|H]; tauto.
      + destruct Hh as [H1 H2]. rewrite H1, H2; [reflexivity| | |exact He|]; cbn in Hb |- *; rewrite ?in_app_iff in *; [|tauto|tauto]. intros [[=]|H]; tauto.
    - assert (Hb' : ~ In x (flat_map bound_names args)) by tauto. clear Hb Hh. induction Ha as [|a args Ha _ IH]; cbn [map flat_map] in *; [reflexivity|].
      rewrite in_app_iff in Hb'. rewrite !occ_app, Ha, IH by tauto. reflexivity.
  Qed.
  Lemma scope_opt_occ o e : ~ In (Some x) e -> ~ In x (opt_bound o) -> occurrences s (opt_consts (option_map (scope_term e) o)) = occurrences s (opt_leaves o).
  Proof. destruct o; cbn; [apply scope_occ|reflexivity]. Qed.
  Lemma scope_args_occ args : forall e, ~ In (Some x) e -> ~ In x (map fst args) -> ~ In x (flat_map (fun a => bound_names (snd a)) args) ->
    occurrences s (flat_map (fun a => consts (snd a)) (fst (scope_args e args))) = occurrences s (flat_map (fun a => leaves (snd a)) args) /\
    ~ In (Some x) (snd (scope_args e args)).
  Proof.
    induction args as [|[y t] args IH]; intros e He H1 H2; cbn [scope_args flat_map map fst snd In] in *; [auto|]. rewrite in_app_iff in H2.
    destruct (IH (Some y :: e)) as [I1 I2]; [intros [[= ->]|H]; tauto|tauto|tauto|]. destruct (scope_args (Some y :: e) args) as [args' e']. cbn [fst snd flat_map] in *.
    split; [|exact I2]. rewrite !occ_app, I1, scope_occ by tauto. reflexivity.
  Qed.
  Lemma scope_command_occ y args it : ~ In x (cmd_bound (PIntro y args it)) ->
    occurrences s (command_consts (scope_command (PIntro y args it))) = occurrences s (cmd_leaves (PIntro y args it)).
  Proof.
    cbn [cmd_bound scope_command cmd_leaves]. rewrite !in_app_iff. intros Hb.
    destruct (scope_args_occ args [] (fun H => H) ltac:(tauto) ltac:(tauto)) as [E He]. destruct (scope_args [] args) as [args' e]. cbn [fst snd] in *.
    cbn [command_consts]. rewrite !occ_app, E. f_equal. destruct it as [ty tm|ty tm|inj ty]; cbn [scope_intro intro_consts intro_leaves] in *; rewrite ?occ_app, ?in_app_iff in *.
    - rewrite !scope_opt_occ by tauto. reflexivity.
    - rewrite !scope_occ by tauto. reflexivity.
    - rewrite !scope_occ by tauto. reflexivity.
  Qed.
  Lemma scope_commands_occ cmds : (forall c, In c cmds -> ~ In x (cmd_bound c)) ->
    occurrences s (intro_uses (map scope_command cmds)) = occurrences s (flat_map cmd_leaves cmds).
  Proof.
    induction cmds as [|c cmds IH]; intros H; [reflexivity|]. cbn [map flat_map].
    change (intro_uses (scope_command c :: map scope_command cmds)) with (match scope_command c with PIntro _ _ _ => command_consts (scope_command c) | PRules _ => [] end ++ intro_uses (map scope_command cmds)).
    rewrite !occ_app, IH by (intros c' Hc; apply H; right; exact Hc). f_equal. destruct c as [y args it|rs]; [|reflexivity].
    rewrite <- scope_command_occ by (apply H; left; reflexivity). cbn [scope_command]. destruct (scope_args [] args). reflexivity.
  Qed.
End Free.
Theorem main_pipeline cmds : (forall c x, In c cmds -> introduces c x -> x <> $"Type") ->
  (forall pre c x post, cmds = pre ++ c :: post -> introduces c x -> forall c', In c' post -> ~ introduces c' x /\ ~ In x (cmd_bound c')) ->
  at_most_once (used_once (symcount (map scope_command cmds))) cmds.
Proof.
  intros Ht Hu pre c x t post -> Hl Hd. unfold used_once in Hl. rewrite map_app in Hl. cbn [map] in Hl.
  assert (Hi : introduces c x) by (inversion Hd; subst; repeat eexists). assert (Hi' := proj2 (scope_introduces c x) Hi). destruct Hi' as (args & it & E). rewrite E in Hl.
  rewrite main_count_introduced in Hl.
  - destruct (occurrences (symb_new x) (intro_uses (PIntro x args it :: map scope_command post))) as [|[|n]] eqn:En; try discriminate.
    rewrite <- (scope_commands_occ x (Ht c x (in_elt _ _ _) Hi)); [|intros c' Hc; apply (Hu pre c x post eq_refl Hi c' Hc)].
    change (intro_uses (PIntro x args it :: map scope_command post)) with (command_consts (PIntro x args it) ++ intro_uses (map scope_command post)) in En. rewrite occ_app in En. lia.
  - intros c' Hc Hc'. apply in_map_iff in Hc as (c0 & <- & Hc). apply scope_introduces in Hc'. destruct (Hu pre c x post eq_refl Hi c0 Hc) as [H _]. exact (H Hc').
Qed.

(** ** Texts *)
Lemma unwrapped_outcome {S I E} (next : S -> res E (option I) * S) s l : unwrapped next s l <-> outcome next s l None.
Proof.
  split.
  - intros H. induction H; [apply outcome_end; assumption|eapply outcome_ok; eassumption].
  - intros H. remember (@None E) as r eqn:Er. induction H; [apply uw_end; assumption|discriminate|eapply uw_cons; eauto].
Qed.
Lemma symcount_file_source junk text counts : symcount_file junk text counts <->
  exists toks cs, read_as junk text toks /\ gsource toks cs /\ counts = symcount (map scope_command cs).
Proof.
  unfold symcount_file. split.
  - intros (cmds & H & ->). apply unwrapped_outcome, results_outcome in H. apply (parse_text_source junk text) in H as (toks & cs & H1 & H2 & ->). eauto 6.
  - intros (toks & cs & H1 & H2 & ->). exists (map scope_command cs). split; [|reflexivity].
    apply unwrapped_outcome, results_outcome. apply (parse_text_source junk text). eauto 6.
Qed.
Lemma inline_file_source junk listed text out : inline_file junk listed text out <->
  exists cs, gfile (lex junk text) cs /\ out = inline_text (inline listed cs).
Proof.
  unfold inline_file. split; intros (cs & H & ->); exists cs; (split; [|reflexivity]).
  - apply main_grammar_file; [apply lex_no_comment0|]. apply outcome_yields. apply unwrapped_outcome. exact H.
  - apply main_grammar_file in H; [|apply lex_no_comment0]. apply unwrapped_outcome, outcome_yields. exact H.
Qed.
(** the printed file *)
Definition good_map (m : defs) : Prop := forall a t, m a = Some t -> good_term t.
Lemma subst_good t : forall m, good_map m -> good_term t -> good_term (fst (subst m t)) /\ good_map (snd (subst m t)).
Proof.
  induction t as [h args Hh Ha] using pterm_ind'. intros m Hm [Gh Ga]. apply good_all in Ga.
  assert (Hargs : forall m, good_map m -> let r := (fix go (m : defs) (args : list (pterm symb)) : list (pterm symb) * defs :=
    match args with
    | [] => ([], m)
    | a :: args => let '(a, m) := subst m a in let '(args, m) := go m args in (a :: args, m)
    end) m args in Forall good_term (fst r) /\ good_map (snd r)).
  { clear Hh Gh m Hm. induction Ha as [|a args Ha _ IH]; intros m Hm; [split; [constructor|exact Hm]|]. inversion Ga as [|? ? G1 G2]; subst.
    destruct (Ha m Hm G1) as [I1 I2]. destruct (subst m a) as [a' m1]. cbn [fst snd] in I1, I2. destruct (IH G2 m1 I2) as [J1 J2].
    destruct ((fix go (m : defs) (args : list (pterm symb)) : list (pterm symb) * defs := match args with [] => ([], m) | a :: args => let '(a, m) := subst m a in let '(args, m) := go m args in (a :: args, m) end) m1 args) as [args' m2]. cbn [fst snd] in *. split; [constructor; assumption|assumption]. }
  specialize (Hargs m Hm). cbn zeta in Hargs. cbn [subst].
  destruct ((fix go (m : defs) (args : list (pterm symb)) : list (pterm symb) * defs := match args with [] => ([], m) | a :: args => let '(a, m) := subst m a in let '(args, m) := go m args in (a :: args, m) end) m args) as [args' m1].
  cbn [fst snd] in Hargs. destruct Hargs as [Ga' Hm1].
  destruct h as [a|x [ty|] tm|x ty tm]; cbn in Hh.
  - destruct (m1 a) as [[h' l]|] eqn:Em; cbn [fst snd].
    + destruct (Hm1 _ _ Em) as [G1 G2]. apply good_all in G2. split; [split; [exact G1|apply good_all; apply Forall_app; auto]|].
      intros b t Hb. unfold sm_set in Hb. destruct (symb_eq_dec b a); [discriminate|]. exact (Hm1 b t Hb).
    + split; [split; [exact Gh|apply good_all; exact Ga']|exact Hm1].
  - destruct Hh as [H1 H2]. destruct Gh as (G1 & G2 & G3). destruct (H1 m1 Hm1 G2) as [I1 I2]. destruct (subst m1 ty) as [ty' m2]. cbn [fst snd] in I1, I2.
    destruct (H2 m2 I2 G3) as [J1 J2]. destruct (subst m2 tm) as [tm' m3]. cbn [fst snd] in *. split; [split; [auto|apply good_all; exact Ga']|exact J2].
  - destruct Hh as [_ H2]. destruct Gh as (G1 & _ & G3).
    destruct (H2 m1 Hm1 G3) as [J1 J2]. destruct (subst m1 tm) as [tm' m3]. cbn [fst snd] in *. split; [split; [auto|apply good_all; exact Ga']|exact J2].
  - destruct Hh as [H1 H2]. destruct Gh as (G1 & G2 & G3). destruct (H1 m1 Hm1 G2) as [I1 I2]. destruct (subst m1 ty) as [ty' m2]. cbn [fst snd] in I1, I2.
    destruct (H2 m2 I2 G3) as [J1 J2]. destruct (subst m2 tm) as [tm' m3]. cbn [fst snd] in *. split; [split; [auto|apply good_all; exact Ga']|exact J2].
Qed.
Lemma subst_opt_good t m : good_map m -> good_opt t -> good_opt (fst (subst_opt m t)) /\ good_map (snd (subst_opt m t)) /\ (t <> None -> fst (subst_opt m t) <> None).
Proof.
  intros Hm. destruct t as [t|]; cbn; [|auto]. intros G. destruct (subst_good t m Hm G) as [H1 H2]. destruct (subst m t) as [t' m']. cbn in *. repeat split; auto. discriminate.
Qed.
Lemma subst_args_good args : forall m, good_map m -> Forall good_arg args -> Forall good_arg (fst (subst_args m args)) /\ good_map (snd (subst_args m args)).
Proof.
  induction args as [|[x t] args IH]; intros m Hm G; [split; [constructor|exact Hm]|]. inversion G as [|? ? [G1 G2] G3]; subst. cbn [subst_args].
  cbn [fst snd] in G1, G2. destruct (subst_good t m Hm G2) as [H1 H2]. destruct (subst m t) as [t' m1]. cbn [fst snd] in H1, H2.
  destruct (IH m1 H2 G3) as [I1 I2]. destruct (subst_args m1 args) as [args' m2]. cbn [fst snd] in *. split; [constructor; [split; assumption|assumption]|assumption].
Qed.
Lemma inline_command_good listed m c : good_map m -> good_command c ->
  (forall c', fst (inline_command listed m c) = Some c' -> good_command c') /\ good_map (snd (inline_command listed m c)).
Proof.
  intros Hm G. destruct c as [x args it|rs]; cbn [inline_command]; [|split; [intros c' [= <-]; exact G|exact Hm]]. destruct G as (G1 & G2 & G3).
  destruct (if listed x then body args it else None) as [tm|] eqn:E.
  - assert (G4 : good_term tm).
    { destruct (listed x); [|discriminate]. destruct args; [|discriminate]. destruct it as [ty [t|]|ty t|inj ty]; try discriminate; injection E as ->; cbn in G3; tauto. }
    destruct (subst_good tm m Hm G4) as [H1 H2]. destruct (subst m tm) as [tm' m1]. cbn [fst snd] in *. split; [discriminate|].
    intros b t Hb. unfold sm_set in Hb. destruct (symb_eq_dec b (symb_new x)); [injection Hb as <-; exact H1|exact (H2 b t Hb)].
  - destruct (subst_args_good args m Hm G2) as [H1 H2]. destruct (subst_args m args) as [args' m1]. cbn [fst snd] in H1, H2.
    assert (Hi : good_intro (fst (subst_intro m1 it)) /\ good_map (snd (subst_intro m1 it))).
    { clear - G3 H2. destruct it as [ty t|ty t|inj ty]; cbn [subst_intro good_intro] in *.
      - destruct G3 as (A1 & A2 & A3). destruct (subst_opt_good ty m1 H2 A1) as (B1 & B2 & B3). destruct (subst_opt m1 ty) as [ty' m2]. cbn [fst snd] in *.
        destruct (subst_opt_good t m2 B2 A2) as (C1 & C2 & C3). destruct (subst_opt m2 t) as [t' m3]. cbn [fst snd good_intro] in *. repeat split; auto. destruct A3; auto.
      - destruct G3 as (A1 & A2). destruct (subst_good ty m1 H2 A1) as (B1 & B2). destruct (subst m1 ty) as [ty' m2]. cbn [fst snd] in *.
        destruct (subst_good t m2 B2 A2) as (C1 & C2). destruct (subst m2 t) as [t' m3]. cbn [fst snd good_intro] in *. auto.
      - destruct (subst_good ty m1 H2 G3) as (B1 & B2). destruct (subst m1 ty) as [ty' m2]. cbn [fst snd good_intro] in *. auto. }
    destruct (subst_intro m1 it) as [it' m2]. cbn [fst snd] in *. destruct Hi as [I1 I2]. split; [|exact I2]. intros c' [= <-]. cbn. auto.
Qed.
Lemma inline_good listed cmds : forall m, good_map m -> Forall good_command cmds -> Forall good_command (inline_ listed m cmds).
Proof.
  induction cmds as [|c cmds IH]; intros m Hm G; [constructor|]. inversion G as [|? ? G1 G2]; subst. cbn [inline_].
  destruct (inline_command_good listed m c Hm G1) as [H1 H2]. destruct (inline_command listed m c) as [[c'|] m1]; cbn [fst snd app] in *; [constructor; auto|]; apply IH; assumption.
Qed.
Theorem main_inline_file junk listed text out : inline_file junk listed text out ->
  exists cs cs', gfile (lex junk text) cs /\ gfile (lex junk out) cs' /\ (at_most_once listed cs -> inlined listed sm_empty cs cs').
Proof.
  intros H. apply inline_file_source in H as (cs & Hg & ->). exists cs, (inline listed cs). split; [exact Hg|]. split; [|apply main_inline].
  apply (lex_cmds junk). apply inline_good; [intros a t; discriminate|]. eapply good_gfile; [exact Hg|]. apply lexed_oks. apply lex_lexed.
Qed.
Theorem main_count_file junk path text m cs vs : source_of junk (path, Some text) (m, cs) -> elaborates [(m, cs)] vs ->
  exists counts, (forall counts', symcount_file junk text counts' <-> counts' = counts) /\
  forall c x, In c cs -> introduces c x -> counts (symb_new x) = Some (occurrences (symb_new x) (intro_uses (map scope_command cs))).
Proof.
  intros (text' & toks & [= <-] & _ & Hr & Hg) He. exists (symcount (map scope_command cs)). split.
  - intros counts'. rewrite symcount_file_source. split; [|intros ->; eauto 6]. intros (toks' & cs' & Hr' & Hg' & ->). f_equal.
    assert (H1 : parse_text junk text (map Ok (map scope_command cs))) by (apply parse_text_source; eauto 6).
    assert (H2 : parse_text junk text (map Ok (map scope_command cs'))) by (apply parse_text_source; eauto 6).
    pose proof (results_det _ _ _ H1 _ H2) as E. revert E. clear. generalize (map scope_command cs) as l, (map scope_command cs') as l'.
    induction l as [|a l IH]; intros [|a' l'] E; try discriminate; [reflexivity|]. injection E as -> E. f_equal. exact (IH _ E).
  - intros c x Hc Hx. apply (main_count_program m cs vs c x); auto. eapply gsource_nonempty. exact Hg.
Qed.
Lemma unix_id text : ~ In CR text -> unix text = text.
Proof.
  induction text as [|c s IH]; intros Hr; [reflexivity|]. destruct s as [|d s]; [reflexivity|].
  rewrite unix_step, IH; [reflexivity| |].
  - intros Hi. apply Hr. right. exact Hi.
  - destruct (Ascii.eqb_spec c "013") as [->|]; [|reflexivity]. exfalso. apply Hr. left. reflexivity.
Qed.
Lemma inlined_ext listed listed' m cs out : inlined listed m cs out -> (forall c x, In c cs -> introduces c x -> listed x = listed' x) -> inlined listed' m cs out.
Proof.
  intros H. induction H as [m|m x c t t' cs out Hl Hd He _ IH|m x args args' it it' cs out Hl Ha Hi _ IH|m rs cs out _ IH]; intros Hx.
  - constructor.
  - eapply il_remove; [|exact Hd|exact He|].
    + rewrite <- (Hx c x); [exact Hl|left; reflexivity|]. inversion Hd; subst; repeat eexists.
    + apply IH. intros c' y Hc. apply Hx. right. exact Hc.
  - apply il_keep; auto.
    + intros t. rewrite <- (Hx _ x (or_introl eq_refl)); [apply Hl|repeat eexists].
    + apply IH. intros c' y Hc. apply Hx. right. exact Hc.
  - apply il_rules. apply IH. intros c' y Hc. apply Hx. right. exact Hc.
Qed.
Theorem main_pipeline_file junk text out m cs vs : ~ In CR text -> line_wise (lex junk text) -> gfile (lex junk text) cs -> elaborates [(m, cs)] vs ->
  (forall c x, In c cs -> introduces c x -> x <> $"Type" /\ forall c', In c' cs -> ~ In x (cmd_bound c')) ->
  pipeline junk text out ->
  exists cs', gfile (lex junk out) cs' /\ inlined (fun x => Nat.eqb (occurrences (symb_new x) (intro_uses (map scope_command cs))) 1) sm_empty cs cs'.
Proof.
  intros Hr Hw Hg He Hb (counts & Hc & Hi). apply symcount_file_source in Hc as (toks & cs0 & (lines & Hs & Hy) & Hg0 & ->).
  rewrite (unix_id text Hr) in Hs. apply (main_reads junk _ _ _ Hs Hw) in Hy. subst toks.
  assert (cs0 = cs) as -> by (eapply gsource_det; [apply lex_comment_last_|exact Hg0|apply gfile_gsource; exact Hg]).
  assert (Hne : Forall nonempty cs) by (eapply gsource_nonempty; exact Hg0).
  apply inline_file_source in Hi as (cs1 & Hg1 & ->).
  assert (cs1 = cs) as -> by (eapply gsource_det; [apply lex_comment_last_|apply gfile_gsource; exact Hg1|apply gfile_gsource; exact Hg]).
  exists (inline (used_once (symcount (map scope_command cs))) cs). split.
  - apply (lex_cmds junk). apply inline_good; [intros a t; discriminate|]. eapply good_gfile; [exact Hg|]. apply lexed_oks. apply lex_lexed.
  - eapply inlined_ext; [apply main_inline, main_pipeline|].
    + intros c x H1 H2. apply (Hb c x H1 H2).
    + intros pre c x post E Hx c' Hc'. split.
      * inversion He as [|? ? ? ? ? ops1 n1 ? ? H1 H2]; subst cs.
        destruct (elab_once m [SetPath m] 0 _ _ _ _ Hne ltac:(exists []; reflexivity) H1 pre c x post eq_refl Hx) as [I1 _]. exact (I1 c' Hc').
      * destruct (Hb c x) as [_ H2]; [subst cs; apply in_elt|exact Hx|]. apply H2. subst cs. apply in_or_app. right. right. exact Hc'.
    + intros c x H1 H2. unfold used_once. rewrite (main_count_program m cs vs c x Hne He H1 H2).
      destruct (occurrences _ _) as [|[|]]; reflexivity.
Qed.
Lemma accepted_elaborates junk O n path text m cs : ~ In CR text -> line_wise (lex junk text) -> gfile (lex junk text) cs -> ModelPath.module_path path = Some m ->
  kocheck junk (ModelProcess.real_kernel O n) (ModelProcess.Opts false None false) false [(path, Some text)] (Ok tt) -> exists vs, elaborates [(m, cs)] vs.
Proof.
  intros Hr Hw Hg Hp H. apply main_kocheck_sound in H as (srcs & vs & sg & Hs & He & _). exists vs.
  destruct srcs as [|[m0 cs0] [|s2 srcs]]; [inversion Hs| |inversion Hs as [|? ? ? ? _ Hs']; inversion Hs'].
  assert (Hs1 : source_of junk (path, Some text) (m0, cs0)) by (inversion Hs; assumption).
  destruct Hs1 as (text' & toks & E & Hm & (lines & Hx & Hy) & Hg0). cbn [fst snd] in *. injection E as <-.
  apply MainPath.main_module_path in Hm. assert (E := eq_trans (eq_sym Hp) Hm). injection E as <-.
  rewrite (unix_id text Hr) in Hx. apply (main_reads junk _ _ _ Hx Hw) in Hy. subst toks.
  assert (cs0 = cs) as -> by (eapply gsource_det; [apply lex_comment_last_|exact Hg0|apply gfile_gsource; exact Hg]). exact He.
Qed.
