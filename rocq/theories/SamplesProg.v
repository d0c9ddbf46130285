(** * A sample program whose contexts are all normalising, and one on which concurrent processing gets stuck *)

From Verif Require Import Base LibMono ModelTerm ModelGctx ModelCommand ModelSubst ModelReduce ModelInfer ModelSyntax ModelSymbols ModelShare ModelProcess
  SpecTerm SpecConv SpecConvFacts SpecRed SpecSN SpecType SpecQuery SpecDomain SpecTotal RedConfl EtaConfl Erase RedCheck RedEnum ModelMono MainConv MainTerm MainTyped
  TypeFacts DomFacts SnVec MainTotal MainProgTotal Samples SamplesConv SamplesTerm SamplesProcess SamplesTyped SamplesTotal.

(** ** Processing with different amounts of fuel *)
Lemma run_mono {A} (q : nat -> M A) : (forall n m, n <= m -> le_m (q n) (q m)) -> forall n m, n <= m ->
  ModelInfer.run (q n) <> Fuel -> ModelInfer.run (q m) = ModelInfer.run (q n).
Proof.
  intros H n m Hn Hf. unfold ModelInfer.run in *. destruct (H n m Hn (MSt [] 0)) as [E|E]; rewrite E in *; [now contradict Hf|reflexivity].
Qed.
Section Fuel.
  Variable O : query -> nat -> bool.
  Variables n m : nat.
  Hypothesis Hnm : n <= m.
  Notation K := (real_kernel O n).
  Notation K' := (real_kernel O m).
  Lemma k_intro_mono gc it : k_intro K gc it <> Fuel -> k_intro K' gc it = k_intro K gc it.
  Proof. apply (run_mono (fun n => kintro _ gc n it)); [intros; apply kintro_mono; assumption|exact Hnm]. Qed.
  Lemma k_rewrite_mono gc r : k_rewrite K gc r <> Fuel -> k_rewrite K' gc r = k_rewrite K gc r.
  Proof. apply (run_mono (fun n => rewrite _ gc n r)); [intros; apply rewrite_mono; assumption|exact Hnm]. Qed.
  Lemma k_check_mono gc c : k_check K gc c <> Fuel -> k_check K' gc c = k_check K gc c.
  Proof. apply (run_mono (fun n => check_check _ gc n c)); [intros; apply check_check_mono; assumption|exact Hnm]. Qed.

  Lemma infer_with_mono F f f' cmd gc (s : F) : (forall chk gc s, snd (f chk gc s) <> Fuel -> f' chk gc s = f chk gc s) ->
    snd (infer_with K F f cmd gc s) <> Fuel -> infer_with K' F f' cmd gc s = infer_with K F f cmd gc s.
  Proof.
    intros Hf. destruct cmd as [c it|rs]; cbn [infer_with].
    - intros H. rewrite k_intro_mono by (intros E; rewrite E in H; apply H; reflexivity).
      destruct (k_intro K gc it) as [[ty [chk|]]|e| |]; cbn [ko_typing res_err] in *; try reflexivity.
      rewrite Hf; [reflexivity|]. intros E. destruct (f chk gc s) as [s' r]. cbn in E. subst r. apply H. reflexivity.
    - assert (X : forall s, snd (rewrites K F f rs gc s) <> Fuel -> rewrites K' F f' rs gc s = rewrites K F f rs gc s).
      { clear s. induction rs as [|r rs IH]; intros s; cbn [rewrites]; [reflexivity|]. destruct (rule_try r) as [r'|e| |]; try apply IH.
        intros H. rewrite k_rewrite_mono by (intros E; rewrite E in H; apply H; reflexivity).
        destruct (k_rewrite K gc r') as [chk|e| |]; cbn [ko_typing res_err] in *; try reflexivity.
        rewrite Hf by (intros E; destruct (f chk gc s) as [s' q]; cbn in E; subst q; apply H; reflexivity).
        destruct (f chk gc s) as [s' [[]|e| |]]; try reflexivity. apply IH. exact H. }
      intros H. rewrite X; [reflexivity|]. intros E. destruct (rewrites K F f rs gc s) as [s' r]. cbn in E. subst r. apply H. reflexivity.
  Qed.
  Lemma infer_check_mono o cmd gc : snd (infer_check K o cmd gc) <> Fuel -> infer_check K' o cmd gc = infer_check K o cmd gc.
  Proof.
    intros H. unfold infer_check in *. rewrite (infer_with_mono unit (fun chk gc s => (s, if omits o StCheck then Ok tt else ko_typing (k_check K gc chk)))); [reflexivity| |].
    - intros chk gc' s. destruct (omits o StCheck); [reflexivity|]. intros Hf. rewrite k_check_mono; [reflexivity|].
      intros E. apply Hf. cbn [snd]. rewrite E. reflexivity.
    - intros E. apply H. destruct (infer_with _ _ _ _ _ _) as [[gc' s] r]. exact E.
  Qed.
  Lemma seq_mono PE o evs : forall st, snd (infer_checks_seq PE K o _ (consume_item PE o) evs st) <> Fuel ->
    infer_checks_seq PE K' o _ (consume_item PE o) evs st = infer_checks_seq PE K o _ (consume_item PE o) evs st.
  Proof.
    induction evs as [|ev evs IH]; intros st; cbn [infer_checks_seq]; [reflexivity|].
    destruct (consume_item PE o ev st) as [st1 r]. destruct (filter_infer PE o r) as [[cmd|e| |]|]; try reflexivity; [|apply IH].
    intros H. rewrite infer_check_mono by (intros E; destruct (infer_check K o cmd (ps_gc st1)) as [gc r']; cbn in E; subst r'; apply H; reflexivity).
    destruct (infer_check K o cmd (ps_gc st1)) as [gc [[]|e| |]]; try reflexivity. apply IH. exact H.
  Qed.
  Lemma pull_mono PE o ev st : snd (pull PE K o _ (consume_item PE o) ev st) <> Stuck PE ->
    pull PE K' o _ (consume_item PE o) ev st = pull PE K o _ (consume_item PE o) ev st.
  Proof.
    unfold pull. destruct (consume_item PE o ev st) as [st1 r]. destruct (filter_infer PE o r) as [[cmd|e| |]|]; try reflexivity.
    intros H. unfold infer in *. rewrite (infer_with_mono _ (fun chk _ s => (s ++ [chk], Ok tt))); [reflexivity|reflexivity|].
    intros E. apply H. destruct (infer_with _ _ _ _ _ _) as [[gc' s] q]. cbn in E. subst q. reflexivity.
  Qed.
End Fuel.

(** ** Prefixes of a program *)
Lemma accepted_det O PE o evs st st' : accepted O PE o evs st ->
  infer_checks_seq PE (real_kernel O fuel) o _ (consume_item PE o) (map Ok evs) (pst_new o) = (st', [], Ok tt) -> st = st'.
Proof.
  intros [n H] H'. destruct (Nat.le_ge_cases n fuel) as [L|L].
  - pose proof (seq_mono O n fuel L PE o (map Ok evs) (pst_new o)) as X. rewrite H in X. rewrite X in H' by discriminate. congruence.
  - pose proof (seq_mono O fuel n L PE o (map Ok evs) (pst_new o)) as X. rewrite H' in X. rewrite X in H by discriminate. congruence.
Qed.
Fixpoint splits {A} (l : list A) : list (list A * A) :=
  match l with [] => [] | x :: l => ([], x) :: map (fun '(p, y) => (x :: p, y)) (splits l) end.
Lemma splits_all {A} (pre : list A) x post : In (pre, x) (splits (pre ++ x :: post)).
Proof. induction pre as [|y pre IH]; cbn; [tauto|]. right. apply in_map_iff. exists (pre, x). split; [reflexivity|exact IH]. Qed.

(** ** Numbers, addition, vectors, and a theorem *)
Definition vec_tys : list (nat * tm) :=
  [(0, Typ); (1, Const 0); (2, Pi (Const 0) (Const 0)); (3, Pi (Const 0) (Pi (Const 0) (Const 0))); (4, Pi (Const 0) Typ);
   (5, App (Const 4) (Const 1));
   (6, Pi (Const 0) (Pi (Const 0) (Pi (App (Const 4) (Var 1)) (App (Const 4) (App (Const 2) (Var 2))))));
   (7, App (Const 4) (App (App (Const 3) (App (Const 2) (Const 1))) (Const 1)))].
Definition vec_rls : list srule :=
  [MkSRule 1 [PatSymb 1 []; PatVar 0] (Var 0);
   MkSRule 2 [PatSymb 2 [PatVar 1]; PatVar 0] (App (Const 2) (App (App (Const 3) (Var 1)) (Var 0)))].
Lemma vec_sub_sn gc : g_eta gc = false -> orthogonal (er_gctx gc) ->
  Forall (fun '(c, A) => In (c, erl A) vec_tys) (g_types gc) -> Forall (fun '(c, r) => c = 3 /\ In r vec_rls) (gctx_rules gc) ->
  normalising (er_gctx gc).
Proof.
  intros He Ho Ht Hr. pose proof (types_in gc (fun c A => In (c, A) vec_tys) Ht) as Ht'. pose proof (rules_in gc (fun c r => c = 3 /\ In r vec_rls) Hr) as Hr'.
  clear Ht Hr. pose proof (orthogonal_church_rosser _ Ho He) as Hcr. pose proof (orthogonal_pi _ Ho He) as Hpi.
  assert (Hrs : forall c rs r s ts, sg_rules (er_gctx gc) c = Some rs -> In r rs -> usable r -> Forall2 (inst s) (sr_args r) ts ->
    c = 3 /\ ((exists v, ts = [Const 1; v] /\ sub s (strip (sr_rhs r)) = v) \/
              (exists u v, ts = [App (Const 2) u; v] /\ sub s (strip (sr_rhs r)) = App (Const 2) (App (App (Const 3) u) v)))).
  { intros c rs r s ts Hrs Hin _ Hi. destruct (Hr' _ _ _ Hrs Hin) as [-> Hin']. clear Hrs Hin.
    split; [reflexivity|]. destruct Hin' as [<-|[<-|[]]]; cbn in Hi.
    + left. inversion Hi as [|? t1 ? ts1 P1 P2]; subst. inversion P2 as [|? t2 ? ts2 P3 P4]; subst. inversion P4; subst.
      inversion P1; subst. match goal with H : Forall2 _ [] _ |- _ => inversion H; subst end. inversion P3; subst. eexists. split; reflexivity.
    + right. inversion Hi as [|? t1 ? ts1 P1 P2]; subst. inversion P2 as [|? t2 ? ts2 P3 P4]; subst. inversion P4; subst.
      inversion P1; subst. match goal with H : Forall2 _ [_] _ |- _ => inversion H as [|? u1 ? us1 Q1 Q2]; subst end. inversion Q2; subst. inversion Q1; subst. inversion P3; subst.
      eexists _, _. split; reflexivity. }
  apply vec_normalising; [exact Hcr|exact Hpi|exact Hrs|].
  intros c A H. apply Ht' in H. cbn in H. repeat (destruct H as [[= <- <-]|H]); [..|contradiction]; cbn [strip].
  - exists star. split; [apply isty_shape; constructor|]. apply RED_nat; try assumption.
  - exists o. split; [apply isty_shape; constructor|]. apply RED_inactive; try assumption; [discriminate|exact I].
  - exists (arr o o). split; [apply isty_shape; repeat constructor|]. apply RED_inactive; try assumption; [discriminate|repeat constructor].
  - exists (arr o (arr o o)). split; [apply isty_shape; repeat constructor|]. apply RED_plus; assumption.
  - exists (arr o star). split; [apply isty_shape; repeat constructor|]. apply RED_vec; assumption.
  - exists o. split; [apply isty_shape; constructor|]. apply RED_inactive; try assumption; [discriminate|exact I].
  - exists (arr o (arr o (arr o o))). split; [apply isty_shape; repeat constructor|]. apply RED_inactive; try assumption; [discriminate|repeat constructor].
  - exists o. split; [apply isty_shape; constructor|]. apply RED_inactive; try assumption; [discriminate|exact I].
Qed.

Definition p_vec (n : pterm atom) : pterm atom := p_app (local ($"vec")) [n].
Definition p_succ (n : pterm atom) : pterm atom := p_app (local ($"succ")) [n].
Definition p_plus (n m : pterm atom) : pterm atom := p_app (local ($"plus")) [n; m].
Definition p_zero : pterm atom := local ($"zero").
Definition p_pi (x : str) (t u : pterm atom) : pterm atom := PTm (HProd (Some x) t u) [].
(** the commands on numbers of SamplesProcess.v, then
    [vec : Nat -> Type. nil : vec zero. cons : n : Nat -> Nat -> vec n -> vec (succ n).
     thm one : vec (plus (succ zero) zero) := cons (plus zero zero) zero nil.] *)
Definition vec_events : list event :=
  EvModule [$"vec"] :: map EvCommand (nat_commands ++
    [ PIntro ($"vec") [] (IDeclaration false (p_arr pNAT p_type));
      PIntro ($"nil") [] (IDeclaration false (p_vec p_zero));
      PIntro ($"cons") [] (IDeclaration false (p_pi ($"n") pNAT (p_arr pNAT (p_arr (p_vec (p_var 1)) (p_vec (p_succ (p_var 2)))))));
      PIntro ($"one") [] (ITheorem (p_vec (p_plus (p_succ p_zero) p_zero)) (p_app (local ($"cons")) [p_plus p_zero p_zero; p_zero; local ($"nil")])) ]).
(** [def bad := one zero.], which has no type *)
Definition bad_events : list event :=
  vec_events ++ [EvCommand (PIntro ($"bad") [] (IDefinition None (Some (p_app (local ($"one")) [p_zero]))))].
Definition prog_opts : opts := Opts false None false.
Definition prog_seq evs := infer_checks_seq unit (real_kernel (fun _ => sometimes) fuel) prog_opts _ (consume_item unit prog_opts) (map Ok evs) (pst_new prog_opts).
Lemma vec_prefix pre cmd st0 : 
  infer_checks_seq unit (real_kernel (fun _ => sometimes) fuel) prog_opts _ (consume_item unit prog_opts) (map Ok pre) (pst_new prog_opts) = (st0, [], Ok tt) ->
  (g_eta (ps_gc st0) = false /\ orthogonal (er_gctx (ps_gc st0))) /\ left_linear (er_gctx (ps_gc st0)) /\
  Forall (fun '(c, A) => In (c, erl A) vec_tys) (g_types (ps_gc st0)) /\ Forall (fun '(c, r) => c = 3 /\ In r vec_rls) (gctx_rules (ps_gc st0)) /\
  (forall st' cmd', share cmd st0 = (st', Ok cmd') -> cmd_typed (ps_gc st0) cmd') ->
  forall st, accepted (fun _ => sometimes) unit prog_opts pre st ->
    eta_safe (er_gctx (ps_gc st)) /\ left_linear (er_gctx (ps_gc st)) /\ church_rosser (er_gctx (ps_gc st)) /\ normalising (er_gctx (ps_gc st)) /\
    forall st' cmd', share cmd st = (st', Ok cmd') -> cmd_typed (ps_gc st) cmd'.
Proof.
  intros H0 ([He Ho] & Hl & Ht & Hr & Hc) st H. rewrite (accepted_det _ _ _ _ _ _ H H0). split; [apply eta_off_safe; exact He|]. split; [exact Hl|].
  split; [apply orthogonal_church_rosser; assumption|]. split; [apply vec_sub_sn; assumption|exact Hc].
Qed.
Lemma const_type gc G c : get_type gc c = Some LType -> well_typed (er_gctx gc) G (Const c) Typ.
Proof. intros H. apply (wt_const _ G c Typ). cbn. rewrite H. reflexivity. Qed.
Ltac vec_step :=
  cbn beta iota;
  lazymatch goal with |- forall st, accepted _ _ _ ?pre st -> _ =>
    let r := eval vm_compute in (prog_seq pre) in
    lazymatch r with (?st0, _, _) =>
      apply (vec_prefix pre _ st0); [vm_compute; reflexivity|];
      split; [split; [reflexivity|apply gctx_orthogonal; vm_compute; reflexivity]|];
      split; [apply gctx_left_linear; vm_compute; reflexivity|];
      split; [repeat (constructor; [vm_compute; tauto|]); constructor|];
      split; [vm_compute; repeat constructor; tauto|];
      let st' := fresh in let cmd' := fresh in let H := fresh in
      intros st' cmd' H; vm_compute in H; injection H as _ <-;
      first [exact I|cbn [cmd_typed]; repeat (apply Forall_cons; [cbn; repeat constructor; apply const_type; reflexivity|]); apply Forall_nil]
    end
  end.
Lemma bad_ok : program_ok (fun _ => sometimes) unit prog_opts bad_events.
Proof.
  intros pre cmd post st H.
  assert (X : Forall (fun '(pre, ev) => match ev with EvCommand cmd => forall st, accepted (fun _ => sometimes) unit prog_opts pre st ->
    eta_safe (er_gctx (ps_gc st)) /\ left_linear (er_gctx (ps_gc st)) /\ church_rosser (er_gctx (ps_gc st)) /\ normalising (er_gctx (ps_gc st)) /\
    forall st' cmd', share cmd st = (st', Ok cmd') -> cmd_typed (ps_gc st) cmd' | _ => True end) (splits bad_events)).
  { let l := eval vm_compute in (splits bad_events) in change (splits bad_events) with l.
    repeat (constructor; [first [exact I|vec_step]|]). constructor. }
  rewrite Forall_forall in X. exact (X _ (eq_ind_r (fun evs => In (pre, EvCommand cmd) (splits evs)) (splits_all pre (EvCommand cmd) post) H) st).
Qed.
Lemma vec_ok : program_ok (fun _ => sometimes) unit prog_opts vec_events.
Proof.
  intros pre cmd post st H. eapply bad_ok. unfold bad_events. rewrite H, <- app_assoc. reflexivity.
Qed.

(** ** Concurrent processing that gets stuck where sequential processing reports an error *)

(** [A : Type. def F : A -> Type. c : A. p : F c. [x : A] F x --> F x. thm bad : A := A. def q := p c.] *)
Definition spin_prefix : list event :=
  EvModule [$"spin"] :: map EvCommand
    [ PIntro ($"A") [] (IDeclaration false p_type);
      PIntro ($"F") [] (IDefinition (Some (p_arr (local ($"A")) p_type)) None);
      PIntro ($"c") [] (IDeclaration false (local ($"A")));
      PIntro ($"p") [] (IDeclaration false (p_app (local ($"F")) [local ($"c")]));
      PRules [MkPRule [($"x", Some (local ($"A")))] (p_app (local ($"F")) [p_var 0]) (p_app (local ($"F")) [p_var 0])];
      PIntro ($"bad") [] (ITheorem (local ($"A")) (local ($"A"))) ].
Definition spin_q : event := EvCommand (PIntro ($"q") [] (IDefinition None (Some (p_app (local ($"p")) [local ($"c")])))).
Definition spin_events : list event := spin_prefix ++ [spin_q].
Definition par_opts : opts := Opts false None true.

Fixpoint pull_all (K : kernel) (evs : list (res (perr unit) event)) (st : pst) (ts : list checks) : option (pst * list checks) :=
  match evs with
  | [] => Some (st, ts)
  | ev :: evs =>
    match pull unit K par_opts _ (consume_item unit par_opts) ev st with
    | (st, Nothing _) => pull_all K evs st ts
    | (st, Task _ t) => pull_all K evs st (ts ++ [t])
    | _ => None
    end
  end.
Lemma pull_all_steps K evs more : forall st ts st' ts', pull_all K evs st ts = Some (st', ts') ->
  par_steps unit K par_opts _ (consume_item unit par_opts) (Par unit _ (evs ++ more) st ts []) (Par unit _ more st' ts' []).
Proof.
  induction evs as [|ev evs IH]; cbn [pull_all app]; intros st ts st' ts'.
  - intros [= <- <-]. constructor.
  - destruct (pull _ _ _ _ _ ev st) as [st1 [|t|e|]] eqn:E; try discriminate; intros H.
    + eapply steps_step; [apply step_pull_nothing; exact E|apply IH; exact H].
    + eapply steps_step; [apply step_pull_task; exact E|apply IH; exact H].
Qed.
Lemma pull_all_mono O n m evs : n <= m -> forall st ts r, pull_all (real_kernel O n) evs st ts = Some r -> pull_all (real_kernel O m) evs st ts = Some r.
Proof.
  intros L. induction evs as [|ev evs IH]; cbn [pull_all]; intros st ts r; [tauto|].
  intros H. rewrite (pull_mono O n m L) by (intros E; destruct (pull _ _ _ _ _ ev st) as [st1 p]; cbn in E; subst p; discriminate).
  destruct (pull _ _ _ _ _ ev st) as [st1 [|t|e|]]; try discriminate; apply IH; exact H.
Qed.

Definition spin_state := match pull_all (real_kernel (fun _ => sometimes) fuel) (map Ok spin_prefix) (pst_new par_opts) [] with Some r => r | None => (pst_new par_opts, []) end.

Lemma spin_intro_fuel O n : k_intro (real_kernel O n) (ps_gc (fst spin_state)) spin_it = Fuel.
Proof.
  set (gc := ps_gc (fst spin_state)). 
  change (k_intro (real_kernel O n) gc spin_it) with (ModelInfer.run (kintro (O (QIntro gc spin_it)) gc n spin_it)).
  generalize (O (QIntro gc spin_it)). intros uniq.
  assert (H : ModelInfer.infer uniq gc n [] (sterm_of_lterm (lapp (LConst 3) [LConst 2])) (MSt [] 0) = Fuel).
  { let g := eval vm_compute in (ps_gc (fst spin_state)) in change gc with g. destruct n as [|[|k]]; [reflexivity|reflexivity|].
    lazymatch goal with |- ModelInfer.infer _ ?g _ _ _ _ = _ => set (gc' := g) end.
    pose proof (loop_whnf_fuel uniq gc' 1 (S k) (sterm_of_lterm (lapp (LConst 1) [LConst 2])) (Const 2) eq_refl eq_refl) as W.
    unfold ModelInfer.run in W.
    change (ModelInfer.infer uniq gc' (S (S k)) [] (sterm_of_lterm (lapp (LConst 3) [LConst 2])) (MSt [] 0))
      with (bind (whnf uniq gc' (S k) (sterm_of_lterm (lapp (LConst 1) [LConst 2])))
        (fun ty => bind (ok_or (get_prod ty) ProductExpected) (fun '(_, a, b) =>
          bind (ModelInfer.check uniq gc' (S k) [] (SConst 2) a) (fun ok => if ok : bool then bind (subst uniq b (SConst 2)) (fun b => ret b) else fail Unconvertible))) (MSt [] 0)).
    unfold bind at 1. destruct (whnf uniq gc' (S k) (sterm_of_lterm (lapp (LConst 1) [LConst 2])) (MSt [] 0)) as [[? ?]| | |]; try discriminate. reflexivity. }
  unfold spin_it. cbn [kintro define]. unfold ModelInfer.run, bind at 1. rewrite H. reflexivity.
Qed.

Lemma spin_parallel : exists O evs n0,
  (forall n, n0 <= n -> snd (infer_checks_seq unit (real_kernel O n) (Opts false None false) _ (consume_item unit (Opts false None false)) (map Ok evs) (pst_new (Opts false None false)))
     = Err (PKo (KoTyping Unconvertible))) /\
  forall n, n0 <= n -> exists p it rest,
    par_steps unit (real_kernel O n) (Opts false None true) _ (consume_item unit (Opts false None true))
      (Par unit _ (map Ok evs) (pst_new (Opts false None true)) [] []) p /\
    p_errs _ _ p = [] /\ p_items _ _ p = it :: rest /\
    snd (pull unit (real_kernel O n) (Opts false None true) _ (consume_item unit (Opts false None true)) it (p_st _ _ p)) = Stuck unit.
Proof.
  exists (fun _ => sometimes), spin_events, fuel. split; intros n Hn.
  - rewrite (seq_mono (fun _ => sometimes) fuel n Hn); [|vm_compute; discriminate]. vm_compute. reflexivity.
  - exists (Par unit _ [Ok spin_q] (fst spin_state) (snd spin_state) []), (Ok spin_q), []. split; [|split; [reflexivity|split; [reflexivity|]]].
    + unfold spin_events. rewrite map_app. apply pull_all_steps. apply (pull_all_mono _ fuel n); [exact Hn|]. vm_compute. reflexivity.
    + cbn [p_st]. pose proof (spin_intro_fuel (fun _ => sometimes) n) as H. unfold pull.
      let r := eval vm_compute in (consume_item unit (Opts false None true) (Ok spin_q) (fst spin_state)) in
        change (consume_item unit (Opts false None true) (Ok spin_q) (fst spin_state)) with r.
      let r := eval vm_compute in (ps_gc (fst spin_state)) in change (ps_gc (fst spin_state)) with r in H.
      cbv beta iota zeta. unfold filter_infer. cbn [omits o_omit]. unfold infer, infer_with. cbn [ps_gc].
      match type of H with k_intro _ ?g ?i = _ => 
      match goal with |- context [k_intro ?K ?g' ?i'] => change (k_intro K g' i') with (k_intro K g i) end end.
      rewrite H. reflexivity.
Qed.
