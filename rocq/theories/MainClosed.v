(** * Commands of programs contain only symbols and variables with types (C87) *)

From Verif Require Import Base LibMono ModelTerm ModelGctx ModelCommand ModelSubst ModelReduce ModelInfer ModelSyntax ModelSymbols ModelShare ModelLex ModelParse ModelMake ModelPath ModelProcess ModelMain
  SpecTerm SpecConv SpecTyping SpecQuery SpecSyntax SpecSymbols SpecShare SpecProcess SpecDecide SpecDef SpecMake SpecParse SpecProgram SpecWhole SpecFault SpecBlame
  SpecConvFacts Erase FaultFacts MainFault MainShare MainTyped MainProgram MainWhole MainBlame.

Section Closed.
  Variable sg : sig.
  Variable R : symb -> option nat.
  Hypothesis HR : forall s c, R s = Some c -> sg_type sg c <> None.

  Lemma closed_apps n ts : forall t, closed_in sg n (apps t ts) <-> closed_in sg n t /\ Forall (closed_in sg n) ts.
  Proof.
    induction ts as [|u ts IH]; intros t; cbn [apps fold_left]; [split; [intros; split; [assumption|constructor]|tauto]|].
    split; [intros H; apply IH in H as [[H1 H2] H3]; auto|intros [H1 H2]; inversion H2; subst; apply IH; split; [split; assumption|assumption]].
  Qed.
  Lemma index_below x e : forall i, index_of x e = Some i -> i < length e.
  Proof.
    induction e as [|[y|] e IH]; cbn; [discriminate| |]; intros i; [destruct (str_eqb y x); [intros [= <-]; lia|]|];
      (destruct (index_of x e) as [j|]; cbn; [|discriminate]; intros [= <-]; specialize (IH j eq_refl); lia).
  Qed.
  Lemma scope_closed t : forall e t', denotes R (scope_term e t) t' -> closed_in sg (length e) t'.
  Proof.
    induction t as [h args Hh Ha] using pterm_ind'. intros e t' H. cbn [scope_term] in H. inversion H as [h1 args1 t ts D1 F1]; subst. clear H. apply closed_apps. split.
    - destruct h as [s|x [ty|] tm|x ty tm]; cbn in Hh, D1.
      + unfold scope_of in D1. destruct (sy_path s).
        * destruct (index_of (sy_name s) e) as [i|] eqn:E; [inversion D1; subst; cbn; eapply index_below; exact E|].
          destruct (str_eqb (sy_name s) ($"Type")); inversion D1; subst; cbn; [exact I|eapply HR; eassumption].
        * inversion D1; subst. cbn. eapply HR; eassumption.
      + destruct Hh as [H1 H2]. inversion D1; subst. cbn. split; [apply H1; assumption|]. apply (H2 (Some x :: e)). assumption.
      + destruct Hh as [_ H2]. inversion D1; subst. cbn. apply (H2 (Some x :: e)). assumption.
      + destruct Hh as [H1 H2]. inversion D1; subst. cbn. split; [apply H1; assumption|]. apply (H2 (x :: e)). assumption.
    - clear D1. revert ts F1. induction Ha as [|a args Ha _ IH]; intros ts F1; inversion F1; subst; constructor; [apply Ha; assumption|apply IH; assumption].
  Qed.
  Lemma denotes_one h t' : denotes R (PTm h []) t' -> den_head R h t'.
  Proof. intros H. inversion H as [h1 args1 t ts D1 F1]; subst. inversion F1; subst. exact D1. Qed.
  Lemma nest_closed args : forall e args' e', scope_args e args = (args', e') ->
    (forall t t', denotes R (nest_prods args' (scope_term e' t)) t' -> closed_in sg (length e) t') /\
    (forall t t', denotes R (nest_absts args' (scope_term e' t)) t' -> closed_in sg (length e) t').
  Proof.
    induction args as [|[x ty] args IH]; intros e args' e'; cbn [scope_args].
    - intros [= <- <-]. split; intros t t'; apply scope_closed.
    - destruct (scope_args (Some x :: e) args) as [a1 e1] eqn:E. intros [= <- <-]. destruct (IH _ _ _ E) as [H1 H2].
      split; intros t t' H; cbn [nest_prods nest_absts] in H; apply denotes_one in H; inversion H; subst; cbn [closed_in]; (split; [eapply scope_closed; eassumption|]); [eapply H1|eapply H2]; eassumption.
  Qed.
  Lemma vars_length vars : forall e vars' e', scope_vars e vars = (vars', e') -> length e' = length vars' + length e.
  Proof.
    induction vars as [|[x ty] vars IH]; intros e vars' e'; cbn [scope_vars]; [intros [= <- <-]; reflexivity|].
    destruct (scope_vars (Some x :: e) vars) as [a1 e1] eqn:E. intros [= <- <-]. apply IH in E. cbn in *. lia.
  Qed.
  Lemma lhs_closed j p : forall t u, pat_denotes j p t -> joker_free p = true -> inst Var p u -> closed_in sg (S j) t -> closed_in sg j u.
  Proof.
    induction p as [c ps IH|m|] using pat_ind'; intros t u D F I C; cbn in F; try discriminate.
    - inversion D as [? ? ts D'| |]; subst. inversion I as [| |? ? us I']; subst. apply closed_apps in C as [C1 C2]. apply closed_apps. split; [exact C1|].
      clear D I C1. revert ts us D' I' C2 F. induction IH as [|p ps Hp _ IHps]; intros ts us D' I' C2 F; inversion D'; subst; inversion I'; subst; constructor;
        cbn in F; apply andb_true_iff in F as [F1 F2]; inversion C2; subst; [eapply Hp; eassumption|eapply IHps; eassumption].
    - inversion D; subst. inversion I; subst. cbn in *. lia.
  Qed.

  Lemma opt_closed (f : option (pterm atom)) t : elab_opt R f (Some t) -> exists u, f = Some u /\ denotes R u t.
  Proof. intros H. inversion H; subst. eauto. Qed.
  Lemma intro_closed c x args it it' e : scope_command c = PIntro x args it -> elab_intro R (nest args it) it' -> intro_fault sg it' e -> e <> KindNotTypable /\ e <> TypeNotFound.
  Proof.
    intros Ec El F. destruct c as [y args0 it0|rs]; cbn in Ec; [|discriminate]. destruct (scope_args [] args0) as [a1 e1] eqn:E. injection Ec as _ <- <-.
    destruct (nest_closed _ _ _ _ E) as [N1 N2]. cbn [length] in N1, N2.
    assert (In1 : forall t, closed_in sg 0 t -> inf_fault sg [] t e -> e <> KindNotTypable /\ e <> TypeNotFound) by (intros t Ht Hf; exact (proj1 (closed_faults sg) _ _ _ Hf Ht)).
    assert (Ch1 : forall t T, closed_in sg 0 t -> refused sg [] t T e -> e <> KindNotTypable /\ e <> TypeNotFound).
    { intros t T Ht [Hf|[_ ->]]; [exact (proj1 (proj2 (closed_faults sg)) _ _ _ _ Hf Ht)|split; discriminate]. }
    assert (No : forall A, closed_in sg 0 A -> no_type sg A e -> e <> KindNotTypable /\ e <> TypeNotFound).
    { intros A HA [Hf|(K & _ & _ & _ & ->)]; [eapply In1; eassumption|split; discriminate]. }
    destruct it0 as [ty tm|ty tm|inj ty]; cbn in El; inversion El; subst; clear El; cbn in F.
    - assert (HA1 : forall A, A' = Some A -> closed_in sg 0 A) by (intros A ->; destruct ty; cbn in *; match goal with H : elab_opt R _ (Some A) |- _ => inversion H; subst end; eapply N1; eassumption).
      assert (HT1 : forall t, t' = Some t -> closed_in sg 0 t) by (intros t0 ->; destruct tm; cbn in *; match goal with H : elab_opt R _ (Some t0) |- _ => inversion H; subst end; eapply N2; eassumption).
      destruct A' as [A|], t' as [t|].
      + destruct F as [F|(K & _ & F)]; [exact (In1 _ (HA1 _ eq_refl) F)|exact (Ch1 _ _ (HT1 _ eq_refl) F)].
      + exact (No _ (HA1 _ eq_refl) F).
      + destruct F as [F|[_ ->]]; [exact (In1 _ (HT1 _ eq_refl) F)|split; discriminate].
      + subst e. split; discriminate.
    - destruct F as [F|(K & _ & F)]; [refine (In1 _ _ F); eapply N1; eassumption|refine (Ch1 _ _ _ F); eapply N2; eassumption].
    - refine (No _ _ F). eapply N1. eassumption.
  Qed.
  Lemma rule_closed r r' e : elab_rule R (scope_rule r) r' -> rule_fault sg r' e -> e <> KindNotTypable /\ e <> TypeNotFound.
  Proof.
    unfold scope_rule. destruct (scope_vars [] (pr_ctx r)) as [vars ev] eqn:E. pose proof (vars_length _ _ _ _ E) as Hl. rewrite Nat.add_0_r in Hl.
    intros El (tys & lhs & F1 & F0 & F2 & F3). inversion El as [ctx ctx' lhs0 lhs' c ps rhs rhs' X1 X2 X3 X4]; subst. cbn in F1, F0, F2, F3.
    assert (Lt : length (rev tys) = length vars).
    { rewrite rev_length. assert (Y := f_equal (@length _) F1). assert (Z : length (map snd vars) = length ctx') by (clear - X1; induction X1; cbn; congruence). rewrite !map_length in *. congruence. }
    apply scope_closed in X2, X4. rewrite app_length, Hl in X2. cbn [length] in X2. rewrite Nat.add_1_r in X2. rewrite Hl in X4.
    pose proof (lhs_closed _ _ _ _ X3 F0 F2 X2) as Cl. rewrite <- Lt in Cl, X4.
    destruct F3 as [F3|[[_ ->]|(T & _ & [F3|[_ ->]])]]; [exact (proj1 (closed_faults sg) _ _ _ F3 Cl)|split; discriminate|exact (proj1 (proj2 (closed_faults sg)) _ _ _ _ F3 X4)|split; discriminate].
  Qed.
End Closed.

(** ** Symbols have types *)
Lemma verified_typed sg vs fin : verified_all sg vs fin -> sig_dom sg -> forall c it, In (VIntro c it) vs -> sg_type fin c <> None.
Proof.
  induction 1 as [sg|sg cmd sg' cmds fin Hv Hvs IH]; intros Hd c it; [intros []|]. destruct (verified_mono _ _ _ Hv Hd) as [_ Hd']. intros [->|Hin]; [|eapply IH; eassumption].
  pose proof (verified_all_mono _ _ _ Hvs Hd') as [M _]. assert (X : exists A, sg_type sg' c = Some A).
  { assert (Y : forall A rs, extends sg c A rs sg' -> exists A, sg_type sg' c = Some A) by (intros A rs (_ & T & _); exists A; rewrite T, Nat.eqb_refl; reflexivity).
    inversion Hv; subst; eapply Y; eassumption. }
  destruct X as [A X]. rewrite (M _ _ X). discriminate.
Qed.
Lemma inserts_in ops n cs vs ops' n' : elab_commands ops n cs vs ops' n' -> forall x c, In (Insert x c) (inserts n cs) -> exists it, In (VIntro c it) vs.
Proof.
  induction 1 as [|ops n k v ops1 n1 cs vs ops2 n2 H _ IH]; cbn [inserts]; [intros x c []|].
  destruct H as [k y args it it' R E _ _ _|k rules rules' R E _ _].
  - destruct k as [y' args' it0|rs]; cbn in E; [|discriminate]. cbn [inserts]. intros x c [[= _ <-]|Hin]; [eexists; left; reflexivity|].
    destruct (IH _ _ Hin) as [it1 X]. eexists. right. exact X.
  - destruct k as [y args' it0|rs]; cbn in E; [destruct (scope_args [] args'); discriminate|]. cbn [inserts]. intros x c Hin. destruct (IH _ _ Hin) as [it1 X]. eexists. right. exact X.
Qed.
Lemma history_in ops n srcs vs : elab_sources ops n srcs vs -> forall x c, In (Insert x c) (history n srcs) -> exists it, In (VIntro c it) vs.
Proof.
  induction 1 as [|ops n m cs vs ops1 n1 srcs vs' H _ IH]; cbn [history]; [intros x c []|]. intros x c [[=]|Hin]. apply in_app_or in Hin as [Hin|Hin].
  - destruct (inserts_in _ _ _ _ _ _ H _ _ Hin) as [it X]. exists it. apply in_or_app. auto.
  - destruct (elab_inserts _ _ _ _ _ _ H) as [_ En]. rewrite <- En in Hin. destruct (IH _ _ Hin) as [it X]. exists it. apply in_or_app. auto.
Qed.

Lemma reports_closed eta srcs e : reports eta srcs (PKo (KoTyping e)) -> e <> KindNotTypable /\ e <> TypeNotFound.
Proof.
  intros (b & e' & vs & sg & [= <-] & _ & He & Hv & Hf & _).
  assert (HR : forall R, meaning_in (history 0 (bl_earlier b)) R -> forall s c, R s = Some c -> sg_type sg c <> None).
  { intros R HR s c H. apply HR in H as (m & rest & _ & (pre & post & E & _) & _).
    destruct (history_in _ _ _ _ He (sy_name s) c) as [it Hin]; [rewrite E; apply in_or_app; right; left; reflexivity|].
    eapply verified_typed; [exact Hv| |exact Hin]. intros d X. exfalso. apply X. reflexivity. }
  inversion Hf as [| | | |v ops' n' ? El F]; subst. inversion El as [c x args it it' R E1 E2 E3 E4|c rules rules' R E1 E2 E3]; subst.
  - exact (intro_closed sg R (HR R E2) _ _ _ _ _ _ E1 E3 F).
  - destruct F as (r' & Hin & F). destruct (bl_cmd b) as [y args' it0|rs]; cbn in E1; [destruct (scope_args [] args'); discriminate|]. injection E1 as <-.
    assert (X : exists r, elab_rule R (scope_rule r) r').
    { clear - E3 Hin. remember (map scope_rule rs) as l eqn:El. revert rs El. induction E3; intros rs El; [destruct Hin|]. destruct rs as [|r rs]; [discriminate|]. injection El as -> ->.
      destruct Hin as [<-|Hin]; [eauto|eapply IHE3; eauto]. }
    destruct X as [r X]. exact (rule_closed sg R (HR R E2) _ _ _ X F).
Qed.

(** ** Definitions of programs have a type or a term *)
Lemma faults_defined sg :
  (forall G t e, inf_fault sg G t e -> e <> TypeAndTermEmpty) /\ (forall G t T e, chk_fault sg G t T e -> e <> TypeAndTermEmpty) /\ (forall G t T, chk_bad sg G t T -> True).
Proof.
  apply (fault_ind sg (fun G t e _ => e <> TypeAndTermEmpty) (fun G t T e _ => e <> TypeAndTermEmpty) (fun G t T _ => True)); intros; try exact I; try discriminate; try assumption.
Qed.
Lemma refused_defined sg G t T e : refused sg G t T e -> e <> TypeAndTermEmpty.
Proof. intros [H|[_ ->]]; [exact (proj1 (proj2 (faults_defined sg)) _ _ _ _ H)|discriminate]. Qed.
Lemma reports_defined eta srcs e : Forall (fun src => Forall nonempty (snd src)) srcs -> reports eta srcs (PKo (KoTyping e)) -> e <> TypeAndTermEmpty.
Proof.
  intros Hn (b & e' & vs & sg & [= <-] & -> & _ & _ & Hf & _).
  assert (Hb : nonempty (bl_cmd b)).
  { unfold bl_all in Hn. apply Forall_app in Hn as [_ Hn]. apply Forall_inv in Hn. cbn in Hn. apply Forall_app in Hn as [_ Hn]. exact (Forall_inv Hn). }
  pose proof (proj1 (faults_defined sg)) as In1. pose proof (refused_defined sg) as Ch1.
  inversion Hf as [| | | |v ops' n' ? El F]; subst. inversion El as [c x args it it' R E1 E2 E3 E4|c rules rules' R E1 E2 E3]; subst; cbn in F.
  - specialize (Hb _ _ _ E1). assert (X : it' <> IDefinition None None).
    { intros ->. destruct it as [[ty|] [tm|]|ty tm|inj ty]; cbn in E3; inversion E3; subst; try (match goal with H : elab_opt _ (Some _) None |- _ => inversion H end); apply Hb; reflexivity. }
    assert (No : forall A, no_type sg A e -> e <> TypeAndTermEmpty) by (intros A [H|(K & _ & _ & _ & ->)]; [eapply In1; exact H|discriminate]).
    destruct it' as [[A|] [t|]|A t|inj A]; cbn in F; [| | |destruct (X eq_refl)| |].
    + destruct F as [F|(K & _ & F)]; [exact (In1 _ _ _ F)|exact (Ch1 _ _ _ _ F)].
    + exact (No _ F).
    + destruct F as [F|[_ ->]]; [exact (In1 _ _ _ F)|discriminate].
    + destruct F as [F|(K & _ & F)]; [exact (In1 _ _ _ F)|exact (Ch1 _ _ _ _ F)].
    + exact (No _ F).
  - destruct F as (r & _ & tys & lhs & _ & _ & _ & [F|[[_ ->]|(T & _ & F)]]); [exact (In1 _ _ _ F)|discriminate|exact (Ch1 _ _ _ _ F)].
Qed.
Lemma main_program_errors junk O n eta inputs srcs e : Forall2 (source_of junk) inputs srcs ->
  kocheck junk (real_kernel O n) (Opts eta None false) false inputs (Err (PKo (KoTyping e))) -> e <> KindNotTypable /\ e <> TypeNotFound /\ e <> TypeAndTermEmpty.
Proof.
  intros Hs H. pose proof (main_blame _ _ _ _ _ _ _ Hs H) as X. destruct (reports_closed _ _ _ X). split; [assumption|]. split; [assumption|].
  eapply reports_defined; [exact (source_of_nonempty _ _ _ Hs)|exact X].
Qed.
Lemma main_web_errors junk O n eta modules srcs e : Forall2 (web_source junk) modules srcs ->
  web_check junk (real_kernel O n) (Opts eta None false) modules (Err (PKo (KoTyping e))) -> e <> KindNotTypable /\ e <> TypeNotFound /\ e <> TypeAndTermEmpty.
Proof.
  intros Hs H. pose proof (main_blame_web _ _ _ _ _ _ _ Hs H) as X. destruct (reports_closed _ _ _ X). split; [assumption|]. split; [assumption|].
  eapply reports_defined; [exact (web_source_nonempty _ _ _ Hs)|exact X].
Qed.
