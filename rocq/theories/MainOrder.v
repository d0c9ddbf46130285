(** * Lemmas for C83: the order of introductions *)

From Verif Require Import Base LibMono ModelTerm ModelGctx ModelCommand ModelSubst ModelReduce ModelInfer ModelSyntax ModelSymbols ModelShare ModelLex ModelParse ModelMake ModelProcess ModelMain
  SpecTerm SpecConv SpecQuery SpecSyntax SpecSymbols SpecShare SpecProcess SpecDecide SpecMake SpecParse SpecProgram SpecWhole SpecEmbed SpecOrder
  Erase RefMap MainKernel MainGctx MainProcess MainRun MainVerify MainDecide MainProgram MainWhole MainAlpha MainAlphaProg MainEmbed MainEmbedProg RefMachine SpecConvFacts.

(** ** Changes of symbols *)
Definition comp (g f : nat -> nat) (e : nat) : nat := g (f e).
Lemma cm_comp g f t : cm g (cm f t) = cm (comp g f) t.
Proof. induction t; cbn; f_equal; auto. Qed.
Lemma cm_pat_comp g f p : cm_pat g (cm_pat f p) = cm_pat (comp g f) p.
Proof. induction p as [c ps IH|m|] using pat_ind'; cbn; try reflexivity. f_equal. rewrite map_map. apply map_ext_Forall. exact IH. Qed.
Lemma cm_rule_comp g f r : cm_rule g (cm_rule f r) = cm_rule (comp g f) r.
Proof. unfold cm_rule. cbn. rewrite cm_comp, map_map. f_equal. apply map_ext. apply cm_pat_comp. Qed.
Lemma cm_vrule_comp g f r : cm_vrule g (cm_vrule f r) = cm_vrule (comp g f) r.
Proof.
  unfold cm_vrule. cbn. rewrite cm_comp, !map_map. f_equal; [|apply map_ext; apply cm_pat_comp]. apply map_ext. intros [t|]; cbn; [|reflexivity]. rewrite cm_comp. reflexivity.
Qed.
Lemma cm_vcmd_comp g f v : cm_vcmd g (cm_vcmd f v) = cm_vcmd (comp g f) v.
Proof.
  destruct v as [c it|rs]; cbn [cm_vcmd].
  - f_equal. destruct it as [[A|] [t|]|A t|i A]; cbn; rewrite ?cm_comp; reflexivity.
  - f_equal. rewrite map_map. apply map_ext. apply cm_vrule_comp.
Qed.
Lemma cm_agree (f g k l : nat -> nat) : (forall e, f e = g e -> k e = l e) -> forall t, cm f t = cm g t -> cm k t = cm l t.
Proof. intros H. induction t; cbn; intros E; try reflexivity; injection E; intros; f_equal; auto. Qed.
Lemma cm_pat_agree (f g k l : nat -> nat) : (forall e, f e = g e -> k e = l e) -> forall p, cm_pat f p = cm_pat g p -> cm_pat k p = cm_pat l p.
Proof.
  intros H p. induction p as [c ps IH|m|] using pat_ind'; cbn; try reflexivity. intros [= E1 E2]. f_equal; [auto|].
  induction IH as [|p ps Hp _ IH]; [reflexivity|]. cbn [map] in *. injection E2 as E2 E3. f_equal; auto.
Qed.
Lemma cm_pats_agree (f g k l : nat -> nat) : (forall e, f e = g e -> k e = l e) -> forall ps, map (cm_pat f) ps = map (cm_pat g) ps -> map (cm_pat k) ps = map (cm_pat l) ps.
Proof. intros H ps. induction ps as [|p ps IH]; [reflexivity|]. cbn [map]. intros [= E2 E3]. f_equal; eauto using cm_pat_agree. Qed.
Lemma cm_rule_agree (f g k l : nat -> nat) : (forall e, f e = g e -> k e = l e) -> forall r, cm_rule f r = cm_rule g r -> cm_rule k r = cm_rule l r.
Proof. intros H r. unfold cm_rule. intros [= E1 E2]. f_equal; eauto using cm_agree, cm_pats_agree. Qed.
Lemma cm_rules_agree (f g k l : nat -> nat) : (forall e, f e = g e -> k e = l e) -> forall rs, map (cm_rule f) rs = map (cm_rule g) rs -> map (cm_rule k) rs = map (cm_rule l) rs.
Proof. intros H ps. induction ps as [|p ps IH]; [reflexivity|]. cbn [map]. intros E. injection E as E2 E3 E4. f_equal; [|auto]. apply (cm_rule_agree f g); [exact H|]. unfold cm_rule. congruence. Qed.
Lemma cm_id f t : (forall e, f e = e) -> cm f t = t.
Proof. intros H. induction t; cbn; f_equal; auto. Qed.
Lemma cm_pat_id f p : (forall e, f e = e) -> cm_pat f p = p.
Proof. intros H. induction p as [c ps IH|m|] using pat_ind'; cbn; try reflexivity. f_equal; [auto|]. induction IH; cbn; f_equal; auto. Qed.
Lemma cm_rule_id f r : (forall e, f e = e) -> cm_rule f r = r.
Proof.
  intros H. destruct r as [n ps t]. unfold cm_rule. cbn. rewrite cm_id by exact H. f_equal. induction ps as [|p ps IH]; cbn; [reflexivity|]. rewrite cm_pat_id, IH by exact H. reflexivity.
Qed.
Lemma cm_rules_id f rs : (forall e, f e = e) -> map (cm_rule f) rs = rs.
Proof. intros H. induction rs as [|r rs IH]; cbn; [reflexivity|]. rewrite cm_rule_id, IH by exact H. reflexivity. Qed.

(** ** Contexts *)
Lemma gemb_comp g f g1 g2 g3 : gemb f g1 g2 -> gemb g g2 g3 -> gemb (comp g f) g1 g3.
Proof.
  intros (P1 & P2 & Ht & Hr & He) (_ & P3 & Ht' & Hr' & He'). split; [exact P1|]. split; [exact P3|]. split; [|split; [|congruence]]; intros c; unfold comp at 1.
  - rewrite Ht', Ht. destruct (get_type g1 c); cbn; [|reflexivity]. rewrite cm_comp. reflexivity.
  - rewrite Hr', Hr. destruct (get_rules g1 c); cbn; [|reflexivity]. f_equal. rewrite map_map. apply map_ext. apply cm_rule_comp.
Qed.
Lemma gemb_inv s g1 g2 : (forall e, s (s e) = e) -> gemb s g1 g2 -> gemb s g2 g1.
Proof.
  intros Hs (P1 & P2 & Ht & Hr & He). split; [exact P2|]. split; [exact P1|]. split; [|split; [|congruence]]; intros c.
  - specialize (Ht (s c)). rewrite Hs in Ht. rewrite Ht. destruct (get_type g1 (s c)); cbn; [|reflexivity]. rewrite cm_comp, cm_id; [reflexivity|exact Hs].
  - specialize (Hr (s c)). rewrite Hs in Hr. rewrite Hr. destruct (get_rules g1 (s c)); cbn; [|reflexivity]. f_equal. rewrite map_map. symmetry.
    rewrite <- (cm_rules_id (comp s s) (map er_rule l) Hs) at 2. apply map_ext. apply cm_rule_comp.
Qed.

(** ** Commands that lack symbols *)
Lemma cm_absent h t : (forall e, h e <> e -> absent e t) -> cm h (erl t) = erl t.
Proof.
  induction t as [|d|n|k IH] using lterm_ind'; intros H; cbn [erl cm]; try reflexivity.
  - f_equal. destruct (Nat.eq_dec (h d) d) as [E|N]; [exact E|]. exfalso. exact (H d N eq_refl).
  - destruct k as [hd args|x a b|x [a|] b]; cbn [er_comb comb_all absent forall_comb some_all cm] in *.
    + rewrite cm_apps. destruct IH as [IH1 IH2]. f_equal; [apply IH1; intros e He; apply (H e He)|].
      assert (H' : forall e, h e <> e -> Forall (absent e) args).
      { intros e He. specialize (H e He) as [_ H]. clear - H. induction args as [|a args IH]; [constructor|]. destruct H. constructor; auto. }
      clear H IH1. induction IH2 as [|a args Ha _ IH]; [reflexivity|]. cbn [map]. f_equal; [apply Ha|apply IH]; intros e He; specialize (H' e He); inversion H'; assumption.
    + destruct IH as [IH1 IH2]. f_equal; [apply IH1|apply IH2]; intros e He; apply (H e He).
    + destruct IH as [IH1 IH2]. f_equal; [apply IH1|apply IH2]; intros e He; apply (H e He).
    + destruct IH as [_ IH2]. f_equal. apply IH2; intros e He; apply (H e He).
Qed.
Lemma cm_pat_absent h p : (forall e, h e <> e -> absent_pat e p) -> cm_pat h (erp p) = erp p.
Proof.
  induction p as [c ps IH|m|] using pattern_ind'; intros H; cbn [erp cm_pat]; try reflexivity. f_equal.
  - destruct (Nat.eq_dec (h c) c) as [E|N]; [exact E|]. exfalso. exact (proj1 (H c N) eq_refl).
  - assert (H' : forall e, h e <> e -> Forall (absent_pat e) ps).
    { intros e He. specialize (H e He) as [_ H]. clear - H. induction ps as [|a args IH]; [constructor|]. destruct H. constructor; auto. }
    clear H. induction IH as [|a args Ha _ IH]; [reflexivity|]. cbn [map]. f_equal; [apply Ha|apply IH]; intros e He; specialize (H' e He); inversion H'; assumption.
Qed.
Lemma cm_cmd_absent h cmd : (forall e, h e <> e -> absent_cmd e cmd) -> (forall c it, cmd = CIntro c it -> h c = c) -> cm_vcmd h (er_cmd cmd) = er_cmd cmd.
Proof.
  destruct cmd as [c it|rs]; cbn [er_cmd cm_vcmd absent_cmd]; intros H Hc.
  - f_equal; [eapply Hc; reflexivity|]. destruct it as [[A|] [t|]|A t|i A]; cbn in *; f_equal; try f_equal; try (apply cm_absent; intros e He; apply (H e He)); reflexivity.
  - clear Hc. f_equal. induction rs as [|r rs IH]; [reflexivity|]. cbn [map]. f_equal; [|apply IH; intros e He; specialize (H e He); inversion H; assumption].
    assert (H' : forall e, h e <> e -> Forall (fun x => some_all (absent e) (snd x)) (r_ctx r) /\ tp_symbol (r_lhs r) <> e /\ Forall (absent_pat e) (tp_args (r_lhs r)) /\ absent e (r_rhs r)).
    { intros e He. specialize (H e He). inversion H. assumption. }
    clear - H'. unfold cm_vrule. cbn. f_equal.
    + assert (X : forall e, h e <> e -> Forall (fun x => some_all (absent e) (snd x)) (r_ctx r)) by (intros e He; apply (H' e He)). clear H'.
      induction (r_ctx r) as [|[x A] l IH]; cbn [map snd] in *; [reflexivity|]. f_equal; [|apply IH; intros e He; specialize (X e He); inversion X; assumption].
      destruct A as [A|]; [|reflexivity]. cbn. f_equal. apply cm_absent. intros e He. specialize (X e He). inversion X. assumption.
    + destruct (Nat.eq_dec (h (tp_symbol (r_lhs r))) (tp_symbol (r_lhs r))) as [E|N]; [exact E|]. exfalso. destruct (H' _ N) as (_ & X & _). apply X. reflexivity.
    + assert (X : forall e, h e <> e -> Forall (absent_pat e) (tp_args (r_lhs r))) by (intros e He; apply (H' e He)). clear H'.
      induction (tp_args (r_lhs r)) as [|p l IH]; cbn [map]; [reflexivity|]. f_equal; [apply cm_pat_absent|apply IH]; intros e He; specialize (X e He); inversion X; assumption.
    + apply cm_absent. intros e He. apply (H' e He).
Qed.
Lemma cm_fixed h t : (forall e, h e <> e -> ~ occurs e t) -> cm h t = t.
Proof.
  induction t as [| |d|n|t1 IH1 t2 IH2|t1 IH1 t2 IH2|t IH|t1 IH1 t2 IH2]; cbn; intros H; try reflexivity;
    try (f_equal; [apply IH1|apply IH2]; intros e He Ho; apply (H e He); tauto); [|f_equal; apply IH; exact H].
  f_equal. destruct (Nat.eq_dec (h d) d) as [E|N]; [exact E|]. exfalso. exact (H d N eq_refl).
Qed.
Lemma cm_intro_fixed h it : (forall e, h e <> e -> ~ occurs_intro e it) -> map_type (cm h) (map_term (cm h) it) = it.
Proof.
  destruct it as [[A|] [t|]|A t|i A]; cbn; intros H; f_equal; try f_equal; try reflexivity; apply cm_fixed; intros e He Ho; apply (H e He); tauto.
Qed.
Lemma apps_occurs e ts : forall t, occurs e (apps t ts) -> occurs e t \/ exists u, In u ts /\ occurs e u.
Proof.
  induction ts as [|u ts IH]; intros t; cbn [apps fold_left]; [auto|]. intros H. apply (IH (App t u)) in H as [[H|H]|(u' & H1 & H2)]; [auto|right; exists u; cbn; auto|right; exists u'; cbn; auto].
Qed.
Lemma absent_occurs e t : absent e t -> ~ occurs e (erl t).
Proof.
  induction t as [|d|n|k IH] using lterm_ind'; cbn [erl occurs absent]; auto.
  destruct k as [hd args|x a b|x [a|] b]; cbn [er_comb comb_all forall_comb some_all occurs] in *.
  - intros [H1 H2] H. apply apps_occurs in H as [H|(u & H3 & H4)]; [exact (proj1 IH H1 H)|]. destruct IH as [_ IH]. clear H1.
    induction IH as [|a args Ha _ IH]; [destruct H3|]. destruct H2 as [H2 H2']. destruct H3 as [<-|H3]; [exact (Ha H2 H4)|exact (IH H2' H3)].
  - intros [H1 H2] [H|H]; [exact (proj1 IH H1 H)|exact (proj2 IH H2 H)].
  - intros [H1 H2] [H|H]; [exact (proj1 IH H1 H)|exact (proj2 IH H2 H)].
  - intros [_ H2] H. exact (proj2 IH H2 H).
Qed.
Lemma absent_occurs_intro e it : intro_all (absent e) it -> ~ occurs_intro e (er_intro it).
Proof. destruct it as [[A|] [t|]|A t|i A]; cbn; intros H Ho; repeat match goal with X : _ \/ _ |- _ => destruct X end; try contradiction; eapply absent_occurs; try eassumption; tauto. Qed.

Inductive fresh_cmds : nat -> list command -> Prop :=
| fc_nil n : fresh_cmds n []
| fc_intro n m c it cs : n <= c -> c < m -> (forall e, n <= e -> absent_cmd e (CIntro c it)) -> fresh_cmds m cs -> fresh_cmds n (CIntro c it :: cs)
| fc_rules n m rs cs : n <= m -> (forall e, n <= e -> @absent_cmd e sym (CRules rs)) -> fresh_cmds m cs -> fresh_cmds n (CRules rs :: cs).
Lemma share_fresh_cmds evs : forall st cmds, fresh_next st -> share_results evs st = map Ok cmds -> fresh_cmds (ps_next st) cmds.
Proof.
  induction evs as [|ev evs IH]; intros st cmds Hn; cbn [share_results]; [destruct cmds; [constructor|discriminate]|].
  pose proof (from_event_fresh ev st Hn) as (H1 & H2 & H3).
  destruct ev as [p|c]; [cbn [from_event]; intros H; exact (IH _ _ H1 H)|].
  destruct (from_event (EvCommand c) st) as [st' r] eqn:E. cbn [fst snd] in *. assert (Hr : exists r0, r = Some r0) by (cbn in E; destruct (share c st); injection E as _ <-; eauto).
  destruct Hr as [r0 ->]. destruct cmds as [|cmd cmds]; [discriminate|]. cbn [map]. intros H. injection H as -> H. destruct (H3 _ eq_refl) as [Ha Hc].
  destruct cmd as [x it|rs]; [destruct (Hc x it eq_refl) as [<- Hx]; apply fc_intro with (m := ps_next st')|apply fc_rules with (m := ps_next st')]; auto.
Qed.
