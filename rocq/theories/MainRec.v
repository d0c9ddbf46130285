(** * Programs with recursive functions (C64, C68) *)

From Verif Require Import Base LibMono ModelTerm ModelGctx ModelCommand ModelSubst ModelReduce ModelInfer ModelSyntax ModelSymbols ModelShare ModelProcess
  SpecTerm SpecConv SpecConvFacts SpecTyping SpecRed SpecSN SpecType SpecQuery SpecProcess SpecDomain SpecTotal SpecDecide SpecRec SpecInd SpecRecProg RedConfl EtaConfl Erase Inv SoundInfer
  TypeFacts DomFacts MainKernel MainGctx MainShare MainProcess MainRun MainVerify MainTyped MainTotal MainProgTotal MainDecide SamplesProg SnBase SnRec SnIndFun MainDef.

(** conditions on rules that make well-typed terms normalise *)
Definition normal_class (P : sig -> Prop) : Prop := forall sg, built sg -> P sg -> left_linear sg /\ church_rosser sg /\ normalising sg.
Lemma structural_class : normal_class structural.
Proof. intros sg Hb H. split; [apply H|apply structural_normalising; assumption]. Qed.
Lemma inductive_class : normal_class inductive_sig.
Proof. intros sg Hb H. split; [apply H|apply inductive_normalising; assumption]. Qed.
Lemma recursive_class : normal_class recursive_sig.
Proof. intros sg Hb [H|H]; [apply structural_class|apply inductive_class]; assumption. Qed.

Section Class.
Variable P : sig -> Prop.
Hypothesis HP : normal_class P.

Lemma built_terminating gc : built (er_gctx gc) -> P (er_gctx gc) -> terminating gc /\ church_rosser (er_gctx gc).
Proof.
  intros Hb Hs. destruct (HP _ Hb Hs) as (Hll & Hcr & Hsn). split; [|exact Hcr]. split.
  - exact (eta_off_safe _ (built_eta _ Hb)).
  - exact Hll.
  - apply church_rosser_pi. exact Hcr.
  - apply built_types. exact Hb.
  - apply built_good_rules. exact Hb.
  - exact Hsn.
Qed.

Section Step.
  Variables (O : query -> nat -> bool) (n : nat).
  Notation K := (real_kernel O n).

  Lemma step_built o gc cmd gc' : omits o StCheck = false -> typed_rules gc -> built (er_gctx gc) -> P (er_gctx gc) ->
    cmd_typed gc cmd -> cmd_args cmd -> (forall c it, cmd = CIntro c it -> forall d, sg_type (er_gctx gc) d <> None -> d < c) ->
    infer_check K o cmd gc = (gc', Ok tt) -> built (er_gctx gc') /\ typed_rules gc' /\
      forall d, sg_type (er_gctx gc') d <> None -> sg_type (er_gctx gc) d <> None \/ exists it, cmd = CIntro d it.
  Proof.
    intros Ho Ht Hb Hs Hty Har Hfr H. destruct (infer_check_verified O n o cmd gc gc' Ho Ht H) as [Hv Ht'].
    destruct (built_terminating gc Hb Hs) as [Hgc Hcr].
    assert (E : built (er_gctx gc') /\ forall d, sg_type (er_gctx gc') d <> None -> sg_type (er_gctx gc) d <> None \/ exists it, cmd = CIntro d it); [|tauto].
    revert H. unfold infer_check. rewrite Ho. destruct cmd as [c it|rs]; cbn [infer_with].
    - destruct (k_intro K gc it) as [[ty chk]|e| |] eqn:E; cbn [ko_typing res_err]; try discriminate.
      intros H.
      assert (Hc : match chk with Some c => ModelInfer.run (check_check (O (QCheck gc c)) gc n c) = Ok tt | None => True end /\
        gctx_insert gc c ty (rewritable it) = (gc', None)).
      { destruct chk as [chk|].
        - destruct (k_check K gc chk) as [[]|e| |] eqn:E2; cbn [ko_typing res_err] in H; try discriminate. split; [exact E2|].
          destruct (gctx_insert gc c ty (rewritable it)) as [gc1 [e|]]; cbn in H; [discriminate|]. congruence.
        - split; [exact I|]. destruct (gctx_insert gc c ty (rewritable it)) as [gc1 [e|]]; cbn in H; [discriminate|]. congruence. }
      destruct Hc as [Hc Hi]. destruct (intro_good O n gc Hgc Hcr it ty chk E Hc) as [(N0 & s & Hss & N1) N2].
      specialize (Hfr c it eq_refl).
      apply insert_extends in Hi as [Hx _]; [|exact Ht]. split.
      2:{ intros d. destruct Hx as (_ & -> & _). destruct (Nat.eqb_spec d c) as [->|]; [right; eauto|left; assumption]. }
      unfold def_rules in Hx. destruct (main_kintro _ _ _ _ _ _ E) as [_ Hk].
      destruct (rewritable it) eqn:Er; [|eapply bt_declare; try eassumption; left; reflexivity].
      destruct (t_tm ty) as [d|] eqn:Etm; [|eapply bt_declare; try eassumption; right; reflexivity].
      eapply bt_define; [exact Hb|exact Hfr|exact N0|exact Hss|exact N1| |apply N2; reflexivity|exact Hx].
      clear - Hv Hk Etm Er. destruct it as [[A|] [t|]|A t|b A]; cbn in Hv, Hk, Er; try discriminate.
      + destruct Hk as (_ & Hk & _). injection Hk as ->. inversion Hv; subst.
        match goal with H : has_type _ [] (erl _) (erl A) |- _ => exact (type_scoped _ _ _ _ H) end.
      + destruct Hk as (_ & Hk & _). congruence.
      + destruct Hk as (Hk & _ & H). injection Hk as ->. exact (type_scoped _ _ _ _ H).
      + contradiction.
      + destruct Hk as (_ & Hk & _). congruence.
    - destruct (rewrites K unit _ rs gc tt) as [[] [[]|e| |]] eqn:E; try discriminate.
      apply (rewrites_good O n gc Hgc Hcr) in E; [|exact Hty]. destruct (add_rules rs gc) as [gc1 [[]|e| |]] eqn:Ea; try discriminate. intros [= <-].
      apply add_rules_extends in Ea as [Hx _]; [|exact Ht]. split.
      + eapply bt_rules; [exact Hb| |exact Hx]. apply Forall_forall. intros v Hv'. apply in_map_iff in Hv' as (r & <- & Hr). cbn in Har.
        rewrite Forall_forall in E, Har. specialize (E _ Hr). specialize (Har _ Hr). split; [cbn; intros E0; apply map_eq_nil in E0; auto|].
        unfold er_rule in E. unfold srule_of. cbn. rewrite map_length. exact E.
      + intros d. destruct Hx as (_ & -> & _). auto.
  Qed.
End Step.

Section Program.
  Variables (O : query -> nat -> bool) (PE : Type) (jobs : bool).
  Let o := Opts false None jobs.
  Notation seq n := (infer_checks_seq PE (real_kernel O n) o _ (consume_item PE o)).

  Definition rinv (st : pst) : Prop :=
    built (er_gctx (ps_gc st)) /\ typed_rules (ps_gc st) /\ fresh_next st /\ forall d, sg_type (er_gctx (ps_gc st)) d <> None -> d < ps_next st.
  Lemma rinv_new : rinv (pst_new o).
  Proof.
    split; [apply bt_empty; reflexivity|]. split; [intros c _; reflexivity|]. split; [apply fresh_new|]. intros d H. destruct H. reflexivity.
  Qed.
  Lemma accepted_built evs : program_in P O PE o evs -> forall k st, seq k (map Ok evs) (pst_new o) = (st, [], Ok tt) -> rinv st.
  Proof.
    intros Hp k.
    assert (X : forall post pre st st', evs = pre ++ post -> seq k (map Ok pre) (pst_new o) = (st, [], Ok tt) -> rinv st ->
      seq k (map Ok post) st = (st', [], Ok tt) -> rinv st').
    { induction post as [|ev post IH]; intros pre st st' E H Hi; [intros [= <-]; exact Hi|]. cbn [map infer_checks_seq consume_item omits o_omit o].
      assert (Hpre : forall st1, seq k [Ok ev] st = (st1, [], Ok tt) -> seq k (map Ok (pre ++ [ev])) (pst_new o) = (st1, [], Ok tt))
        by (intros st1 H1; rewrite map_app, (seq_app O PE false jobs k _ _ _ _ H); exact H1).
      assert (E' : evs = (pre ++ [ev]) ++ post) by (rewrite <- app_assoc; exact E).
      pose proof Hi as (I1 & I2 & I3 & I4). destruct (from_event_fresh ev st I3) as (F1 & F2 & F3).
      destruct ev as [path|cmd]; cbn [from_event] in F1, F2, F3 |- *.
      - cbn [option_map filter_infer]. intros H'. eapply IH; [exact E'|apply Hpre; reflexivity| |exact H']. split; [exact I1|]. split; [exact I2|]. split; [exact F1|exact I4].
      - destruct (Hp pre cmd post st E (ex_intro _ k H)) as (Hs & Hcmd). pose proof (share_gc cmd st) as Hg.
        destruct (share cmd st) as [st1 r] eqn:Es. cbn [fst snd] in Hg, F1, F2, F3. cbn [option_map filter_infer res_err].
        destruct r as [cmd'|e| |]; cbn [filter_infer res_err omits o_omit o]; try discriminate.
        destruct (infer_check (real_kernel O k) o cmd' (ps_gc st1)) as [gc [[]|e| |]] eqn:Ei; try discriminate. intros H'.
        assert (Hi' : rinv (PSt (ps_syms st1) (ps_next st1) gc)).
        { rewrite Hg in Ei. destruct (Hcmd _ _ eq_refl) as [Hty Har]. destruct (F3 cmd' eq_refl) as [_ F4].
          destruct (step_built O k o (ps_gc st) cmd' gc eq_refl I2 I1 Hs Hty Har) as (G1 & G2 & G3).
          - intros c it -> d Hd. destruct (F4 c it eq_refl) as [<- _]. apply I4. exact Hd.
          - exact Ei.
          - split; [exact G1|]. split; [exact G2|]. split; [exact F1|]. intros d Hd. apply G3 in Hd. destruct Hd as [Hd|[it ->]].
            + apply I4 in Hd. cbn. lia.
            + apply (F4 d it eq_refl). }
        eapply IH; [exact E'|apply Hpre|exact Hi'|exact H'].
        cbn [infer_checks_seq consume_item omits o_omit o from_event]. rewrite Es. cbn [option_map res_err filter_infer omits o_omit o]. rewrite Ei. reflexivity. }
    intros st H. eapply (X evs [] (pst_new o)); [reflexivity|reflexivity|exact rinv_new|exact H].
  Qed.

  Lemma program_prefix pre post : program_in P O PE o (pre ++ post) -> program_in P O PE o pre.
  Proof. intros H p cmd q st E. apply (H p cmd (q ++ post) st). rewrite E, <- app_assoc. reflexivity. Qed.
  Theorem main_built evs st : program_in P O PE o evs -> accepted O PE o evs st -> built (er_gctx (ps_gc st)).
  Proof. intros Hp [k H]. exact (proj1 (accepted_built evs Hp k st H)). Qed.
  Theorem main_ok evs : program_in P O PE o evs -> program_ok O PE o evs.
  Proof.
    intros Hp pre cmd post st E Ha. destruct (Hp pre cmd post st E Ha) as [Hs Hcmd].
    assert (Hb : built (er_gctx (ps_gc st))) by (apply (main_built pre); [apply (program_prefix pre (EvCommand cmd :: post)); rewrite <- E; exact Hp|exact Ha]).
    destruct (HP _ Hb Hs) as (Hll & Hcr & Hsn). split; [exact (eta_off_safe _ (built_eta _ Hb))|]. split; [exact Hll|]. split; [exact Hcr|]. split; [exact Hsn|].
    intros st' cmd' H. apply (Hcmd st' cmd' H).
  Qed.

  Theorem main_decided evs : program_in P O PE o evs ->
    exists n0 r, snd r <> Fuel /\ (forall n, n0 <= n -> seq n (map Ok evs) (pst_new o) = r) /\
      (snd r = Ok tt <-> forall pre cmd post st, evs = pre ++ EvCommand cmd :: post -> accepted O PE o pre st -> ready st cmd).
  Proof. intros Hf. exact (program_decided O PE false jobs evs (main_ok evs Hf)). Qed.
End Program.
End Class.
