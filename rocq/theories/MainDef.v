(** * Programs without rewrite rules have signatures with definitions only (C61) *)

From Verif Require Import Base LibMono ModelTerm ModelGctx ModelCommand ModelSubst ModelReduce ModelInfer ModelSyntax ModelSymbols ModelShare ModelProcess
  SpecTerm SpecConv SpecConvFacts SpecTyping SpecRed SpecSN SpecType SpecQuery SpecProcess SpecDomain SpecTotal SpecDecide SpecDef RedConfl EtaConfl Erase Inv SoundInfer
  TypeFacts DomFacts MainKernel MainGctx MainShare MainProcess MainRun MainVerify MainTyped MainTotal MainProgTotal MainDecide SamplesProg SnBase SnDef.

Lemma definitional_types sg : definitional sg -> good_types sg.
Proof.
  induction 1 as [sg HT HR|sg c A rs sg' s Hd IH HK Hs HA Hrs Hx|sg c A t sg' s Hd IH HK Hs HA Hsc Ht Hx]; intros d B.
  - rewrite HT. discriminate.
  - pose proof (extends_mono' _ _ _ _ _ Hd Hx) as M. destruct Hx as (_ & HT & _). rewrite HT. destruct (Nat.eqb_spec d c) as [->|].
    + intros [= <-]. split; [exact HK|]. exists s. split; [exact Hs|eapply wt_mono; eassumption].
    + intros HB. apply (good_type_mono sg _ _ M). apply (IH _ _ HB).
  - pose proof (extends_mono' _ _ _ _ _ Hd Hx) as M. destruct Hx as (_ & HT & _). rewrite HT. destruct (Nat.eqb_spec d c) as [->|].
    + intros [= <-]. split; [exact HK|]. exists s. split; [exact Hs|eapply wt_mono; eassumption].
    + intros HB. apply (good_type_mono sg _ _ M). apply (IH _ _ HB).
Qed.
Lemma definitional_good_rules sg : definitional sg -> good_rules sg.
Proof.
  intros Hd c rs r H1 H2 _. destruct (definitional_rules sg Hd _ _ _ H1 H2) as (t & A & -> & Hs & HA & Ht).
  destruct H2 as [<-|[]]. exact (def_good sg c A t HA Ht).
Qed.
Lemma definitional_terminating gc : definitional (er_gctx gc) -> terminating gc.
Proof.
  intros Hd. split.
  - exact (definitional_safe _ Hd).
  - exact (definitional_linear _ Hd).
  - exact (church_rosser_pi _ (definitional_church_rosser _ Hd)).
  - exact (definitional_types _ Hd).
  - exact (definitional_good_rules _ Hd).
  - exact (definitional_normalising _ Hd).
Qed.

Theorem main_definitional sg : definitional sg -> church_rosser sg /\ normalising sg.
Proof. split; [apply definitional_church_rosser|apply definitional_normalising]; assumption. Qed.

Section Step.
  Variables (O : query -> nat -> bool) (n : nat).
  Notation K := (real_kernel O n).

  Lemma intro_definitional o gc c it gc' : omits o StCheck = false -> typed_rules gc -> definitional (er_gctx gc) ->
    infer_check K o (CIntro c it) gc = (gc', Ok tt) -> definitional (er_gctx gc') /\ typed_rules gc'.
  Proof.
    intros Ho Ht Hd H. destruct (infer_check_verified O n o (CIntro c it) gc gc' Ho Ht H) as [Hv Ht']. split; [|exact Ht'].
    pose proof (definitional_terminating gc Hd) as Hgc. pose proof (definitional_church_rosser _ Hd) as Hcr.
    revert H. unfold infer_check. rewrite Ho. cbn [infer_with].
    destruct (k_intro K gc it) as [[ty chk]|e| |] eqn:E; cbn [ko_typing res_err]; try discriminate.
    intros H.
    assert (Hc : match chk with Some c => ModelInfer.run (check_check (O (QCheck gc c)) gc n c) = Ok tt | None => True end /\
      gctx_insert gc c ty (rewritable it) = (gc', None)).
    { destruct chk as [chk|].
      - destruct (k_check K gc chk) as [[]|e| |] eqn:E2; cbn [ko_typing res_err] in H; try discriminate. split; [exact E2|].
        destruct (gctx_insert gc c ty (rewritable it)) as [gc1 [e|]]; cbn in H; [discriminate|]. congruence.
      - split; [exact I|]. destruct (gctx_insert gc c ty (rewritable it)) as [gc1 [e|]]; cbn in H; [discriminate|]. congruence. }
    destruct Hc as [Hc Hi]. destruct (intro_good O n gc Hgc Hcr it ty chk E Hc) as [(N0 & s & Hs & N1) N2].
    apply insert_extends in Hi as [Hx _]; [|exact Ht]. unfold def_rules in Hx.
    destruct (main_kintro _ _ _ _ _ _ E) as [_ Hk].
    destruct (rewritable it) eqn:Er; [|eapply df_declare; try eassumption; left; reflexivity].
    destruct (t_tm ty) as [d|] eqn:Etm; [|eapply df_declare; try eassumption; right; reflexivity].
    eapply df_define; [exact Hd|exact N0|exact Hs|exact N1| |apply N2; reflexivity|exact Hx].
    clear - Hv Hk Etm Er. destruct it as [[A|] [t|]|A t|b A]; cbn in Hv, Hk, Er; try discriminate.
    - destruct Hk as (_ & Hk & _). injection Hk as ->. inversion Hv; subst.
      match goal with H : has_type _ [] (erl _) (erl A) |- _ => exact (type_scoped _ _ _ _ H) end.
    - destruct Hk as (_ & Hk & _). congruence.
    - destruct Hk as (Hk & _ & H). injection Hk as ->. exact (type_scoped _ _ _ _ H).
    - contradiction.
    - destruct Hk as (_ & Hk & _). congruence.
  Qed.
End Step.

Section Program.
  Variables (O : query -> nat -> bool) (PE : Type) (eta jobs : bool).
  Let o := Opts eta None jobs.
  Notation seq n := (infer_checks_seq PE (real_kernel O n) o _ (consume_item PE o)).

  Lemma share_intro_cmd x args it st st' cmd : share (PIntro x args it) st = (st', Ok cmd) -> exists c it', cmd = CIntro c it'.
  Proof.
    unfold share. pose proof (share_pintro_ok (ps_syms st) x args it) as H. destruct (share_command (ps_syms st) (PIntro x args it)) as [c|e| |]; try discriminate.
    destruct H as (_ & it' & -> & _). destruct (symbols_insert _ _ _) as [syms [id|e| |]]; cbn; try discriminate. intros [= _ <-]. eauto.
  Qed.
  Lemma rule_free_cons ev evs : rule_free (ev :: evs) -> rule_free evs.
  Proof. intros H rs Hin. apply (H rs). right. exact Hin. Qed.
  Lemma rule_free_inv k evs : forall st st', rule_free evs ->
    definitional (er_gctx (ps_gc st)) /\ typed_rules (ps_gc st) -> seq k (map Ok evs) st = (st', [], Ok tt) ->
    definitional (er_gctx (ps_gc st')) /\ typed_rules (ps_gc st').
  Proof.
    induction evs as [|ev evs IH]; intros st st' Hf Hi; cbn [map infer_checks_seq consume_item omits o_omit o]; [intros [= <-]; exact Hi|].
    pose proof (rule_free_cons _ _ Hf) as Hf'. destruct ev as [path|cmd]; cbn [from_event].
    - cbn [option_map filter_infer]. apply IH; assumption.
    - destruct cmd as [x args it|rs]; [|destruct (Hf rs); left; reflexivity].
      pose proof (share_gc (PIntro x args it) st) as Hg. pose proof (share_intro_cmd x args it st) as Hsh.
      destruct (share (PIntro x args it) st) as [st1 r]. cbn in Hg. cbn [option_map filter_infer res_err]. destruct r as [cmd'|e| |]; cbn [filter_infer res_err omits o_omit o]; try discriminate.
      destruct (Hsh st1 cmd' eq_refl) as (c & it' & ->).
      destruct (infer_check (real_kernel O k) o (CIntro c it') (ps_gc st1)) as [gc [[]|e| |]] eqn:Ei; try discriminate.
      rewrite Hg in Ei. apply intro_definitional in Ei; [|reflexivity|apply Hi|apply Hi]. apply IH; assumption.
  Qed.

  Theorem main_rule_free_definitional evs st : rule_free evs -> accepted O PE o evs st -> definitional (er_gctx (ps_gc st)).
  Proof.
    intros Hf [k H]. apply (rule_free_inv k evs (pst_new o) st Hf); [split|exact H].
    - apply df_empty; reflexivity.
    - intros c _. reflexivity.
  Qed.

  Theorem main_rule_free_ok evs : rule_free evs -> program_ok O PE o evs.
  Proof.
    intros Hf pre cmd post st -> [k H].
    assert (Hi : definitional (er_gctx (ps_gc st)) /\ typed_rules (ps_gc st)).
    { apply (rule_free_inv k pre (pst_new o)); [|split|exact H].
      - intros rs Hin. apply (Hf rs). apply in_or_app. left. exact Hin.
      - apply df_empty; reflexivity.
      - intros c _. reflexivity. }
    destruct Hi as [Hd Ht]. split; [exact (definitional_safe _ Hd)|]. split; [exact (definitional_linear _ Hd)|]. split; [exact (definitional_church_rosser _ Hd)|].
    split; [exact (definitional_normalising _ Hd)|]. intros st' cmd' Hs. destruct cmd as [x args it|rs].
    - destruct (share_intro_cmd _ _ _ _ _ _ Hs) as (c & it' & ->). exact I.
    - destruct (Hf rs). apply in_or_app. right. left. reflexivity.
  Qed.

  Lemma program_decided evs : program_ok O PE o evs ->
    exists n0 r, snd r <> Fuel /\ (forall n, n0 <= n -> seq n (map Ok evs) (pst_new o) = r) /\
      (snd r = Ok tt <-> forall pre cmd post st, evs = pre ++ EvCommand cmd :: post -> accepted O PE o pre st -> ready st cmd).
  Proof.
    intros Hp. destruct (main_program_returns O PE eta jobs evs Hp) as (n0 & r & Hr & H). fold o in H.
    exists n0, r. split; [exact Hr|]. split; [exact H|]. pose proof (main_program_decides O PE eta jobs evs Hp) as Hq. fold o in Hq. etransitivity; [|exact Hq]. clear Hq. split.
    - destruct r as [[st rest] x]. cbn. intros ->. exists st, n0. rewrite (H n0 (le_n _)). repeat f_equal.
      specialize (H n0 (le_n _)). clear - H. revert H. generalize (pst_new o). induction (map Ok evs) as [|ev evs' IH]; intros st0; cbn [infer_checks_seq]; [intros [= _ <-]; reflexivity|].
      destruct (consume_item PE o ev st0) as [st1 y]. destruct (filter_infer PE o y) as [[cmd|e| |]|]; try discriminate.
      + destruct (infer_check (real_kernel O n0) o cmd (ps_gc st1)) as [gc [[]|e| |]]; try discriminate. apply IH.
      + apply IH.
    - intros (st & k & E). pose proof (seq_mono O k (Nat.max k n0) ltac:(lia) PE o (map Ok evs) (pst_new o)) as E'. rewrite E in E'. specialize (E' ltac:(discriminate)). rewrite (H (Nat.max k n0) ltac:(lia)) in E'. rewrite E'. reflexivity.
  Qed.

  Theorem main_rule_free evs : rule_free evs ->
    exists n0 r, snd r <> Fuel /\ (forall n, n0 <= n -> seq n (map Ok evs) (pst_new o) = r) /\
      (snd r = Ok tt <-> forall pre cmd post st, evs = pre ++ EvCommand cmd :: post -> accepted O PE o pre st -> ready st cmd).
  Proof. intros Hf. exact (program_decided evs (main_rule_free_ok evs Hf)). Qed.
End Program.
