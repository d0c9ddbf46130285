(** * Types that are inhabited hold in models (C81): programs *)

From Verif Require Import Base ModelTerm ModelGctx ModelCommand ModelSubst ModelReduce ModelInfer ModelSyntax ModelLex ModelParse ModelSymbols ModelShare ModelProcess ModelMain
  SpecTerm SpecConv SpecConvFacts SpecRed SpecSN SpecType SpecSymbols SpecShare SpecProcess SpecDomain SpecDerive SpecDef SpecProgram SpecRec SpecRecProg SpecWhole SpecWholeRec SpecSem
  RedConfl EtaConfl Erase TypeFacts DomFacts EtaTyped DomUnique DeriveFacts TotInfer SemFacts MainAlike SnBase SnDef SnRec
  MainKernel MainGctx MainShare MainProcess MainRun MainVerify MainTyped MainProgram MainProgTotal MainDef MainWhole MainRec MainWholeRec RecTest.

(** ** Signatures *)
Definition good_sig (sg : sig) : Prop :=
  church_rosser sg /\ normalising sg /\ good_types sg /\ good_rules sg /\ eta_safe sg /\ rules_with_types sg.
Lemma definitional_good_sig sg : definitional sg -> good_sig sg.
Proof.
  intros Hd. destruct (main_definitional _ Hd) as [H1 H2]. split; [exact H1|]. split; [exact H2|]. split; [apply definitional_types; exact Hd|].
  split; [apply definitional_good_rules; exact Hd|]. split; [apply definitional_safe; exact Hd|].
  intros c r (rs & E & Hin & _). left. destruct (definitional_rules sg Hd _ _ _ E Hin) as (t & A & -> & _ & HA & Ht). destruct Hin as [<-|[]]. eauto.
Qed.
Lemma built_good_sig P sg : normal_class P -> built sg -> P sg -> good_sig sg.
Proof.
  intros HP Hb Hs. destruct (HP _ Hb Hs) as (_ & H1 & H2). split; [exact H1|]. split; [exact H2|]. split; [apply built_types; exact Hb|].
  split; [apply built_good_rules; exact Hb|]. split; [exact (eta_off_safe _ (built_eta _ Hb))|].
  intros c r (rs & E & Hin & _). destruct (built_rule sg Hb _ _ _ E Hin) as [(t & A & -> & HA & Ht & _)|[_ H]]; [left; eauto|right; exact H].
Qed.

(** Commands lead to such signatures. *)
Lemma derives_scoped sg G t A : derives sg G t A -> scoped (length G) t.
Proof.
  induction 1; cbn [scoped length] in *; auto. apply nth_error_Some. congruence.
Qed.
Lemma annotations_kind b A : annotations b A -> A <> Kind.
Proof. intros H ->. exact H. Qed.
Lemma joker_free_spec p : joker_free p = true <-> no_joker p.
Proof.
  split; [apply joker_free_no|]. induction p as [c ps IH|m|] using pat_ind'; cbn; intros H; inversion H as [|? ? Hps]; subst; [|reflexivity].
  apply forallb_forall. rewrite Forall_forall in IH, Hps. auto.
Qed.
Lemma typable_definitional sg cmd sg' : definitional sg -> typable sg cmd sg' -> definitional sg'.
Proof.
  intros Hd H. destruct H as [c rw A sg' (Ha & s & Hs & Hw) Hx|c A sg' (Ha & s & Hs & Hw) Hx|c A t sg' (Ha & s & Hs & Hw) (Hat & Ht) Hx|c A t sg' (Hat & Ht & s & Hs & Hw) Hx|c A t sg' (Ha & s & Hs & Hw) _ Hx].
  - apply derives_wt in Hw. eapply (df_declare sg c A); try eassumption; [exact (annotations_kind _ _ Ha)|]. destruct rw; auto.
  - apply derives_wt in Hw. eapply (df_declare sg c A); try eassumption; [exact (annotations_kind _ _ Ha)|]. auto.
  - apply derives_wt in Hw. eapply (df_define sg c A t); try eassumption; [exact (annotations_kind _ _ Ha)|exact (derives_scoped _ _ _ _ Ht)|exact (derives_wt _ _ _ _ Ht)].
  - eapply (df_define sg c A t); try eassumption; [|exact (derives_scoped _ _ _ _ Ht)|exact (derives_wt _ _ _ _ Ht)].
    intros ->. exact (wgen_kind _ _ _ Hw).
  - apply derives_wt in Hw. eapply (df_declare sg c A); try eassumption; [exact (annotations_kind _ _ Ha)|]. auto.
Qed.
Lemma typable_built sg c it sg' : built sg -> (forall d, sg_type sg d <> None -> d < c) -> typable sg (VIntro c it) sg' -> built sg'.
Proof.
  intros Hd Hc H. inversion H as [? rw A ? (Ha & s & Hs & Hw) Hx|? A ? (Ha & s & Hs & Hw) Hx|? A t ? (Ha & s & Hs & Hw) (Hat & Ht) Hx|? A t ? (Hat & Ht & s & Hs & Hw) Hx|? A t ? (Ha & s & Hs & Hw) _ Hx]; subst.
  - apply derives_wt in Hw. eapply (bt_declare sg c A); try eassumption; [exact (annotations_kind _ _ Ha)|]. destruct rw; auto.
  - apply derives_wt in Hw. eapply (bt_declare sg c A); try eassumption; [exact (annotations_kind _ _ Ha)|]. auto.
  - apply derives_wt in Hw. eapply (bt_define sg c A t); try eassumption; [exact (annotations_kind _ _ Ha)|exact (derives_scoped _ _ _ _ Ht)|exact (derives_wt _ _ _ _ Ht)].
  - eapply (bt_define sg c A t); try eassumption; [|exact (derives_scoped _ _ _ _ Ht)|exact (derives_wt _ _ _ _ Ht)].
    intros ->. exact (wgen_kind _ _ _ Hw).
  - apply derives_wt in Hw. eapply (bt_declare sg c A); try eassumption; [exact (annotations_kind _ _ Ha)|]. auto.
Qed.
Lemma rules_built sg rs sg' : built sg -> Forall (annotated sg) rs -> Forall (typable_rule sg) rs -> extends_rules sg rs sg' -> built sg'.
Proof.
  intros Hb Ha Ht Hx. eapply bt_rules; [exact Hb| |exact Hx]. rewrite Forall_forall in *. intros r Hr.
  destruct (Ha _ Hr) as (H1 & H2 & H3). split; [exact H1|].
  destruct (forallb joker_free (v_args r)) eqn:Ej.
  - destruct (existsb (fun o => match o with None => true | Some _ => false end) (v_ctx r)) eqn:Eo.
    + apply H3. intros (_ & D & tys & E & _). rewrite E in Eo. clear - Eo. induction tys as [|x tys IH]; cbn in Eo; [discriminate|auto].
    + assert (Hch : checked r).
      { split.
        - apply Forall_forall. intros p Hp. rewrite forallb_forall in Ej. apply joker_free_spec. apply Ej. exact Hp.
        - assert (X : exists tys, v_ctx r = map Some tys); [|destruct X as (tys & E); eexists; exists tys; split; [exact E|reflexivity]].
          clear - Eo. induction (v_ctx r) as [|[x|] l IH]; cbn in Eo; [exists []; reflexivity| |discriminate]. destruct (IH Eo) as (tys & ->). exists (x :: tys). reflexivity. }
      destruct (H2 Hch) as (D & HD & HDt). destruct (Ht _ Hr Hch) as (D' & l & A & s & HD' & Hi & Hl & _ & _ & _ & Hrhs).
      rewrite (rule_ctx_det _ _ _ HD' HD) in *. exists (srule_of r). split; [left; reflexivity|]. split; [exact (proj1 Hch)|].
      exists D, l, A. split; [|split; [exact HDt|split; [exact Hi|]]].
      * destruct HD as (tys & E & ->). cbn. rewrite E, !map_length, rev_length. reflexivity.
      * pose proof (derives_wt _ _ _ _ Hl) as X. rewrite (inst_unique (PatSymb (v_head r) (v_args r)) (nj_symb _ _ (proj1 Hch)) _ _ (inst_strip _ _ _ Hi) Hi) in X. split; [exact X|]. exact (derives_wt _ _ _ _ Hrhs).
  - apply H3. intros (Hj & _). rewrite Forall_forall in Hj. assert (X : forallb joker_free (v_args r) = true); [|congruence].
    apply forallb_forall. intros p Hp. apply joker_free_spec. apply Hj. exact Hp.
Qed.

(** ** One command *)
Section Step.
  Variables (W : Type) (le : W -> W -> Prop) (v : nat -> W -> Prop).
  Hypothesis Hk : kripke W le v.
  Notation holds := (holds W le v).
  Notation valid := (valid W le v).

  Definition sound_sig (sg : sig) : Prop :=
    (forall c A, sg_type sg c = Some A -> valid A) /\ forall c r, rule_of sg c r -> forall w, v c w <-> holds (sr_rhs r) w.
  Lemma sound_sig_closed sg t A s : good_sig sg -> sound_sig sg -> well_typed sg [] t (strip A) -> s = Typ \/ s = Kind -> well_typed sg [] (strip A) s -> valid A.
  Proof.
    intros (H1 & H2 & H3 & H4 & H5 & H6) [S1 S2]. exact (sound_closed sg (good_stable _ H3) H1 (church_rosser_pi _ H1) H4 H3 H2 H5 H6 W le v Hk S2 S1 t A s).
  Qed.
  Lemma sound_extend sg c A rs sg' : sound_sig sg -> extends sg c A rs sg' -> valid A ->
    (forall l r, rs = Some l -> In r l -> forall w, v c w <-> holds (sr_rhs r) w) -> sound_sig sg'.
  Proof.
    intros [S1 S2] (_ & HT & HR & _) HA Hr. split.
    - intros d B. rewrite HT. destruct (d =? c); [intros [= <-]; exact HA|apply S1].
    - intros d r (l & E & Hin & Hu). rewrite HR in E. destruct (Nat.eqb_spec d c) as [->|]; [eapply Hr; eassumption|]. apply S2. exists l. auto.
  Qed.
  Lemma sound_step sg cmd sg' : good_sig sg -> sound_sig sg -> typable_cmd sg cmd sg' -> models W le v cmd ->
    sound_sig sg' /\ forall A, proves cmd A -> valid A.
  Proof.
    intros Hg Hs [c it sg1 H|rs sg1 _ (_ & HT & HR & _)] Hm.
    - remember (VIntro c it) as cmd0 eqn:Ecmd.
      destruct H as [d rw A sg1 _ Hx|d A sg1 _ Hx|d A t sg1 (_ & s & Ss & Hw) (_ & Ht) Hx|d A t sg1 (_ & Ht & s & Ss & Hw) Hx|d A t sg1 (_ & s & Ss & Hw) (_ & Ht) Hx];
        clear Ecmd; cbn in Hm; try apply derives_wt in Ht; try apply derives_wt in Hw.
      + split; [eapply sound_extend; [exact Hs|exact Hx|exact Hm|]|intros B HB; inversion HB]. intros l r. destruct rw; [intros [= <-] []|discriminate].
      + split; [eapply sound_extend; [exact Hs|exact Hx|exact Hm|]|intros B HB; inversion HB]. intros l r [= <-] [].
      + pose proof (sound_sig_closed _ _ _ _ Hg Hs Ht Ss Hw) as HA. split; [|intros B HB; inversion HB; subst; exact HA].
        eapply sound_extend; [exact Hs|exact Hx|exact HA|]. intros l r [= <-] [<-|[]]. exact Hm.
      + pose proof (sound_sig_closed _ _ _ _ Hg Hs Ht Ss Hw) as HA. split; [|intros B HB; inversion HB].
        eapply sound_extend; [exact Hs|exact Hx|exact HA|]. intros l r [= <-] [<-|[]]. exact Hm.
      + pose proof (sound_sig_closed _ _ _ _ Hg Hs Ht Ss Hw) as HA. split; [|intros B HB; inversion HB; subst; exact HA].
        eapply sound_extend; [exact Hs|exact Hx|exact HA|]. discriminate.
    - cbn in Hm. destruct Hs as [S1 S2]. split; [split|intros A HA; inversion HA].
      + intros c A. rewrite HT. apply S1.
      + intros c r (l & E & Hin & Hu). rewrite HR in E. destruct (sg_rules sg c) as [l0|] eqn:E0; [|discriminate]. injection E as <-.
        apply in_app_or in Hin. destruct Hin as [Hin|Hin]; [apply S2; exists l0; auto|].
        apply rules_for_in in Hin as (r0 & H0 & <- & ->). cbn. apply Hm. exact H0.
  Qed.
  Lemma sound_empty eta : sound_sig (empty_sig eta).
  Proof. split; [discriminate|]. intros c r (l & E & _). discriminate. Qed.

  Lemma sound_free sg vs sg' : typable_all sg vs sg' -> definitional sg -> sound_sig sg -> Forall (models W le v) vs ->
    forall cmd A, In cmd vs -> proves cmd A -> valid A.
  Proof.
    induction 1 as [sg|sg cmd0 sg1 vs sg2 H _ IH]; intros Hd Hs Hm cmd A Hin Hp; [destruct Hin|].
    inversion Hm as [|? ? M1 M2]; subst.
    assert (Hc : typable_cmd sg cmd0 sg1) by (destruct H; constructor; econstructor; eassumption).
    destruct (sound_step _ _ _ (definitional_good_sig _ Hd) Hs Hc M1) as [S1 S2].
    destruct Hin as [<-|Hin]; [apply S2; exact Hp|]. eapply IH; try eassumption. eapply typable_definitional; eassumption.
  Qed.

  Lemma sound_rec P (HP : normal_class P) jobs : let o := Opts false None jobs in
    forall evs pre cmds0 sg cmds sg', recursive_events P jobs (pre ++ evs) ->
    share_results pre (pst_new o) = map Ok cmds0 -> typable_cmds (empty_sig false) (map er_cmd cmds0) sg -> built sg ->
    fresh_next (share_state pre (pst_new o)) -> (forall d, sg_type sg d <> None -> d < ps_next (share_state pre (pst_new o))) -> sound_sig sg ->
    share_results evs (share_state pre (pst_new o)) = map Ok cmds -> typable_cmds sg (map er_cmd cmds) sg' -> Forall (models W le v) (map er_cmd cmds) ->
    forall cmd A, In cmd (map er_cmd cmds) -> proves cmd A -> valid A.
  Proof.
    intros o. induction evs as [|ev evs IH]; intros pre cmds0 sg cmds sg' Hrec Hs0 Ht0 Hb Hf Hn Hs Hsh Ht Hm cmd A Hin Hp.
    - cbn in Hsh. destruct cmds; [destruct Hin|discriminate].
    - assert (Epre : share_state (pre ++ [ev]) (pst_new o) = fst (from_event ev (share_state pre (pst_new o)))).
      { clear. generalize (pst_new o). induction pre as [|e pre IH]; intros st; cbn; [reflexivity|apply IH]. }
      assert (Hrec' : recursive_events P jobs ((pre ++ [ev]) ++ evs)) by (rewrite <- app_assoc; exact Hrec).
      destruct (from_event_fresh ev _ Hf) as (F1 & F2 & F3). cbn [share_results] in Hsh.
      assert (Hres : share_results (pre ++ [ev]) (pst_new o) =
        share_results pre (pst_new o) ++ match snd (from_event ev (share_state pre (pst_new o))) with Some r => [r] | None => [] end).
      { rewrite share_results_app. f_equal. cbn. destruct (from_event ev (share_state pre (pst_new o))) as [st1 [r|]]; reflexivity. }
      destruct ev as [path|c].
      + cbn [from_event snd] in Hsh, Hres. rewrite app_nil_r in Hres.
        refine (IH (pre ++ [EvModule path]) cmds0 sg cmds sg' Hrec' (eq_trans Hres Hs0) Ht0 Hb _ _ Hs _ Ht Hm cmd A Hin Hp).
        * rewrite Epre. exact F1.
        * rewrite Epre. intros d Hd. apply Hn in Hd. lia.
        * rewrite Epre. exact Hsh.
      + destruct (Hrec pre c evs cmds0 sg eq_refl Hs0 Ht0) as [HPs Hann].
        cbn [from_event] in *. fold o in Hann. destruct (share c (share_state pre (pst_new o))) as [st1 r1] eqn:Es. cbn [fst snd option_map] in *.
        destruct cmds as [|cmd1 cmds]; [destruct r1; discriminate|]. cbn [map] in Hsh, Ht, Hm, Hin. injection Hsh as -> Hsh.
        destruct (F3 cmd1 eq_refl) as [_ F4].
        inversion Ht as [|? ? sg1 ? ? T1 T2]; subst. inversion Hm as [|? ? M1 M2]; subst.
        destruct (sound_step _ _ _ (built_good_sig P sg HP Hb HPs) Hs T1 M1) as [S1 S2].
        destruct Hin as [<-|Hin]; [apply S2; exact Hp|].
        assert (Hb1 : built sg1).
        { destruct cmd1 as [d it|rs]; cbn [er_cmd] in T1.
          - inversion T1 as [? ? ? X|]; subst. destruct (F4 d it eq_refl) as [E _]. eapply typable_built; [exact Hb| |exact X]. rewrite <- E. exact Hn.
          - inversion T1 as [|? ? X1 X2]; subst. eapply rules_built; [exact Hb|exact (Hann _ eq_refl)|exact X1|exact X2]. }
        assert (Hn1 : forall d, sg_type sg1 d <> None -> d < ps_next (share_state (pre ++ [EvCommand c]) (pst_new o))).
        { intros d Hd. destruct cmd1 as [d' it|rs]; cbn [er_cmd] in T1.
          - destruct (F4 d' it eq_refl) as [E1 E2]. inversion T1 as [? ? ? X|]; subst. apply typable_extends in X as (? & ? & ? & (_ & HT & _) & _). rewrite HT in Hd.
            destruct (Nat.eqb_spec d (ps_next (share_state pre (pst_new o)))) as [->|]; [exact E2|]. apply Hn in Hd. lia.
          - inversion T1 as [|? ? _ (_ & HT & _)]; subst. rewrite HT in Hd. apply Hn in Hd. lia. }
        refine (IH (pre ++ [EvCommand c]) (cmds0 ++ [cmd1]) sg1 cmds sg' Hrec' _ _ Hb1 _ _ S1 _ T2 M2 cmd A Hin Hp); try assumption.
        * rewrite Hres, Hs0, map_app. reflexivity.
        * rewrite map_app. eapply typable_app; eassumption.
  Qed.
End Step.

(** ** Programs *)
Lemma elaborates_unique srcs vs vs' : Forall (fun src => Forall nonempty (snd src)) srcs -> elaborates srcs vs -> elaborates srcs vs' -> vs = vs'.
Proof.
  intros Hn H H'. destruct (elab_sources_share srcs Hn [] 0 (pst_new (Opts false None false)) vs (at_hist_new _) H) as (cmds & E & <-).
  destruct (elab_sources_share srcs Hn [] 0 (pst_new (Opts false None false)) vs' (at_hist_new _) H') as (cmds' & E' & <-). f_equal.
  rewrite E in E'. clear - E'. revert cmds' E'. induction cmds as [|x cmds IH]; intros [|y cmds']; cbn; try discriminate; [reflexivity|]. intros [= -> E]. f_equal. auto.
Qed.

Section Programs.
  Variables (W : Type) (le : W -> W -> Prop) (v : nat -> W -> Prop).
  Hypothesis Hk : kripke W le v.
  Lemma free_valid eta srcs vs : Forall (fun src => Forall nonempty (snd src)) srcs -> typable_sources eta srcs -> elaborates srcs vs ->
    Forall (models W le v) vs -> forall cmd A, In cmd vs -> proves cmd A -> valid W le v A.
  Proof.
    intros Hn (vs' & sg & H1 & H2) He Hm. rewrite <- (elaborates_unique _ _ _ Hn H1 He) in *.
    eapply sound_free; [exact Hk|exact H2| |apply sound_empty|exact Hm]. apply df_empty; reflexivity.
  Qed.
  Lemma rec_valid P srcs vs : normal_class P -> Forall (fun src => Forall nonempty (snd src)) srcs -> sources_in P srcs -> typable_program srcs -> elaborates srcs vs ->
    Forall (models W le v) vs -> forall cmd A, In cmd vs -> proves cmd A -> valid W le v A.
  Proof.
    intros HP Hn Hin (vs' & sg & H1 & H2) He Hm. rewrite <- (elaborates_unique _ _ _ Hn H1 He) in *.
    destruct (elab_sources_share srcs Hn [] 0 (pst_new (Opts false None false)) vs' (at_hist_new _) H1) as (cmds & E & <-).
    refine (sound_rec W le v Hk P HP false (program_events srcs) [] [] (empty_sig false) cmds sg _ eq_refl _ _ _ _ _ E H2 Hm).
    - exact (recursive_share P srcs false Hn Hin).
    - constructor.
    - apply bt_empty; reflexivity.
    - exact (proj1 (proj2 (proj2 (rinv_new false)))).
    - intros d Hd. destruct (Hd eq_refl).
    - apply sound_empty.
  Qed.
End Programs.

Theorem main_sem_sound junk O n eta jobs channel inputs srcs vs W le v : Forall2 (source_of junk) inputs srcs -> without_rules srcs -> elaborates srcs vs ->
  kocheck junk (real_kernel O n) (Opts eta None jobs) channel inputs (Ok tt) ->
  kripke W le v -> Forall (models W le v) vs -> forall cmd A, In cmd vs -> proves cmd A -> valid W le v A.
Proof.
  intros Hs Hw He Hrun Hk. destruct (main_whole_accepts junk O eta jobs channel inputs srcs Hs Hw) as (_ & _ & H).
  apply (free_valid W le v Hk eta srcs vs); [exact (source_of_nonempty _ _ _ Hs)|exact (H _ Hrun)|exact He].
Qed.
Theorem main_sem_rec P (HP : normal_class P) junk O n jobs channel inputs srcs vs W le v : Forall2 (source_of junk) inputs srcs -> sources_in P srcs -> elaborates srcs vs ->
  kocheck junk (real_kernel O n) (Opts false None jobs) channel inputs (Ok tt) ->
  kripke W le v -> Forall (models W le v) vs -> forall cmd A, In cmd vs -> proves cmd A -> valid W le v A.
Proof.
  intros Hs Hw He Hrun Hk. destruct (main_rec_accepts P HP junk O jobs channel inputs srcs Hs Hw) as (_ & _ & H).
  apply (rec_valid W le v Hk P srcs vs HP); [exact (source_of_nonempty _ _ _ Hs)|exact Hw|exact (H _ Hrun)|exact He].
Qed.
Theorem main_sem_definitional sg W le v : definitional sg -> kripke W le v ->
  (forall c A, sg_type sg c = Some A -> valid W le v A) -> (forall c r, rule_of sg c r -> forall w, v c w <-> holds W le v (sr_rhs r) w) ->
  forall t A s, well_typed sg [] t (strip A) -> s = Typ \/ s = Kind -> well_typed sg [] (strip A) s -> valid W le v A.
Proof. intros Hd Hk H1 H2 t A s. apply (sound_sig_closed W le v Hk); [apply definitional_good_sig; exact Hd|split; assumption]. Qed.

(** ** Models of definitions *)
Section Extend.
  Variables (W : Type) (le : W -> W -> Prop).
  Fixpoint extend (v : nat -> W -> Prop) (vs : list vcmd) : nat -> W -> Prop :=
    match vs with
    | [] => v
    | VIntro c (IDefinition _ (Some t)) :: vs => extend (fun d w => if d =? c then holds W le v t w else v d w) vs
    | _ :: vs => extend v vs
    end.
  Lemma extend_kripke vs : forall v, kripke W le v -> kripke W le (extend v vs).
  Proof.
    induction vs as [|[c [A [t|]|A t|rw A]|rs] vs IH]; intros v Hv; cbn; auto. apply IH. split; [apply Hv|]. split; [apply Hv|].
    intros d w w' Hw. destruct (d =? c); [apply holds_mono; assumption|apply Hv; exact Hw].
  Qed.
  Lemma extend_other vs : forall v c, (forall cmd, In cmd vs -> ~ defines cmd c) -> forall w, extend v vs c w <-> v c w.
  Proof.
    induction vs as [|cmd vs IH]; intros v c H w; cbn; [tauto|].
    assert (H' : forall cmd, In cmd vs -> ~ defines cmd c) by (intros cmd' Hin; apply H; right; exact Hin).
    destruct cmd as [d [A [t|]|A t|rw A]|rs]; cbn; try apply (IH _ _ H').
    rewrite (IH _ _ H'). destruct (Nat.eqb_spec c d) as [->|]; [|tauto]. destruct (H _ (or_introl eq_refl)). constructor.
  Qed.
  (** [holds] depends on the symbols of a term only *)
  Lemma holds_agree sg v v' : (forall c, sg_type sg c <> None -> forall w, v c w <-> v' c w) ->
    forall G t A, well_typed sg G t A -> forall w, holds W le v t w <-> holds W le v' t w.
  Proof.
    intros H G t A. induction 1; intros w; cbn; try tauto.
    - apply H. congruence.
    - apply IHwell_typed1.
    - apply IHwell_typed2.
    - split; intros X w' Hw Ha; apply IHwell_typed2; apply X; try exact Hw; apply IHwell_typed1; exact Ha.
    - apply IHwell_typed.
  Qed.
  Lemma extend_old sg vs sg' : typable_all sg vs sg' -> forall c, sg_type sg c <> None -> forall cmd, In cmd vs -> ~ defines cmd c.
  Proof.
    induction 1 as [sg|sg cmd0 sg1 vs sg2 H _ IH]; intros c Hc cmd Hin Hd; [destruct Hin|].
    assert (X : forall d, sg_type sg d <> None -> sg_type sg1 d <> None).
    { intros d. assert (Hx : exists c A rs, extends sg c A rs sg1) by (destruct H; eauto). destruct Hx as (e & A & rs & _ & HT & _). rewrite HT. destruct (d =? e); [discriminate|auto]. }
    destruct Hin as [<-|Hin]; [|exact (IH c (X _ Hc) cmd Hin Hd)].
    destruct Hd as [c A t]. inversion H as [| |? ? ? ? _ _ (Hn & _)|? ? ? ? _ (Hn & _)|]; subst; congruence.
  Qed.
  Lemma extend_models sg vs sg' : typable_all sg vs sg' -> forall v cmd c, In cmd vs -> defines cmd c -> models W le (extend v vs) cmd.
  Proof.
    induction 1 as [sg|sg cmd0 sg1 vs sg2 H Hvs IH]; intros v cmd c Hin Hd; [destruct Hin|].
    destruct Hin as [->|Hin]; [|destruct cmd0 as [d [A [t|]|A t|rw A]|rs]; cbn [extend]; eapply IH; eassumption].
    destruct Hd as [c A t]. cbn [extend models].
    assert (X : (forall d, sg_type sg1 d = None -> sg_type sg d = None) /\ sg_type sg c = None /\ sg_type sg1 c <> None /\ exists B, well_typed sg [] (strip t) B).
    { inversion H as [| |? B ? ? _ [_ Ht] (Hn & HT & _)|? B ? ? (_ & Ht & _) (Hn & HT & _)|]; subst.
      - split; [intros d; rewrite HT; destruct (d =? c); [discriminate|auto]|]. split; [exact Hn|]. split; [rewrite HT, Nat.eqb_refl; discriminate|]. eexists. exact (derives_wt _ _ _ _ Ht).
      - split; [intros d; rewrite HT; destruct (d =? c); [discriminate|auto]|]. split; [exact Hn|]. split; [rewrite HT, Nat.eqb_refl; discriminate|]. eexists. exact (derives_wt _ _ _ _ Ht). }
    destruct X as (X1 & X2 & X3 & B & X4). set (v1 := fun d w => if d =? c then holds W le v t w else v d w).
    assert (Y : forall d, sg_type sg1 d <> None -> forall w, extend v1 vs d w <-> v1 d w).
    { intros d Hd. apply extend_other. eapply extend_old; eassumption. }
    cut (forall w, extend v1 vs c w <-> holds W le (extend v1 vs) t w); [destruct A; intros K; exact K|]. intros w.
    rewrite (Y c X3). unfold v1 at 1. rewrite Nat.eqb_refl. rewrite <- (holds_strip W le v), <- (holds_strip W le (extend v1 vs)).
    refine (holds_agree sg v (extend v1 vs) _ [] (strip t) B X4 w). intros d Hd w0.
    assert (Z : sg_type sg1 d <> None) by (intros E; apply Hd, X1; exact E). rewrite (Y d Z w0). unfold v1. destruct (Nat.eqb_spec d c) as [->|]; [congruence|tauto].
  Qed.
End Extend.

Theorem main_sem_extends eta srcs vs W le v : Forall (fun src => Forall nonempty (snd src)) srcs -> typable_sources eta srcs -> elaborates srcs vs -> kripke W le v ->
  exists v', kripke W le v' /\ (forall c, (forall cmd, In cmd vs -> ~ defines cmd c) -> forall w, v' c w <-> v c w) /\
    forall cmd c, In cmd vs -> defines cmd c -> models W le v' cmd.
Proof.
  intros Hn (vs' & sg & H1 & H2) He Hk. rewrite <- (elaborates_unique _ _ _ Hn H1 He) in *. exists (extend W le v vs').
  split; [apply extend_kripke; exact Hk|]. split; [intros c; apply extend_other|]. intros cmd c. eapply extend_models. exact H2.
Qed.

(** ** Consequences *)
Lemma tip_holds W le (v : nat -> W -> Prop) c : (forall d w, d <> c -> v d w) -> forall A, tip A <> Some c -> valid W le v A.
Proof.
  intros Hv A. unfold valid. induction A; cbn; intros H w; try exact I; auto.
Qed.
Lemma models_free W le v vs : (forall cmd rs, In cmd vs -> cmd <> VRules rs) ->
  (forall cmd c A, In cmd vs -> assumes cmd c A -> valid W le v A) -> (forall cmd c, In cmd vs -> defines cmd c -> models W le v cmd) -> Forall (models W le v) vs.
Proof.
  intros Hr Ha Hd. apply Forall_forall. intros cmd Hin. destruct cmd as [c [[A|] [t|]|A t|rw A]|rs]; cbn [models].
  - apply (Hd _ c Hin). constructor.
  - apply (Ha _ c A Hin). constructor.
  - apply (Hd _ c Hin). constructor.
  - exact I.
  - exact I.
  - apply (Ha _ c A Hin). constructor.
  - destruct (Hr _ rs Hin eq_refl).
Qed.
Lemma typable_all_free sg vs sg' : typable_all sg vs sg' -> forall cmd rs, In cmd vs -> cmd <> VRules rs.
Proof. induction 1 as [|sg cmd0 sg1 vs sg2 H _ IH]; intros cmd rs []; [subst; destruct H; discriminate|eauto]. Qed.

(** A symbol that is not at the end of an assumption is not inhabited. *)
Theorem main_sem_consistent junk O n eta jobs channel inputs srcs vs c : Forall2 (source_of junk) inputs srcs -> without_rules srcs -> elaborates srcs vs ->
  kocheck junk (real_kernel O n) (Opts eta None jobs) channel inputs (Ok tt) ->
  (forall cmd, In cmd vs -> ~ defines cmd c) ->
  (forall cmd d A e, In cmd vs -> assumes cmd d A -> tip A = Some e -> e <> c /\ forall cmd', In cmd' vs -> ~ defines cmd' e) ->
  forall cmd A, In cmd vs -> proves cmd A -> head A <> Const c.
Proof.
  intros Hs Hw He Hrun Hc Ha cmd A Hin Hp Hh. pose proof (source_of_nonempty _ _ _ Hs) as Hn.
  destruct (main_whole_accepts junk O eta jobs channel inputs srcs Hs Hw) as (_ & _ & Ht). apply Ht in Hrun. clear Ht.
  set (v := fun (d : nat) (_ : unit) => d <> c). assert (Hk : kripke unit (fun _ _ => True) v) by (repeat split; auto).
  destruct (main_sem_extends eta srcs vs unit _ v Hn Hrun He Hk) as (v' & Hk' & Hv & Hd).
  assert (Hm : Forall (models unit (fun _ _ => True) v') vs).
  { apply models_free; [|intros cmd0 d B H1 H2|exact Hd].
    - destruct Hrun as (vs' & sg & H1 & H2). rewrite <- (elaborates_unique _ _ _ Hn H1 He). exact (typable_all_free _ _ _ H2).
    - assert (X : forall e, tip B = Some e -> forall w, v' e w).
      { intros e E w. destruct (Ha _ _ _ _ H1 H2 E) as [E1 E2]. apply Hv; [exact E2|exact E1]. }
      clear - X. unfold valid. induction B; cbn in *; intros w; try exact I; auto. }
  pose proof (free_valid unit _ v' Hk' eta srcs vs Hn Hrun He Hm cmd A Hin Hp tt) as X.
  assert (Y : v' c tt) by (clear - X Hh; induction A; cbn in *; try discriminate; [injection Hh as ->; exact X|auto]).
  apply (Hv c Hc) in Y. apply Y. reflexivity.
Qed.
(** the same with rewrite rules, for programs that avoid the symbol *)
Theorem main_sem_avoids P (HP : normal_class P) junk O n jobs channel inputs srcs vs c : Forall2 (source_of junk) inputs srcs -> sources_in P srcs -> elaborates srcs vs ->
  kocheck junk (real_kernel O n) (Opts false None jobs) channel inputs (Ok tt) -> Forall (avoids c) vs ->
  forall cmd A, In cmd vs -> proves cmd A -> head A <> Const c.
Proof.
  intros Hs Hw He Hrun Ha cmd A Hin Hp Hh.
  set (v := fun (d : nat) (_ : unit) => d <> c). assert (Hk : kripke unit (fun _ _ => True) v) by (repeat split; auto).
  assert (Ht : forall B, tip B <> Some c -> valid unit (fun _ _ => True) v B) by (apply tip_holds; intros d w H; exact H).
  assert (Hm : Forall (models unit (fun _ _ => True) v) vs).
  { eapply Forall_impl; [|exact Ha]. intros [d [[B|] [t|]|B t|rw B]|rs]; cbn [avoids models]; auto.
    - intros [H1 H2] w. split; intros _; [apply Ht; exact H2|exact H1].
    - intros [H1 H2] w. split; intros _; [apply Ht; exact H2|exact H1].
    - intros H r Hr w. destruct (H r Hr) as [H1 H2]. split; intros _; [apply Ht; exact H2|exact H1]. }
  pose proof (main_sem_rec P HP junk O n jobs channel inputs srcs vs unit _ v Hs Hw He Hrun Hk Hm cmd A Hin Hp tt) as X.
  assert (Y : v c tt) by (clear - X Hh; induction A; cbn in *; try discriminate; [injection Hh as ->; exact X|auto]).
  apply Y. reflexivity.
Qed.
(** The logic is not classical: if only types are declared, there is no proof of Peirce's law. *)
Theorem main_sem_peirce junk O n eta jobs channel inputs srcs vs a b : Forall2 (source_of junk) inputs srcs -> without_rules srcs -> elaborates srcs vs ->
  kocheck junk (real_kernel O n) (Opts eta None jobs) channel inputs (Ok tt) ->
  (forall cmd d A, In cmd vs -> assumes cmd d A -> A = Typ) -> a <> b ->
  (forall cmd, In cmd vs -> ~ defines cmd a /\ ~ defines cmd b) ->
  forall cmd, In cmd vs -> ~ proves cmd (peirce a b).
Proof.
  intros Hs Hw He Hrun Ha Hab Hdef cmd Hin Hp. pose proof (source_of_nonempty _ _ _ Hs) as Hn.
  destruct (main_whole_accepts junk O eta jobs channel inputs srcs Hs Hw) as (_ & _ & Ht). apply Ht in Hrun. clear Ht.
  set (le := fun x y : bool => x = true -> y = true). set (v := fun (d : nat) (w : bool) => d = a /\ w = true).
  assert (Hk : kripke bool le v) by (unfold le, v; repeat split; tauto).
  destruct (main_sem_extends eta srcs vs bool le v Hn Hrun He Hk) as (v' & Hk' & Hv & Hd).
  assert (Hm : Forall (models bool le v') vs).
  { apply models_free; [|intros cmd0 d B H1 H2|exact Hd].
    - destruct Hrun as (vs' & sg & H1 & H2). rewrite <- (elaborates_unique _ _ _ Hn H1 He). exact (typable_all_free _ _ _ H2).
    - rewrite (Ha _ _ _ H1 H2). intros w. exact I. }
  pose proof (free_valid bool le v' Hk' eta srcs vs Hn Hrun He Hm cmd _ Hin Hp false) as X. cbn in X.
  assert (Va : forall w, v' a w <-> w = true).
  { intros w. rewrite (Hv a (fun cmd H => proj1 (Hdef cmd H))). unfold v. tauto. }
  assert (Vb : forall w, ~ v' b w).
  { intros w. rewrite (Hv b (fun cmd H => proj2 (Hdef cmd H))). unfold v. intros [E _]. apply Hab. symmetry. exact E. }
  assert (F : v' a false); [|apply Va in F; discriminate].
  apply X; [intros E; exact E|]. intros w' _ Y. exfalso. apply (Vb true). apply Y; [intros _; reflexivity|]. apply Va. reflexivity.
Qed.
Theorem main_sem_web junk O eta modules srcs vs W le v : Forall2 (web_source junk) modules srcs -> without_rules srcs -> elaborates srcs vs ->
  kripke W le v -> Forall (models W le v) vs ->
  exists n0, forall n, n0 <= n -> web_check junk (real_kernel O n) (Opts eta None false) modules (Ok tt) -> forall cmd A, In cmd vs -> proves cmd A -> valid W le v A.
Proof.
  intros Hs Hw He Hk Hm. destruct (main_whole_web junk O eta modules srcs Hs Hw) as (n0 & r & _ & _ & H & Ht).
  exists n0. intros n Hn Hrun. apply (H n Hn) in Hrun. symmetry in Hrun. apply Ht in Hrun.
  apply (free_valid W le v Hk eta srcs vs); [exact (web_source_nonempty _ _ _ Hs)|exact Hrun|exact He|exact Hm].
Qed.

(** For examples *)
Fixpoint oks {E A} (rs : list (res E A)) : list A := match rs with [] => [] | Ok x :: rs => x :: oks rs | _ :: rs => oks rs end.
Definition is_ok {E A} (r : res E A) : bool := match r with Ok _ => true | _ => false end.
Lemma all_oks {E A} (rs : list (res E A)) : forallb is_ok rs = true -> rs = map Ok (oks rs).
Proof. induction rs as [|[x|e| |] rs IH]; cbn; try discriminate; [reflexivity|]. intros H. rewrite <- IH by exact H. reflexivity. Qed.
Notation results evs := (share_results evs (pst_new (Opts false None false))).
Lemma sem_elaborates junk inputs srcs evs vs : Forall2 (source_of junk) inputs srcs -> program_events srcs = evs ->
  forallb is_ok (results evs) && true = true -> map er_cmd (oks (results evs)) = vs -> elaborates srcs vs.
Proof.
  intros Hs <- H1 <-. rewrite andb_true_r in H1. eapply sources_elab; [exact (source_of_nonempty _ _ _ Hs)|apply at_hist_new|]. apply all_oks. exact H1.
Qed.
Lemma sem_sources junk inputs files evs vs : Forall2 (opens junk) inputs files -> files_events parse_error files = Some evs -> rule_free evs ->
  forallb is_ok (results evs) && true = true -> map er_cmd (oks (results evs)) = vs ->
  exists srcs, Forall2 (source_of junk) inputs srcs /\ without_rules srcs /\ elaborates srcs vs.
Proof.
  intros H1 H2 H3 H4 H5. destruct (opens_sources _ _ _ H1 _ H2) as (srcs & H6 & ->). exists srcs. split; [exact H6|]. split; [apply free_without_rules; exact H3|].
  eapply sem_elaborates; [exact H6|reflexivity|exact H4|exact H5].
Qed.
(** definitions of accepted programs have models *)
Theorem main_sem_extends_run junk O n eta jobs channel inputs srcs vs W le v : Forall2 (source_of junk) inputs srcs -> without_rules srcs -> elaborates srcs vs ->
  kocheck junk (real_kernel O n) (Opts eta None jobs) channel inputs (Ok tt) -> kripke W le v ->
  exists v', kripke W le v' /\ (forall c, (forall cmd, In cmd vs -> ~ defines cmd c) -> forall w, v' c w <-> v c w) /\
    forall cmd c, In cmd vs -> defines cmd c -> models W le v' cmd.
Proof.
  intros Hs Hw He Hrun Hk. destruct (main_whole_accepts junk O eta jobs channel inputs srcs Hs Hw) as (_ & _ & Ht). apply Ht in Hrun.
  exact (main_sem_extends eta srcs vs W le v (source_of_nonempty _ _ _ Hs) Hrun He Hk).
Qed.
