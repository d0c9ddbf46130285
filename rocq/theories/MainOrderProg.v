(** * Lemmas for C83: exchanging introductions *)

From Verif Require Import Base LibMono ModelTerm ModelGctx ModelCommand ModelSubst ModelReduce ModelInfer ModelSyntax ModelSymbols ModelShare ModelLex ModelParse ModelMake ModelProcess ModelMain
  SpecTerm SpecConv SpecQuery SpecSyntax SpecSymbols SpecShare SpecProcess SpecDecide SpecMake SpecParse SpecProgram SpecWhole SpecEmbed SpecOrder
  Erase RefMap MainKernel MainGctx MainProcess MainRun MainVerify MainDecide MainProgram MainWhole MainAlpha MainAlphaProg MainEmbed MainEmbedProg RefMachine SpecConvFacts MainOrder.

Lemma cmds_run_app K o cs cs' : forall g, cmds_run K o (cs ++ cs') g = match cmds_run K o cs g with (g, Ok _) => cmds_run K o cs' g | e => e end.
Proof. induction cs as [|c cs IH]; intros g; cbn [app cmds_run]; [reflexivity|]. destruct (infer_check K o c g) as [g' [[]|e| |]]; try reflexivity. apply IH. Qed.
Lemma embeds_map f vs : embeds f vs (map (cm_vcmd f) vs).
Proof. induction vs; cbn; constructor; assumption. Qed.
Lemma embeds_fixed f vs vs' : map (cm_vcmd f) vs = vs' -> embeds f vs vs'.
Proof. intros <-. apply embeds_map. Qed.
Definition other (e : nat) (v : vcmd) : Prop := match v with VIntro x _ => e <> x | VRules rs => forall r, In r rs -> v_head r <> e end.
Lemma infer_check_keeps O n o c g g' e : proper_gctx g -> proper_cmd c -> infer_check (real_kernel O n) o c g = (g', Ok tt) -> other e (er_cmd c) ->
  get_type g' e = get_type g e /\ get_rules g' e = get_rules g e.
Proof.
  intros P Pc H Ho. destruct (infer_check_other _ _ _ _ _ _ P Pc H) as (_ & _ & T & R). split; [apply T|apply R; exact Ho]. destruct (er_cmd c); [exact Ho|exact I].
Qed.
Lemma cmds_keep O n o e cs : forall g g', proper_gctx g -> Forall proper_cmd cs -> cmds_run (real_kernel O n) o cs g = (g', Ok tt) -> Forall (fun c => other e (er_cmd c)) cs ->
  get_type g' e = get_type g e /\ get_rules g' e = get_rules g e.
Proof.
  induction cs as [|c cs IH]; intros g g' P Pc H Ho; cbn [cmds_run] in H; [injection H as <-; auto|]. inversion Pc; subst. inversion Ho; subst.
  destruct (infer_check (real_kernel O n) o c g) as [g1 [[]|er| |]] eqn:E; try discriminate. assert (P1 := proj1 (infer_check_other _ _ _ _ _ _ P H2 E)).
  destruct (infer_check_keeps _ _ _ _ _ _ e P H2 E H4) as [<- <-]. apply IH; assumption.
Qed.

(** [c] is not hit: it goes to a new symbol *)
Definition aside (N c k e : nat) : nat := if e =? c then N + k else if e <? N then e else e + S k.
Ltac cases := repeat match goal with
  | |- context [?a =? ?b] => destruct (Nat.eqb_spec a b) | H : context [?a =? ?b] |- _ => destruct (Nat.eqb_spec a b)
  | |- context [?a <? ?b] => destruct (Nat.ltb_spec a b) | H : context [?a <? ?b] |- _ => destruct (Nat.ltb_spec a b) end.
Lemma aside_inj N c k : c < N -> injective (aside N c k).
Proof. intros H a b. unfold aside. cases; lia. Qed.
Lemma aside_miss N c k e : c < N -> aside N c k e <> c.
Proof. intros H. unfold aside. cases; lia. Qed.
Lemma aside_two N c e : aside N c 0 e = aside N c 1 e -> aside N c 0 e = e /\ e <> c /\ e < N.
Proof. unfold aside. cases; lia. Qed.
Lemma aside_fix N c k e : e < N -> e <> c -> aside N c k e = e.
Proof. unfold aside. cases; lia. Qed.
Lemma aside_moves N c k e : aside N c k e <> e -> e = c \/ N <= e.
Proof. unfold aside. cases; lia. Qed.
Lemma exchange_inv c d e : exchange c d (exchange c d e) = e.
Proof. unfold exchange. cases; congruence. Qed.
Lemma exchange_inj c d : injective (exchange c d).
Proof. intros a b E. rewrite <- (exchange_inv c d a), E. apply exchange_inv. Qed.
Lemma exchange_c c d : exchange c d c = d.
Proof. unfold exchange. rewrite Nat.eqb_refl. reflexivity. Qed.
Lemma exchange_d c d : exchange c d d = c.
Proof. unfold exchange. rewrite Nat.eqb_refl. destruct (Nat.eqb_spec d c); congruence. Qed.
Lemma exchange_other c d e : e <> c -> e <> d -> exchange c d e = e.
Proof. unfold exchange. cases; congruence. Qed.
Lemma comp_inj g f : injective g -> injective f -> injective (comp g f).
Proof. intros Hg Hf a b E. apply Hf, Hg. exact E. Qed.

Section Exchange.
  Variables (O1 O2 : query -> nat -> bool) (n1 n2 : nat) (o : opts) (c d : nat).
  Hypothesis Hcd : c < d.
  Let N := S d.
  Let s := exchange c d.
  Let K1 := real_kernel O1 n1.
  Let K2 := real_kernel O2 n2.
  Variables (A A' B B' : list command) (x y x' y' : command) (it jt : intro_ tm tm).
  Hypotheses (Ex : er_cmd x = VIntro c it) (Ey : er_cmd y = VIntro d jt).
  Hypotheses (Ex' : er_cmd x' = cm_vcmd s (er_cmd x)) (Ey' : er_cmd y' = cm_vcmd s (er_cmd y)).
  Hypotheses (EA : map er_cmd A' = map (cm_vcmd s) (map er_cmd A)) (EB : map er_cmd B' = map (cm_vcmd s) (map er_cmd B)).
  Hypotheses (PA : Forall proper_cmd A) (PA' : Forall proper_cmd A') (PB : Forall proper_cmd B) (PB' : Forall proper_cmd B') (Px : proper_cmd x) (Py : proper_cmd y) (Px' : proper_cmd x') (Py' : proper_cmd y').
  Hypothesis FA : forall h, (forall e, h e <> e -> c <= e) -> map (cm_vcmd h) (map er_cmd A) = map er_cmd A.
  Hypothesis Fx : forall h, (forall e, h e <> e -> d <= e) -> cm_vcmd h (er_cmd x) = er_cmd x.
  Hypothesis Fy : forall h, (forall e, h e <> e -> e = c \/ d < e) -> cm_vcmd h (er_cmd y) = er_cmd y.
  Hypothesis NA : forall e, c <= e -> Forall (fun v => other e (er_cmd v)) A.
  Let EA' : map er_cmd A' = map er_cmd A.
  Proof. rewrite EA. apply FA. intros e He. unfold s, exchange in He. revert He. cases; lia. Qed.
  Let NA' : forall e, c <= e -> Forall (fun v => other e (er_cmd v)) A'.
  Proof. intros e He. specialize (NA e He). rewrite <- (Forall_map er_cmd (other e)) in *. rewrite EA'. exact NA. Qed.
  Let h k := aside N c k.
  Let j k := aside N d k.
  Let hs k := comp (h k) s.
  Let sj k := comp s (j k).
  Let hs_inj k : injective (hs k).
  Proof. apply comp_inj; [apply aside_inj; lia|apply exchange_inj]. Qed.
  Let sj_inj k : injective (sj k).
  Proof. apply comp_inj; [apply exchange_inj|apply aside_inj; lia]. Qed.
  Lemma ex_core g : proper_gctx g -> (forall e, get_type g e = None /\ get_rules g e = None) -> snd (cmds_run K2 o (A ++ x :: y :: B) g) = Ok tt ->
    snd (cmds_run K1 o (A' ++ y' :: x' :: B') g) = Ok tt \/ snd (cmds_run K1 o (A' ++ y' :: x' :: B') g) = Fuel.
  Proof.
    intros Pg Ng. rewrite !cmds_run_app. intros H.
    assert (G0 : forall f, gemb f g g).
    { intros f. split; [exact Pg|]. split; [exact Pg|]. split; [|split; [|reflexivity]]; intros e; [rewrite (proj1 (Ng e)), (proj1 (Ng (f e)))|rewrite (proj2 (Ng e)), (proj2 (Ng (f e)))]; reflexivity. }
    destruct (cmds_run K2 o A g) as [gA [[]|e| |]] eqn:RA; try discriminate.
    assert (HA : forall k e, hs k e <> e -> c <= e).
    { intros k e. unfold hs, comp, h, s, exchange, aside. cases; lia. }
    assert (HA' : forall k e, sj k e <> e -> c <= e).
    { intros k e. unfold sj, comp, j, s, exchange, aside. cases; lia. }
    assert (XA : forall f, (forall e, f e <> e -> c <= e) -> injective f -> snd (cmds_run K1 o A' g) = Fuel \/ snd (cmds_run K1 o A' g) = Ok tt /\ gemb f (fst (cmds_run K1 o A' g)) gA).
    { intros f Hf Hi. pose proof (cmds_embed f Hi O1 O2 n1 n2 o (map er_cmd A') (map er_cmd A)) as X. specialize (X ltac:(apply embeds_fixed; rewrite EA'; apply FA; exact Hf) A' A g g eq_refl eq_refl PA' PA (G0 f)).
      fold K1 in X. fold K2 in X. rewrite RA in X. exact (X eq_refl). }
    destruct (cmds_run K1 o A' g) as [q rq] eqn:RA'. cbn [fst snd] in XA.
    destruct rq as [[]|er| |]; try (destruct (XA s) as [F|[F _]]; [intros e; unfold s, exchange; cases; lia|apply exchange_inj|discriminate|discriminate]); [|right; reflexivity].
    assert (Q1 : forall k, gemb (hs k) q gA) by (intros k; destruct (XA (hs k) (HA k) (hs_inj k)) as [F|[_ F]]; [discriminate|exact F]).
    assert (Q2 : forall k, gemb (sj k) gA q).
    { intros k. pose proof (cmds_embed (sj k) (sj_inj k) O2 O1 n2 n1 o (map er_cmd A) (map er_cmd A')) as X. specialize (X ltac:(apply embeds_fixed; rewrite EA'; apply FA; apply HA') A A' g g eq_refl eq_refl PA PA' (G0 _)).
      fold K1 in X. fold K2 in X. rewrite RA, RA' in X. destruct (X eq_refl) as [F|[_ F]]; [discriminate|exact F]. }
    assert (PgA : proper_gctx gA) by apply (Q1 0). assert (Pq : proper_gctx q) by apply (Q1 0).
    cbn [cmds_run] in H |- *. destruct (infer_check K2 o x gA) as [gx [[]|e| |]] eqn:Rx; try discriminate.
    assert (Q3 : forall k, gemb (hs k) q gx).
    { intros k. eapply gemb_skip; [apply Q1|exact Px| |exact Rx]. rewrite Ex. apply ap_intro. intros e E. symmetry in E. revert E. apply aside_miss. lia. }
    assert (Pgx : proper_gctx gx) by apply (Q3 0).
    destruct (infer_check K2 o y gx) as [gxy [[]|e| |]] eqn:Ry; try discriminate.
    assert (Y : forall k, cm_vcmd (hs k) (er_cmd y') = er_cmd y).
    { intros k. rewrite Ey', cm_vcmd_comp. apply Fy. intros e. unfold comp, hs, comp. unfold s. rewrite exchange_inv. intros He. apply aside_moves in He. lia. }
    assert (Sy : forall k, emb_step (hs k) (infer_check K1 o y' q) (infer_check K2 o y gx)) by (intros k; apply gemb_infer_check; auto).
    rewrite Ry in Sy. unfold emb_step in Sy. cbn [fst snd] in Sy. destruct (infer_check K1 o y' q) as [qy ry] eqn:Ry'. cbn [fst snd] in Sy.
    destruct ry as [[]|er| |]; try (destruct (Sy 0) as [F|[F|[F _]]]; discriminate); [|right; reflexivity].
    assert (Q4 : forall k, gemb (hs k) qy gxy) by (intros k; destruct (Sy k) as [F|[F|[_ F]]]; [discriminate|discriminate|exact (F eq_refl)]). clear Sy.
    assert (Q5 : forall k, gemb (sj k) gA qy).
    { intros k. eapply gemb_skip; [apply Q2|exact Py'| |exact Ry']. rewrite Ey', Ey. cbn [cm_vcmd]. apply ap_intro. intros e E. apply exchange_inj in E. symmetry in E. revert E. apply aside_miss. lia. }
    assert (Pqy : proper_gctx qy) by apply (Q4 0). assert (Pgxy : proper_gctx gxy) by apply (Q4 0).
    assert (X : forall k, cm_vcmd (sj k) (er_cmd x) = er_cmd x').
    { intros k. rewrite Ex'. unfold sj. rewrite <- cm_vcmd_comp. f_equal. apply Fx. intros e He. apply aside_moves in He. lia. }
    assert (Sx : forall k, emb_step (sj k) (infer_check K2 o x gA) (infer_check K1 o x' qy)) by (intros k; apply gemb_infer_check; auto).
    rewrite Rx in Sx. unfold emb_step in Sx. cbn [fst snd] in Sx. destruct (infer_check K1 o x' qy) as [qyx rx] eqn:Rx'. cbn [fst snd] in Sx.
    destruct rx as [[]|er| |]; try (destruct (Sx 0) as [F|[F|[F _]]]; discriminate); [|right; reflexivity].
    assert (Q6 : forall k, gemb (sj k) gx qyx) by (intros k; destruct (Sx k) as [F|[F|[_ F]]]; [discriminate|discriminate|exact (F eq_refl)]). clear Sx.
    assert (Pqyx : proper_gctx qyx) by apply (Q6 0).
    (** the context for the rest *)
    assert (Q : gemb s gxy qyx).
    { split; [exact Pgxy|]. split; [exact Pqyx|].
      assert (Sc : s c = d) by apply exchange_c. assert (Sd : s d = c) by apply exchange_d.
      assert (Ky : forall e, e <> d -> get_type gxy e = get_type gx e /\ get_rules gxy e = get_rules gx e).
      { intros e He. eapply infer_check_keeps; [exact Pgx|exact Py|exact Ry|]. rewrite Ey. exact He. }
      assert (Kx' : forall e, e <> d -> get_type qyx e = get_type qy e /\ get_rules qyx e = get_rules qy e).
      { intros e He. eapply infer_check_keeps; [exact Pqy|exact Px'|exact Rx'|]. rewrite Ex', Ex. cbn [cm_vcmd other]. rewrite Sc. exact He. }
      assert (Old : forall e, d < e -> get_type gxy e = None /\ get_rules gxy e = None /\ get_type qyx e = None /\ get_rules qyx e = None).
      { intros e He. destruct (Ky e) as [-> ->]; [lia|]. destruct (Kx' e) as [-> ->]; [lia|].
        destruct (infer_check_keeps _ _ _ _ _ _ e PgA Px Rx) as [-> ->]; [rewrite Ex; cbn; lia|].
        destruct (infer_check_keeps _ _ _ _ _ _ e Pq Py' Ry') as [-> ->]; [rewrite Ey', Ey; cbn [cm_vcmd other]; rewrite Sd; lia|].
        destruct (cmds_keep _ _ _ e _ _ _ Pg PA RA) as [-> ->]; [apply NA; lia|]. destruct (cmds_keep _ _ _ e _ _ _ Pg PA' RA') as [-> ->]; [apply NA'; lia|].
        destruct (Ng e) as [-> ->]. auto. }
      assert (T1 : forall e, hs 0 e = hs 1 e -> comp s (hs 0) e = e).
      { intros e E. apply aside_two in E as [E _]. unfold comp, hs, comp, h. rewrite E. apply exchange_inv. }
      assert (T2 : forall e, sj 0 e = sj 1 e -> sj 0 e = s e).
      { intros e E. apply exchange_inj in E. apply aside_two in E as [E _]. unfold sj, comp, j. rewrite E. reflexivity. }
      assert (Hd : forall k, hs k c = d) by (intros k; unfold hs, comp; rewrite Sc; apply aside_fix; lia).
      assert (Je : forall k e, e <> d -> e < N -> sj k e = s e) by (intros k e H1 H2; unfold sj, comp; f_equal; apply aside_fix; assumption).
      split; [|split].
      - intros e. destruct (Nat.eq_dec e d) as [->|Nd].
        + rewrite Sd. destruct (Kx' c) as [-> _]; [lia|]. pose proof (proj1 (proj2 (proj2 (Q4 0))) c) as E0. pose proof (proj1 (proj2 (proj2 (Q4 1))) c) as E1. rewrite Hd in E0, E1. rewrite E0 in E1. rewrite E0.
          destruct (get_type qy c) as [ty|]; [|reflexivity]. cbn in E1 |- *. injection E1 as E1. rewrite cm_comp. f_equal. symmetry.
          rewrite (cm_agree (hs 0) (hs 1) (comp s (hs 0)) (fun e => e) T1 _ E1). apply cm_id. reflexivity.
        + destruct (le_lt_dec N e) as [L|L].
          * destruct (Old e L) as (-> & _ & E & _). unfold s. rewrite exchange_other by lia. rewrite E. reflexivity.
          * destruct (Ky e Nd) as [-> _]. pose proof (proj1 (proj2 (proj2 (Q6 0))) e) as E0. pose proof (proj1 (proj2 (proj2 (Q6 1))) e) as E1. rewrite Je in E0, E1 by assumption. rewrite E0 in E1. rewrite E0.
            destruct (get_type gx e) as [ty|]; [|reflexivity]. cbn in E1 |- *. injection E1 as E1. f_equal. exact (cm_agree (sj 0) (sj 1) (sj 0) s T2 _ E1).
      - intros e. destruct (Nat.eq_dec e d) as [->|Nd].
        + rewrite Sd. destruct (Kx' c) as [_ ->]; [lia|]. pose proof (proj1 (proj2 (proj2 (proj2 (Q4 0)))) c) as E0. pose proof (proj1 (proj2 (proj2 (proj2 (Q4 1)))) c) as E1. rewrite Hd in E0, E1. rewrite E0 in E1. rewrite E0.
          destruct (get_rules qy c) as [rs|]; [|reflexivity]. cbn in E1 |- *. injection E1 as E1. f_equal. rewrite map_map. rewrite (map_ext _ _ (cm_rule_comp s (hs 0))). symmetry.
          rewrite (cm_rules_agree (hs 0) (hs 1) (comp s (hs 0)) (fun e => e) T1 _ E1). apply cm_rules_id. reflexivity.
        + destruct (le_lt_dec N e) as [L|L].
          * destruct (Old e L) as (_ & -> & _ & E). unfold s. rewrite exchange_other by lia. rewrite E. reflexivity.
          * destruct (Ky e Nd) as [_ ->]. pose proof (proj1 (proj2 (proj2 (proj2 (Q6 0)))) e) as E0. pose proof (proj1 (proj2 (proj2 (proj2 (Q6 1)))) e) as E1. rewrite Je in E0, E1 by assumption. rewrite E0 in E1. rewrite E0.
            destruct (get_rules gx e) as [rs|]; [|reflexivity]. cbn in E1 |- *. injection E1 as E1. f_equal. exact (cm_rules_agree (sj 0) (sj 1) (sj 0) s T2 _ E1).
      - destruct (Q6 0) as (_ & _ & _ & _ & ->). destruct (Q4 0) as (_ & _ & _ & _ & ->). destruct (Q5 0) as (_ & _ & _ & _ & ->). destruct (infer_check_other _ _ _ _ _ _ PgA Px Rx) as (_ & -> & _). reflexivity. }
    apply gemb_inv in Q; [|apply exchange_inv].
    assert (M : map er_cmd B = map (cm_vcmd s) (map er_cmd B')).
    { rewrite EB, !map_map. apply map_ext. intros v. rewrite cm_vcmd_comp. symmetry. destruct (er_cmd v) as [e kt|rs]; cbn [cm_vcmd].
      - f_equal; [apply exchange_inv|]. apply cm_intro_fixed. intros e' He. exfalso. apply He. apply exchange_inv.
      - f_equal. rewrite <- (map_id rs) at 2. apply map_ext. intros [ctx hd args rhs]. unfold cm_vrule. cbn. rewrite cm_id by apply exchange_inv. f_equal; [|apply exchange_inv|].
        + rewrite <- (map_id ctx) at 2. apply map_ext. intros [t|]; cbn; [rewrite cm_id by apply exchange_inv|]; reflexivity.
        + rewrite <- (map_id args) at 2. apply map_ext. intros p. apply cm_pat_id. apply exchange_inv. }
    destruct (cmds_embed s (exchange_inj c d) O1 O2 n1 n2 o (map er_cmd B') (map er_cmd B) (embeds_fixed _ _ _ (eq_sym M)) B' B qyx gxy eq_refl eq_refl PB' PB Q H) as [F|[F _]]; auto.
  Qed.
End Exchange.

(** ** The programs *)
Lemma fresh_app A B : forall n, fresh_cmds n (A ++ B) -> exists m, n <= m /\ fresh_cmds m B /\
  Forall (fun v => (forall e, m <= e -> absent_cmd e v) /\ forall c it, v = CIntro c it -> c < m) A.
Proof.
  induction A as [|v A IH]; intros n H; cbn [app] in H; [exists n; auto|]. inversion H; subst.
  - match goal with X : fresh_cmds _ (A ++ B) |- _ => destruct (IH _ X) as (m' & H7 & H8 & H9) end. exists m'. split; [lia|]. split; [exact H8|]. constructor; [|exact H9]. split; [intros e He; match goal with X : forall e, _ -> absent_cmd _ _ |- _ => apply X end; lia|intros ? ? [= <- _]; lia].
  - match goal with X : fresh_cmds _ (A ++ B) |- _ => destruct (IH _ X) as (m' & H7 & H8 & H9) end. exists m'. split; [lia|]. split; [exact H8|]. constructor; [|exact H9]. split; [intros e He; match goal with X : forall e, _ -> absent_cmd _ _ |- _ => apply X end; lia|discriminate].
Qed.
Lemma absent_other e v : absent_cmd e v -> (forall c it, v = CIntro c it -> e <> c) -> other e (er_cmd v).
Proof.
  destruct v as [c it|rs]; cbn [er_cmd other absent_cmd]; intros H Hc; [eapply Hc; reflexivity|]. intros r Hr. apply in_map_iff in Hr as (r0 & <- & Hr). rewrite Forall_forall in H.
  destruct (H _ Hr) as (_ & X & _). exact X.
Qed.
Lemma ex_run O1 O2 n1 n2 o vs vs' cs cs' g : exchanged vs vs' -> map er_cmd cs = vs -> map er_cmd cs' = vs' -> Forall proper_cmd cs -> Forall proper_cmd cs' -> fresh_cmds 0 cs ->
  proper_gctx g -> (forall e, get_type g e = None /\ get_rules g e = None) -> snd (cmds_run (real_kernel O2 n2) o cs g) = Ok tt ->
  snd (cmds_run (real_kernel O1 n1) o cs' g) = Ok tt \/ snd (cmds_run (real_kernel O1 n1) o cs' g) = Fuel.
Proof.
  intros [vA c it d jt vB Ho] E E' P P' F Pg Ng H.
  apply map_eq_app in E as (A & B1 & -> & EA & E). apply map_eq_cons in E as (x & B2 & -> & Ex & E). apply map_eq_cons in E as (y & B & -> & Ey & EB).
  rewrite map_app in E'. apply map_eq_app in E' as (A' & B1 & -> & EA' & E'). cbn [map] in E'. apply map_eq_cons in E' as (y' & B2 & -> & Ey' & E'). apply map_eq_cons in E' as (x' & B' & -> & Ex' & EB').
  apply Forall_app in P as [PA P], P' as [PA' P']. apply Forall_cons_iff in P as [Px P], P' as [Py' P']. apply Forall_cons_iff in P as [Py PB], P' as [Px' PB'].
  apply fresh_app in F as (m & _ & F & FA). destruct x as [c0 it0|rs]; [|discriminate]. destruct y as [d0 jt0|rs]; [|discriminate].
  inversion F; subst. match goal with X : fresh_cmds _ (_ :: _) |- _ => inversion X; subst end. cbn [er_cmd] in *. injection Ex as -> Ex. injection Ey as -> Ey.
    match goal with X : forall e, ?m0 <= e -> absent_cmd e (CIntro d jt0) |- _ => rename X into Ay end.
  match goal with X : forall e, ?m0 <= e -> absent_cmd e (CIntro c it0) |- _ => rename X into Ax end.
  assert (Hcd : c < d) by lia.
  eapply (ex_core O1 O2 n1 n2 o c d Hcd A A' B B' (CIntro c it0) (CIntro d jt0) x' y' it jt); try eassumption; try reflexivity; cbn [er_cmd].
  - rewrite Ex. reflexivity.
  - rewrite Ey. reflexivity.
  - rewrite Ex. exact Ex'.
  - rewrite Ey. exact Ey'.
  - intros h Hh. rewrite map_map. apply map_ext_in. intros v Hv. rewrite Forall_forall in FA. destruct (FA v Hv) as [F1 F2]. apply cm_cmd_absent.
    + intros e He. apply F1. specialize (Hh e He). lia.
    + intros c' it' ->. specialize (F2 _ _ eq_refl). destruct (Nat.eq_dec (h c') c') as [X|X]; [exact X|]. specialize (Hh _ X). lia.
  - intros h Hh. apply (cm_cmd_absent h (CIntro c it0)).
    + intros e He. apply Ax. specialize (Hh e He). lia.
    + intros c' it' [= <- _]. destruct (Nat.eq_dec (h c) c) as [X|X]; [exact X|]. specialize (Hh _ X). lia.
  - intros h Hh. cbn [cm_vcmd]. f_equal.
    + destruct (Nat.eq_dec (h d) d) as [X|X]; [exact X|]. specialize (Hh _ X). lia.
    + apply cm_intro_fixed. intros e He. destruct (Hh e He) as [->|L]; [rewrite Ey; exact Ho|]. apply absent_occurs_intro. apply (Ay e). lia.
  - intros e He. rewrite Forall_forall in *. intros v Hv. destruct (FA v Hv) as [F1 F2]. apply absent_other; [apply F1; lia|]. intros c' it' ->. specialize (F2 _ _ eq_refl). lia.
Qed.
Section Programs.
  Variables (srcs srcs' : list source) (vs vs' : list vcmd).
  Hypotheses (He : elaborates srcs vs) (He' : elaborates srcs' vs') (Hm : exchanged vs vs').
  Variables (O1 O2 : query -> nat -> bool) (n1 n2 : nat) (eta : bool).
  Notation seq O n src := (snd (infer_checks_seq parse_error (real_kernel O n) (Opts eta None false) _ (consume_item parse_error (Opts eta None false)) (map Ok (program_events src)) (pst_new (Opts eta None false)))).
  Lemma order_seq : Forall (fun src => Forall nonempty (snd src)) srcs -> Forall (fun src => Forall nonempty (snd src)) srcs' ->
    seq O2 n2 srcs = Ok tt -> seq O1 n1 srcs' = Ok tt \/ seq O1 n1 srcs' = Fuel.
  Proof.
    intros Hn Hn' H. destruct (elab_sources_share srcs Hn [] 0 (pst_new (Opts eta None false)) vs (at_hist_new _) He) as (cs & E & Ev).
    destruct (elab_sources_share srcs' Hn' [] 0 (pst_new (Opts eta None false)) vs' (at_hist_new _) He') as (cs' & E' & Ev').
    destruct (seq_cmds (real_kernel O2 n2) eta false _ _ _ E) as [S P], (seq_cmds (real_kernel O1 n1) eta false _ _ _ E') as [S' P']. rewrite S in H. rewrite S'.
    apply res_err_ok in H. pose proof (share_fresh_cmds _ _ _ (fresh_new _) E) as F.
    destruct (gemb_new (fun e => e) (Opts eta None false) (Opts eta None false) eq_refl) as (Pg & _).
    destruct (ex_run O1 O2 n1 n2 (Opts eta None false) vs vs' cs cs' _ Hm Ev Ev' P P' F Pg (fun e => conj eq_refl eq_refl) H) as [X|X]; rewrite X; auto.
  Qed.
End Programs.
Theorem main_order junk junk' O1 O2 n1 n2 eta jobs channel inputs inputs' srcs srcs' vs vs' r :
  Forall2 (source_of junk) inputs srcs -> Forall2 (source_of junk') inputs' srcs' -> elaborates srcs vs -> elaborates srcs' vs' -> exchanged vs vs' ->
  kocheck junk (real_kernel O2 n2) (Opts eta None jobs) channel inputs (Ok tt) ->
  kocheck junk' (real_kernel O1 n1) (Opts eta None false) false inputs' r -> r = Ok tt \/ r = Fuel.
Proof.
  intros H H' He He' Hm Hk Hk'. apply kocheck_events in Hk as (srcs1 & Hs & Hk). destruct (sources_opens _ _ _ Hs) as (files1 & Ho1 & E1), (sources_opens _ _ _ H) as (files & Ho & E).
  rewrite <- (opens_det_all _ _ _ Ho _ Ho1), E in E1. injection E1 as E1. rewrite <- E1 in Hk.
  apply consume_ok_iff in Hk as (st & Hk). apply (kocheck_seq _ _ _ _ _ _ H') in Hk'. subst r.
  change (infer_checks_seq parse_error (real_kernel O2 n2) (Opts eta None jobs) _ (consume_item parse_error (Opts eta None jobs)) (map Ok (program_events srcs)) (pst_new (Opts eta None jobs)))
    with (infer_checks_seq parse_error (real_kernel O2 n2) (Opts eta None false) _ (consume_item parse_error (Opts eta None false)) (map Ok (program_events srcs)) (pst_new (Opts eta None false))) in Hk.
  apply (order_seq srcs srcs' vs vs' He He' Hm O1 O2 n1 n2 eta (source_of_nonempty _ _ _ H) (source_of_nonempty _ _ _ H')). rewrite Hk. reflexivity.
Qed.
Theorem main_order_web junk junk' O1 O2 n1 n2 eta modules modules' srcs srcs' vs vs' r :
  Forall2 (web_source junk) modules srcs -> Forall2 (web_source junk') modules' srcs' -> elaborates srcs vs -> elaborates srcs' vs' -> exchanged vs vs' ->
  web_check junk (real_kernel O2 n2) (Opts eta None false) modules (Ok tt) ->
  web_check junk' (real_kernel O1 n1) (Opts eta None false) modules' r -> r = Ok tt \/ r = Fuel.
Proof.
  intros H H' He He' Hm Hk Hk'. apply (web_seq _ _ _ _ _ _ _ H) in Hk. apply (web_seq _ _ _ _ _ _ _ H') in Hk'. subst r.
  exact (order_seq srcs srcs' vs vs' He He' Hm O1 O2 n1 n2 eta (web_source_nonempty _ _ _ H) (web_source_nonempty _ _ _ H') Hk).
Qed.
(** without rules, checking ends *)
Theorem main_order_simple junk junk' O1 O2 n2 eta jobs jobs' channel channel' inputs inputs' srcs srcs' vs vs' :
  Forall2 (source_of junk) inputs srcs -> Forall2 (source_of junk') inputs' srcs' -> elaborates srcs vs -> elaborates srcs' vs' -> exchanged vs vs' -> without_rules srcs' ->
  kocheck junk (real_kernel O2 n2) (Opts eta None jobs) channel inputs (Ok tt) ->
  exists n0, forall n, n0 <= n -> kocheck junk' (real_kernel O1 n) (Opts eta None jobs') channel' inputs' (Ok tt).
Proof.
  intros H H' He He' Hm Hw Hk. destruct (main_whole_decides junk' O1 eta inputs' srcs' H' Hw) as (n0 & r & R1 & R2 & Hr & _ & Ht).
  destruct (main_whole_accepts junk' O1 eta jobs' channel' inputs' srcs' H' Hw) as (n1 & Ha & _). exists n1. intros n Hn. apply Ha; [exact Hn|]. apply Ht.
  assert (X : kocheck junk' (real_kernel O1 n0) (Opts eta None false) false inputs' r) by (apply Hr; [lia|reflexivity]).
  destruct (main_order junk junk' O1 O2 n0 n2 eta jobs channel inputs inputs' srcs srcs' vs vs' r H H' He He' Hm Hk X) as [Y|Y]; [exact Y|contradiction].
Qed.
