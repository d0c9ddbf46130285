(** * Lemmas for C85: programs in another order *)

From Coq Require Import Sorting.Permutation.
From Verif Require Import Base LibMono ModelTerm ModelGctx ModelCommand ModelSubst ModelReduce ModelInfer ModelSyntax ModelSymbols ModelShare ModelLex ModelParse ModelMake ModelProcess ModelMain
  SpecTerm SpecConv SpecQuery SpecSyntax SpecSymbols SpecShare SpecProcess SpecDecide SpecMake SpecParse SpecProgram SpecWhole SpecEmbed SpecOrder SpecReorder
  Erase RefMap MainKernel MainGctx MainProcess MainRun MainVerify MainDecide MainProgram MainWhole MainAlpha MainAlphaProg MainEmbed MainEmbedProg RefMachine SpecConvFacts MainOrder MainOrderProg.

Lemma list_ext {A} (l : list A) : forall l', (forall i, nth_error l i = nth_error l' i) -> l = l'.
Proof.
  induction l as [|a l IH]; intros [|a' l'] H; [reflexivity|discriminate (H 0)|discriminate (H 0)|]. pose proof (H 0) as H0. injection H0 as ->. f_equal. apply IH. intros i. exact (H (S i)).
Qed.

(** ** Introductions, numbered in their order *)
Fixpoint numbered (n : nat) (vs : list vcmd) : Prop :=
  match vs with
  | [] => True
  | VIntro c it :: vs => c = n /\ (forall e, n <= e -> ~ occurs_intro e it) /\ numbered (S n) vs
  | VRules _ :: _ => False
  end.
Lemma numbered_app A B : forall n, numbered n (A ++ B) <-> numbered n A /\ numbered (n + length A) B.
Proof.
  induction A as [|[c it|rs] A IH]; intros n; cbn [app numbered length].
  - rewrite Nat.add_0_r. tauto.
  - rewrite IH, Nat.add_succ_r. tauto.
  - tauto.
Qed.
Lemma numbered_nth vs : forall n i, numbered n vs -> i < length vs -> exists it, nth_error vs i = Some (VIntro (n + i) it) /\ forall e, n + i <= e -> ~ occurs_intro e it.
Proof.
  induction vs as [|[c it|rs] vs IH]; intros n i H L; cbn in *; [lia| |tauto]. destruct H as (-> & H1 & H2). destruct i as [|i]; cbn.
  - exists it. rewrite Nat.add_0_r. auto.
  - destruct (IH (S n) i H2 ltac:(lia)) as (it' & H3 & H4). exists it'. rewrite Nat.add_succ_r. auto.
Qed.
Lemma numbered_in vs n c it : numbered n vs -> In (VIntro c it) vs -> n <= c /\ c < n + length vs /\ nth_error vs (c - n) = Some (VIntro c it).
Proof.
  intros H Hin. apply In_nth_error in Hin as [i Hi]. assert (L : i < length vs) by (apply nth_error_Some; congruence).
  destruct (numbered_nth vs n i H L) as (it' & E & _). rewrite Hi in E. injection E as -> ->. split; [lia|]. split; [lia|]. replace (n + i - n) with i by lia. exact Hi.
Qed.
Lemma occurs_cm f e t : occurs e (cm f t) -> exists e', e = f e' /\ occurs e' t.
Proof.
  induction t; cbn; try tauto; [intros <-; eauto|..];
    (intros [H|H]; [destruct (IHt1 H) as (e' & H1 & H2)|destruct (IHt2 H) as (e' & H1 & H2)]; eauto).
Qed.
Lemma occurs_cm_in f e t : occurs e t -> occurs (f e) (cm f t).
Proof. induction t; cbn; try tauto; auto; try (intros [H|H]; auto). Qed.
Definition cm_it f (it : intro_ tm tm) : intro_ tm tm := map_type (cm f) (map_term (cm f) it).
Lemma occurs_it f e it : occurs_intro e (cm_it f it) -> exists e', e = f e' /\ occurs_intro e' it.
Proof.
  destruct it as [[A|] [t|]|A t|i A]; cbn; intros H; try tauto; try (destruct H as [H|H]; try contradiction; apply occurs_cm in H as (e' & H1 & H2); exists e'; tauto).
  apply occurs_cm in H as (e' & H1 & H2). exists e'. tauto.
Qed.
Lemma occurs_it_in f e it : occurs_intro e it -> occurs_intro (f e) (cm_it f it).
Proof. destruct it as [[A|] [t|]|A t|i A]; cbn; intros H; try tauto; try (destruct H as [H|H]; try contradiction; apply (occurs_cm_in f) in H; tauto). apply occurs_cm_in. exact H. Qed.
Lemma numbered_fixed h vs : forall n, numbered n vs -> (forall e, e < n + length vs -> h e = e) -> map (cm_vcmd h) vs = vs.
Proof.
  induction vs as [|[c it|rs] vs IH]; intros n H Hh; cbn in *; [reflexivity| |tauto]. destruct H as (-> & H1 & H2). f_equal; [|apply (IH (S n)); [exact H2|intros e He; apply Hh; lia]].
  f_equal; [apply Hh; lia|]. apply cm_intro_fixed. intros e He Ho. destruct (le_lt_dec n e) as [L|L]; [exact (H1 e L Ho)|]. apply He, Hh. lia.
Qed.
Lemma exchange_numbered B c d : d = S c -> forall n, S d <= n -> numbered n B -> numbered n (map (cm_vcmd (exchange c d)) B).
Proof.
  intros ->. induction B as [|[b it|rs] B IH]; intros n L H; cbn in *; auto. destruct H as (-> & H1 & H2). split; [apply exchange_other; lia|]. split; [|apply IH; [lia|exact H2]].
  intros e He Ho. apply (occurs_it (exchange c (S c))) in Ho as (e' & -> & Ho). apply (H1 e'); [|exact Ho]. revert He. unfold exchange. cases; lia.
Qed.
Lemma numbered_exchange A c it d jt B : numbered 0 (A ++ VIntro c it :: VIntro d jt :: B) -> ~ occurs_intro c jt ->
  d = S c /\ map (cm_vcmd (exchange c d)) A = A /\ numbered 0 (map (cm_vcmd (exchange c d)) (A ++ VIntro d jt :: VIntro c it :: B)).
Proof.
  rewrite numbered_app. cbn [numbered plus]. intros (HA & -> & Hc & -> & Hd & HB) Ho. split; [reflexivity|]. set (c := length A) in *.
  assert (EA : map (cm_vcmd (exchange c (S c))) A = A). { apply (numbered_fixed _ A 0); [exact HA|]. intros e He. cbn in He. fold c in He. apply exchange_other; lia. }
  split; [exact EA|]. rewrite map_app, EA, numbered_app. split; [exact HA|]. cbn [map cm_vcmd numbered plus]. fold c. split; [apply exchange_d|].
  split; [|split; [apply exchange_c|split; [|apply exchange_numbered; [reflexivity|lia|exact HB]]]].
  - intros e He X. apply (occurs_it (exchange c (S c))) in X as (e' & -> & X). destruct (Nat.eq_dec e' c) as [->|N]; [exact (Ho X)|]. destruct (le_lt_dec (S c) e') as [L|L]; [exact (Hd e' L X)|].
    rewrite exchange_other in He by lia. lia.
  - intros e He X. apply (occurs_it (exchange c (S c))) in X as (e' & -> & X). destruct (le_lt_dec c e') as [L|L]; [exact (Hc e' L X)|]. rewrite exchange_other in He by lia. lia.
Qed.

(** ** Commands with other symbols *)
Fixpoint lm (f : nat -> nat) (t : lterm) : lterm :=
  match t with
  | LType => LType
  | LConst c => LConst (f c)
  | LVar n => LVar n
  | LComb k => LComb (match k with
    | Appl h args => Appl (lm f h) (map (lm f) args)
    | Prod x a b => Prod x (lm f a) (lm f b)
    | Abst x a b => Abst x (option_map (lm f) a) (lm f b)
    end)
  end.
Lemma erl_lm f t : erl (lm f t) = cm f (erl t).
Proof.
  induction t as [|d|n|k IH] using lterm_ind'; cbn [lm erl cm]; try reflexivity.
  destruct k as [hd args|x a b|x [a|] b]; cbn [er_comb comb_all some_all cm option_map] in *.
  - rewrite cm_apps. destruct IH as [-> IH]. f_equal. rewrite !map_map. apply map_ext_Forall. exact IH.
  - destruct IH as [-> ->]. reflexivity.
  - destruct IH as [-> ->]. reflexivity.
  - destruct IH as [_ ->]. reflexivity.
Qed.
Lemma proper_lm f t : proper_l t -> proper_l (lm f t).
Proof.
  induction t as [|d|n|k IH] using lterm_ind'; cbn [lm proper_l]; auto.
  destruct k as [hd args|x a b|x [a|] b]; cbn [appl_ok comb_all some_all forall_comb option_map] in *.
  - destruct IH as [IH1 IH2]. intros (H1 & H2 & H3). split; [|split; [auto|]].
    + destruct args; [|exact I]. cbn. destruct hd; try discriminate. reflexivity.
    + clear H1 H2 IH1. induction IH2 as [|a args Ha _ IH]; [exact I|]. destruct H3 as [H3 H4]. split; [apply Ha, H3|apply IH, H4].
  - destruct IH. tauto.
  - destruct IH. tauto.
  - destruct IH. tauto.
Qed.
Definition cmd_lm f (c : command) : command := match c with CIntro x it => CIntro (f x) (map_type (lm f) (map_term (lm f) it)) | CRules rs => CRules rs end.
Lemma er_cmd_lm f cs : Forall (fun c => exists x it, c = CIntro x it) cs -> map er_cmd (map (cmd_lm f) cs) = map (cm_vcmd f) (map er_cmd cs).
Proof.
  induction 1 as [|c cs (x & it & ->) _ IH]; [reflexivity|]. cbn [map]. rewrite IH. f_equal. destruct it as [[A|] [t|]|A t|i A]; cbn; rewrite ?erl_lm; reflexivity.
Qed.
Lemma proper_cmd_lm f cs : Forall proper_cmd cs -> Forall (fun c => exists x it, c = CIntro x it) cs -> Forall proper_cmd (map (cmd_lm f) cs).
Proof.
  induction 1 as [|c cs H _ IH]; intros Hi; [constructor|]. inversion Hi as [|? ? (x & it & ->) Hi']; subst. cbn [map]. constructor; [|apply IH; exact Hi'].
  destruct it as [[A|] [t|]|A t|i A]; cbn in *; repeat match goal with X : _ /\ _ |- _ => destruct X end; repeat split; auto using proper_lm.
Qed.
Lemma numbered_intros cs : forall n, numbered n (map er_cmd cs) -> Forall (fun c => exists x it, c = CIntro x it) cs.
Proof. induction cs as [|[x it|rs] cs IH]; intros n H; cbn in H; [constructor| |contradiction]. constructor; [eauto|]. eapply IH. apply H. Qed.

Section Reorder.
  Variables (O : query -> nat -> bool) (eta : bool).
  Let o := Opts eta None false.
  Let g0 := ps_gc (pst_new o).
  Lemma cmds_total cs : forall g, Forall proper_cmd cs -> Forall (fun c => exists x it, c = CIntro x it) cs -> dinv g ->
    exists n0 g' r, (forall n, n0 <= n -> cmds_run (real_kernel O n) o cs g = (g', r)) /\ r <> Fuel.
  Proof.
    induction cs as [|c cs IH]; intros g P I D; cbn [cmds_run]; [exists 0, g, (Ok tt); split; [reflexivity|discriminate]|].
    inversion P; subst. inversion I as [|? ? (x & it & ->) I']; subst. destruct (command_step O eta false g x it D H1) as (n0 & g1 & r & R & Hr). fold o in R. destruct r as [[]|e| |]; try contradiction.
    - destruct (IH g1 H2 I' (proj1 Hr)) as (n1 & g' & r & R1 & Hr1). exists (Nat.max n0 n1), g', r. split; [|exact Hr1]. intros n Hn. rewrite R by lia. apply R1. lia.
    - exists n0, g1, (Err e). split; [|discriminate]. intros n Hn. rewrite R by lia. reflexivity.
  Qed.
  Definition good (vs : list vcmd) : Prop := exists cs n, map er_cmd cs = vs /\ Forall proper_cmd cs /\ snd (cmds_run (real_kernel O n) o cs g0) = Ok tt.
  Lemma good_exchange A c it d jt B : numbered 0 (A ++ VIntro c it :: VIntro d jt :: B) -> ~ occurs_intro c jt -> good (A ++ VIntro c it :: VIntro d jt :: B) ->
    good (map (cm_vcmd (exchange c d)) (A ++ VIntro d jt :: VIntro c it :: B)).
  Proof.
    intros N Ho (cs & n2 & E & P & H). destruct (numbered_exchange _ _ _ _ _ _ N Ho) as (Ed & EA & N'). pose proof N as N0. rewrite <- E in N0. apply numbered_intros in N0.
    apply map_eq_app in E as (cA & B1 & -> & E1 & E). apply map_eq_cons in E as (x & B2 & -> & Ex & E). apply map_eq_cons in E as (y & cB & -> & Ey & E2).
    set (s := exchange c d). assert (P' : Forall proper_cmd (map (cmd_lm s) (cA ++ y :: x :: cB))).
    { apply proper_cmd_lm; [|clear P]; rewrite Forall_app in *; rewrite !Forall_cons_iff in *; tauto. }
    assert (I' : Forall (fun c => exists x it, c = CIntro x it) (cA ++ y :: x :: cB)) by (clear P P'; rewrite Forall_app in *; rewrite !Forall_cons_iff in *; tauto).
    assert (E' : map er_cmd (map (cmd_lm s) (cA ++ y :: x :: cB)) = map (cm_vcmd s) (A ++ VIntro d jt :: VIntro c it :: B)).
    { rewrite er_cmd_lm by exact I'. f_equal. rewrite map_app. cbn [map]. rewrite E1, E2, Ex, Ey. reflexivity. }
    assert (I2 : Forall (fun c => exists x it, c = CIntro x it) (map (cmd_lm s) (cA ++ y :: x :: cB))) by (eapply numbered_intros; rewrite E'; exact N').
    destruct (cmds_total _ g0 P' I2 (dinv_new eta false)) as (n1 & g' & r & R & Hr). specialize (R n1 (le_n _)).
    exists (map (cmd_lm s) (cA ++ y :: x :: cB)), n1. split; [exact E'|]. split; [exact P'|].
    rewrite map_app in *. cbn [map] in *.
    rewrite Forall_app in *. rewrite !Forall_cons_iff in *.
    assert (LA : length A = c). { rewrite numbered_app in N. cbn in N. destruct N as (_ & -> & _). reflexivity. }
    apply numbered_app in N as [NA N]. cbn [numbered plus] in N. destruct N as (_ & Nc & _ & Nd & NB). rewrite LA in *.
    assert (EB : forall l, Forall (fun c => exists x it, c = CIntro x it) l -> map er_cmd (map (cmd_lm s) l) = map (cm_vcmd s) (map er_cmd l)) by (intros l Hl; apply er_cmd_lm; exact Hl).
    destruct (ex_core O O n1 n2 o c d ltac:(lia) cA (map (cmd_lm s) cA) cB (map (cmd_lm s) cB) x y (cmd_lm s x) (cmd_lm s y) it jt Ex Ey) with (g := g0) as [X|X]; try tauto.
    - pose proof (EB [x]) as X. cbn [map] in X. assert (X' := X ltac:(constructor; [tauto|constructor])). injection X' as X'. exact X'.
    - pose proof (EB [y]) as X. cbn [map] in X. assert (X' := X ltac:(constructor; [tauto|constructor])). injection X' as X'. exact X'.
    - apply EB. tauto.
    - apply EB. tauto.
    - intros h Hh. rewrite E1. apply (numbered_fixed h A 0 NA). intros e He. cbn in He. destruct (Nat.eq_dec (h e) e) as [Y|Y]; [exact Y|]. specialize (Hh e Y). lia.
    - intros h Hh. rewrite Ex. cbn [cm_vcmd]. f_equal.
      + destruct (Nat.eq_dec (h c) c) as [Y|Y]; [exact Y|]. specialize (Hh _ Y). lia.
      + apply cm_intro_fixed. intros e He. apply Nc. specialize (Hh _ He). lia.
    - intros h Hh. rewrite Ey. cbn [cm_vcmd]. f_equal.
      + destruct (Nat.eq_dec (h d) d) as [Y|Y]; [exact Y|]. specialize (Hh _ Y). lia.
      + apply cm_intro_fixed. intros e He. destruct (Hh e He) as [->|L]; [exact Ho|]. apply Nd. lia.
    - intros e He. rewrite Forall_forall. intros v Hv. assert (Hin : In (er_cmd v) A) by (rewrite <- E1; apply in_map; exact Hv).
      destruct (er_cmd v) as [k kt|rs]; cbn [other].
      + apply (numbered_in A 0 k kt NA) in Hin. lia.
      + apply In_nth_error in Hin as [i Hi]. assert (Li : i < length A) by (apply nth_error_Some; congruence). destruct (numbered_nth A 0 i NA Li) as (kt & Y & _). congruence.
    - split; discriminate.
    - rewrite R in X. cbn in X. contradiction.
  Qed.

  (** ** Sorting: the first [k] commands are in their places *)
  Lemma cm_vcmd_ext f g v : (forall e, f e = g e) -> cm_vcmd f v = cm_vcmd g v.
  Proof.
    intros H. assert (E : forall t, cm f t = cm g t) by (induction t; cbn; congruence). assert (Ep : forall p, cm_pat f p = cm_pat g p).
    { induction p as [c ps IH|m|] using pat_ind'; cbn; try reflexivity. rewrite H. f_equal. apply map_ext_Forall. exact IH. }
    destruct v as [c it|rs]; cbn [cm_vcmd].
    - rewrite H. f_equal. destruct it as [[A|] [t|]|A t|i A]; cbn; rewrite ?E; reflexivity.
    - f_equal. apply map_ext. intros r. unfold cm_vrule. rewrite H, E. f_equal; apply map_ext; [intros [t|]; cbn; [rewrite E|]; reflexivity|exact Ep].
  Qed.
  Definition placed (vs' : list vcmd) (k : nat) (f : nat -> nat) (vs : list vcmd) : Prop :=
    numbered 0 vs /\ good vs /\ injective f /\ Permutation (map (cm_vcmd f) vs) vs' /\ forall i, i < k -> f i = i.
  Lemma place_next vs' (N' : numbered 0 vs') k (Hk : k < length vs') j : forall f vs, placed vs' k f vs -> f (k + j) = k -> k + j < length vs -> exists f' vs1, placed vs' (S k) f' vs1.
  Proof.
    induction j as [|j IH]; intros f vs (N & G & Hf & Hp & Hi) Hj L.
    - exists f, vs. split; [exact N|]. split; [exact G|]. split; [exact Hf|]. split; [exact Hp|]. intros i Li. destruct (Nat.eq_dec i k) as [->|Ne]; [rewrite Nat.add_0_r in Hj; exact Hj|apply Hi; lia].
    - set (c := k + j) in *. assert (Ed : k + S j = S c) by (unfold c; lia). rewrite Ed in *.
      destruct (numbered_nth vs 0 c N ltac:(lia)) as (it & E1 & _), (numbered_nth vs 0 (S c) N L) as (jt & E2 & Hjt). cbn [plus] in *.
      destruct (nth_error_split vs c E1) as (A & B1 & -> & LA). rewrite nth_error_app2 in E2 by lia. replace (S c - length A) with 1 in E2 by lia. destruct B1 as [|b B]; [discriminate|]. cbn in E2. injection E2 as ->.
      assert (Ho : ~ occurs_intro c jt).
      { intros X. apply (occurs_it_in f) in X. assert (Hin : In (VIntro k (cm_it f jt)) vs').
        { apply (Permutation_in _ Hp). apply in_map_iff. exists (VIntro (S c) jt). split; [cbn [cm_vcmd]; rewrite Hj; reflexivity|]. apply in_or_app. right. right. left. reflexivity. }
        destruct (numbered_in vs' 0 k _ N' Hin) as (_ & _ & Y). destruct (numbered_nth vs' 0 k N' Hk) as (kt & Z & Hkt). rewrite Nat.sub_0_r in Y. rewrite Y in Z. injection Z as <-. cbn [plus] in Hkt.
        destruct (le_lt_dec k (f c)) as [Y'|Y']; [exact (Hkt _ Y' X)|]. specialize (Hi _ Y'). apply Hf in Hi. unfold c in *. lia. }
      destruct (numbered_exchange _ _ _ _ _ _ N Ho) as (_ & _ & N1). pose proof (good_exchange _ _ _ _ _ _ N Ho G) as G1. set (s := exchange c (S c)) in *.
      apply (IH (comp f s) (map (cm_vcmd s) (A ++ VIntro (S c) jt :: VIntro c it :: B))).
      + split; [exact N1|]. split; [exact G1|]. split; [apply comp_inj; [exact Hf|apply exchange_inj]|]. split.
        * rewrite map_map. eapply perm_trans; [|exact Hp]. rewrite (map_ext _ (cm_vcmd f)). { apply Permutation_map. apply Permutation_app_head. apply perm_swap. }
          intros v. rewrite cm_vcmd_comp. apply cm_vcmd_ext. intros e. unfold comp. f_equal. apply exchange_inv.
        * intros i Li. unfold comp, s. rewrite exchange_other by (unfold c; lia). apply Hi. exact Li.
      + unfold comp, s. fold c. rewrite exchange_c. exact Hj.
      + fold c. rewrite map_length, app_length in *. cbn [length] in *. lia.
  Qed.
  Lemma place_all vs' (N' : numbered 0 vs') k : k <= length vs' -> forall f vs, placed vs' 0 f vs -> exists f' vs1, placed vs' k f' vs1.
  Proof.
    induction k as [|k IH]; intros L f vs H; [eauto|]. destruct (IH ltac:(lia) f vs H) as (f1 & vs1 & H1). pose proof H1 as (N & G & Hf & Hp & Hi).
    destruct (numbered_nth vs' 0 k N' L) as (kt & E & _). assert (Hin : In (VIntro k kt) (map (cm_vcmd f1) vs1)) by (apply Permutation_sym in Hp; apply (Permutation_in _ Hp); eapply nth_error_In; exact E).
    apply in_map_iff in Hin as ([d jt|rs] & Ed & Hin); [|discriminate]. cbn [cm_vcmd] in Ed. injection Ed as Ed _. destruct (numbered_in vs1 0 d jt N Hin) as (_ & Ld & _).
    destruct (le_lt_dec k d) as [Y|Y]; [|specialize (Hi d Y); lia].
    apply (place_next vs' N' k L (d - k) f1 vs1 H1); replace (k + (d - k)) with d by lia; auto.
  Qed.
  Lemma good_reordered vs vs' : numbered 0 vs -> numbered 0 vs' -> reordered vs vs' -> good vs -> good vs'.
  Proof.
    intros N N' (f & Hf & Hp) G. destruct (place_all vs' N' (length vs') (le_n _) f vs) as (f1 & vs1 & N1 & G1 & Hf1 & Hp1 & Hi).
    { split; [exact N|]. split; [exact G|]. split; [exact Hf|]. split; [exact Hp|lia]. }
    assert (L : length vs1 = length vs') by (rewrite <- (Permutation_length Hp1), map_length; reflexivity).
    rewrite (numbered_fixed f1 vs1 0 N1) in Hp1 by (intros e He; apply Hi; cbn in He; lia).
    replace vs' with vs1; [exact G1|]. apply list_ext. intros i. destruct (le_lt_dec (length vs1) i) as [Y|Y].
    - rewrite (proj2 (nth_error_None vs1 i)), (proj2 (nth_error_None vs' i)) by lia. reflexivity.
    - destruct (numbered_nth vs1 0 i N1 Y) as (it & E & _). rewrite E. symmetry. apply nth_error_In in E. apply (Permutation_in _ Hp1) in E. destruct (numbered_in vs' 0 i it N' E) as (_ & _ & Z). rewrite Nat.sub_0_r in Z. exact Z.
  Qed.
End Reorder.

(** ** Programs *)
Lemma from_event_next ev st c it : snd (from_event ev st) = Some (Ok (CIntro c it)) -> ps_next (fst (from_event ev st)) = S (ps_next st).
Proof.
  destruct ev as [p|cmd]; cbn [from_event]; [discriminate|]. unfold share. destruct (share_command (ps_syms st) cmd) as [[x it0|rs]|e| |]; cbn; try discriminate.
  destruct (symbols_insert (ps_syms st) x (ps_next st)) as [s r]. cbn. intros _. lia.
Qed.
Lemma share_numbered evs : forall st cmds, fresh_next st -> share_results evs st = map Ok cmds -> Forall (fun c => exists x it, c = CIntro x it) cmds -> numbered (ps_next st) (map er_cmd cmds).
Proof.
  induction evs as [|ev evs IH]; intros st cmds Hn; cbn [share_results]; [destruct cmds; [intros _ _; exact I|discriminate]|].
  pose proof (from_event_fresh ev st Hn) as (H1 & H2 & H3). pose proof (from_event_next ev st) as H4.
  destruct ev as [p|c]; [cbn [from_event]; intros H; exact (IH _ _ H1 H)|].
  destruct (from_event (EvCommand c) st) as [st' r] eqn:E. cbn [fst snd] in *. assert (Hr : exists r0, r = Some r0) by (cbn in E; destruct (share c st); injection E as _ <-; eauto).
  destruct Hr as [r0 ->]. destruct cmds as [|cmd cmds]; [discriminate|]. cbn [map]. intros H Hi. injection H as -> H. destruct (H3 _ eq_refl) as [Ha Hc].
  inversion Hi as [|? ? (x & it & ->) Hi']; subst. destruct (Hc x it eq_refl) as [Ex _]. subst x. cbn [er_cmd numbered]. split; [reflexivity|]. split.
  - intros e He. apply absent_occurs_intro. apply (Ha e He).
  - rewrite <- (H4 _ _ eq_refl). apply IH; auto.
Qed.
Definition introduces (v : vcmd) : Prop := exists c it, v = VIntro c it.
Lemma elab_commands_intros ops n cs vs ops' n' : elab_commands ops n cs vs ops' n' -> ((forall rs, ~ In (PRules rs) cs) <-> Forall introduces vs).
Proof.
  induction 1 as [|ops n c v ops1 n1 cs vs ops2 n2 H _ IH]; [split; [constructor|intros _ rs []]|]. rewrite Forall_cons_iff, <- IH. clear IH.
  assert (X : (forall rs, c <> PRules rs) <-> introduces v).
  { destruct H as [c x args it it' R E _ _ _|c rules rules' R E _ _]; (destruct c as [y a i|rs]; cbn in E; [destruct (scope_args [] a); try discriminate|]; try discriminate).
    - split; [intros _; repeat eexists|discriminate].
    - split; [intros H; destruct (H rs eq_refl)|intros (? & ? & ?); discriminate]. }
  rewrite <- X. split.
  - intros H1. split; [intros rs ->; exact (H1 rs (or_introl eq_refl))|intros rs Hr; exact (H1 rs (or_intror Hr))].
  - intros [H1 H2] rs [Hr|Hr]; [exact (H1 rs Hr)|exact (H2 rs Hr)].
Qed.
Lemma elab_intros srcs vs ops n : elab_sources ops n srcs vs -> (without_rules srcs <-> Forall introduces vs).
Proof.
  induction 1 as [|ops n m cs vs ops1 n1 srcs vs' H _ IH]; [split; [constructor|intros _ m cs rs []]|]. rewrite Forall_app, <- IH, <- (elab_commands_intros _ _ _ _ _ _ H). unfold without_rules. split.
  - intros X. split; [intros rs Hr; exact (X m cs rs (or_introl eq_refl) Hr)|intros m' cs' rs Hin; exact (X m' cs' rs (or_intror Hin))].
  - intros [X Y] m' cs' rs [E|Hin]; [injection E as <- <-; apply X|exact (Y m' cs' rs Hin)].
Qed.
Lemma reordered_intros vs vs' : reordered vs vs' -> Forall introduces vs -> Forall introduces vs'.
Proof.
  intros (f & _ & Hp) H. apply (Permutation_Forall Hp). rewrite Forall_map. revert H. apply Forall_impl. intros v (c & it & ->). repeat eexists.
Qed.
Section Programs.
  Variables (srcs srcs' : list source) (vs vs' : list vcmd).
  Hypotheses (He : elaborates srcs vs) (He' : elaborates srcs' vs') (Hm : reordered vs vs') (Hw : without_rules srcs).
  Lemma reorder_rules : without_rules srcs'.
  Proof. apply (elab_intros _ _ _ _ He'). eapply reordered_intros; [exact Hm|]. apply (elab_intros _ _ _ _ He). exact Hw. Qed.
  Variables (O1 O2 : query -> nat -> bool) (n1 n2 : nat) (eta : bool).
  Notation seq O n src := (snd (infer_checks_seq parse_error (real_kernel O n) (Opts eta None false) _ (consume_item parse_error (Opts eta None false)) (map Ok (program_events src)) (pst_new (Opts eta None false)))).
  Lemma er_intros cs : Forall introduces (map er_cmd cs) -> Forall (fun c => exists x it, c = CIntro x it) cs.
  Proof. rewrite Forall_map. apply Forall_impl. intros [x it|rs] (c & jt & E); [eauto|discriminate]. Qed.
  Lemma reorder_seq : Forall (fun src => Forall nonempty (snd src)) srcs -> Forall (fun src => Forall nonempty (snd src)) srcs' ->
    seq O2 n2 srcs = Ok tt -> seq O1 n1 srcs' = Ok tt \/ seq O1 n1 srcs' = Fuel.
  Proof.
    intros Hn Hn' H. destruct (elab_sources_share srcs Hn [] 0 (pst_new (Opts eta None false)) vs (at_hist_new _) He) as (cs & E & Ev).
    destruct (elab_sources_share srcs' Hn' [] 0 (pst_new (Opts eta None false)) vs' (at_hist_new _) He') as (cs' & E' & Ev').
    destruct (seq_cmds (real_kernel O2 n2) eta false _ _ _ E) as [S P], (seq_cmds (real_kernel O1 n1) eta false _ _ _ E') as [S' P']. rewrite S in H. rewrite S'.
    apply res_err_ok in H. pose proof (proj1 (elab_intros _ _ _ _ He) Hw) as I. pose proof (reordered_intros _ _ Hm I) as I'.
    assert (N : numbered 0 vs) by (rewrite <- Ev in *; apply (share_numbered _ _ _ (fresh_new _) E); apply er_intros; exact I).
    assert (N' : numbered 0 vs') by (rewrite <- Ev' in *; apply (share_numbered _ _ _ (fresh_new _) E'); apply er_intros; exact I').
    destruct (good_reordered O2 eta vs vs' N N' Hm) as (cs1 & n & Ev1 & P1 & R1); [exists cs, n2; auto|].
    destruct (cmds_embed (fun e => e) (fun c d X => X) O1 O2 n1 n (Opts eta None false) vs' vs') with (cs := cs') (cs' := cs1) (g1 := ps_gc (pst_new (Opts eta None false))) (g2 := ps_gc (pst_new (Opts eta None false))) as [X|[X _]]; auto.
    - apply embeds_fixed. apply (numbered_fixed _ vs' 0 N'). reflexivity.
    - apply gemb_new. reflexivity.
    - rewrite X. auto.
    - rewrite X. auto.
  Qed.
End Programs.
Theorem main_reorder junk junk' O1 O2 n2 eta jobs jobs' channel channel' inputs inputs' srcs srcs' vs vs' :
  Forall2 (source_of junk) inputs srcs -> Forall2 (source_of junk') inputs' srcs' -> elaborates srcs vs -> elaborates srcs' vs' -> reordered vs vs' -> without_rules srcs ->
  kocheck junk (real_kernel O2 n2) (Opts eta None jobs) channel inputs (Ok tt) ->
  exists n0, forall n, n0 <= n -> kocheck junk' (real_kernel O1 n) (Opts eta None jobs') channel' inputs' (Ok tt).
Proof.
  intros H H' He He' Hm Hw Hk. pose proof (reorder_rules _ _ _ _ He He' Hm Hw) as Hw'. destruct (main_whole_decides junk' O1 eta inputs' srcs' H' Hw') as (n0 & r & R1 & R2 & Hr & _ & Ht).
  destruct (main_whole_accepts junk' O1 eta jobs' channel' inputs' srcs' H' Hw') as (n1 & Ha & _). exists n1. intros n Hn. apply Ha; [exact Hn|]. apply Ht.
  assert (X : kocheck junk' (real_kernel O1 n0) (Opts eta None false) false inputs' r) by (apply Hr; [lia|reflexivity]).
  apply kocheck_events in Hk as (srcs1 & Hs & Hk). destruct (sources_opens _ _ _ Hs) as (files1 & Ho1 & E1), (sources_opens _ _ _ H) as (files & Ho & E).
  rewrite <- (opens_det_all _ _ _ Ho _ Ho1), E in E1. injection E1 as E1. rewrite <- E1 in Hk.
  apply consume_ok_iff in Hk as (st & Hk). apply (kocheck_seq _ _ _ _ _ _ H') in X. subst r.
  change (infer_checks_seq parse_error (real_kernel O2 n2) (Opts eta None jobs) _ (consume_item parse_error (Opts eta None jobs)) (map Ok (program_events srcs)) (pst_new (Opts eta None jobs)))
    with (infer_checks_seq parse_error (real_kernel O2 n2) (Opts eta None false) _ (consume_item parse_error (Opts eta None false)) (map Ok (program_events srcs)) (pst_new (Opts eta None false))) in Hk.
  destruct (reorder_seq srcs srcs' vs vs' He He' Hm Hw O1 O2 n0 n2 eta (source_of_nonempty _ _ _ H) (source_of_nonempty _ _ _ H')) as [Y|Y]; [rewrite Hk; reflexivity|exact Y|contradiction].
Qed.
Theorem main_reorder_web junk junk' O1 O2 n2 eta modules modules' srcs srcs' vs vs' :
  Forall2 (web_source junk) modules srcs -> Forall2 (web_source junk') modules' srcs' -> elaborates srcs vs -> elaborates srcs' vs' -> reordered vs vs' -> without_rules srcs ->
  web_check junk (real_kernel O2 n2) (Opts eta None false) modules (Ok tt) ->
  exists n0, forall n, n0 <= n -> web_check junk' (real_kernel O1 n) (Opts eta None false) modules' (Ok tt).
Proof.
  intros H H' He He' Hm Hw Hk. pose proof (reorder_rules _ _ _ _ He He' Hm Hw) as Hw'. apply (web_seq _ _ _ _ _ _ _ H) in Hk.
  destruct (main_whole_web junk' O1 eta modules' srcs' H' Hw') as (n0 & r & R1 & R2 & Hr & _).
  assert (X : web_check junk' (real_kernel O1 n0) (Opts eta None false) modules' r) by (apply Hr; [lia|reflexivity]). apply (web_seq _ _ _ _ _ _ _ H') in X.
  exists n0. intros n Hn. apply Hr; [exact Hn|]. symmetry. subst r.
  destruct (reorder_seq srcs srcs' vs vs' He He' Hm Hw O1 O2 n0 n2 eta (web_source_nonempty _ _ _ H) (web_source_nonempty _ _ _ H') Hk) as [Y|Y]; [exact Y|contradiction].
Qed.

(** ** The other direction *)
Lemma numbered_sym vs vs' : numbered 0 vs -> numbered 0 vs' -> reordered vs vs' -> reordered vs' vs.
Proof.
  intros N N' (f & Hf & Hp). set (m := length vs). assert (L : length vs' = m) by (rewrite <- (Permutation_length Hp), map_length; reflexivity).
  assert (F : forall i, i < m -> f i < m).
  { intros i Hi. destruct (numbered_nth vs 0 i N Hi) as (it & E & _). apply nth_error_In in E. apply (in_map (cm_vcmd f)) in E. apply (Permutation_in _ Hp) in E. cbn [cm_vcmd plus] in E.
    apply (numbered_in vs' 0 _ _ N') in E. lia. }
  set (g := fun e => if e <? m then match find (fun i => f i =? e) (seq 0 m) with Some i => i | None => 0 end else e).
  assert (Gf : forall e, e < m -> f (g e) = e /\ g e < m).
  { intros e Hm. unfold g. destruct (Nat.ltb_spec e m) as [_|X]; [|lia]. destruct (find (fun i => f i =? e) (seq 0 m)) as [i|] eqn:E.
    - apply find_some in E as [E1 E2]. apply in_seq in E1. apply Nat.eqb_eq in E2. split; [exact E2|lia].
    - exfalso. destruct (numbered_nth vs' 0 e N' ltac:(lia)) as (it & E1 & _). apply nth_error_In in E1. apply Permutation_sym in Hp. apply (Permutation_in _ Hp) in E1. apply in_map_iff in E1 as ([d jt|rs] & E1 & E2); [|discriminate].
      cbn in E1. injection E1 as E1 _. destruct (numbered_in vs 0 d jt N E2) as (_ & Ld & _). pose proof (find_none _ _ E d ltac:(apply in_seq; unfold m; lia)) as X. cbn in X. apply Nat.eqb_neq in X. congruence. }
  assert (Gm : forall e, m <= e -> g e = e) by (intros e Hm; unfold g; destruct (Nat.ltb_spec e m); [lia|reflexivity]).
  exists g. split.
  - intros a b E. destruct (le_lt_dec m a) as [La|La], (le_lt_dec m b) as [Lb|Lb]; try (rewrite (Gm a La) in E); try (rewrite (Gm b Lb) in E); auto.
    + destruct (Gf b Lb). lia.
    + destruct (Gf a La). lia.
    + rewrite <- (proj1 (Gf a La)), <- (proj1 (Gf b Lb)). congruence.
  - apply Permutation_sym. eapply perm_trans; [|apply Permutation_map; exact Hp]. rewrite map_map. rewrite (map_ext _ _ (cm_vcmd_comp g f)).
    rewrite (numbered_fixed (comp g f) vs 0 N); [reflexivity|]. intros e He. apply Hf. unfold comp. apply Gf. apply F. exact He.
Qed.
Lemma elab_numbered srcs vs : Forall (fun src => Forall nonempty (snd src)) srcs -> elaborates srcs vs -> without_rules srcs -> numbered 0 vs.
Proof.
  intros Hn He Hw. destruct (elab_sources_share srcs Hn [] 0 (pst_new (Opts false None false)) vs (at_hist_new _) He) as (cs & E & Ev). rewrite <- Ev.
  apply (share_numbered _ _ _ (fresh_new _) E). apply er_intros. rewrite Ev. apply (elab_intros _ _ _ _ He). exact Hw.
Qed.
Theorem main_reorder_iff junk junk' O1 O2 eta jobs jobs' channel channel' inputs inputs' srcs srcs' vs vs' :
  Forall2 (source_of junk) inputs srcs -> Forall2 (source_of junk') inputs' srcs' -> elaborates srcs vs -> elaborates srcs' vs' -> reordered vs vs' -> without_rules srcs ->
  ((exists n, kocheck junk (real_kernel O1 n) (Opts eta None jobs) channel inputs (Ok tt)) <->
   (exists n, kocheck junk' (real_kernel O2 n) (Opts eta None jobs') channel' inputs' (Ok tt))).
Proof.
  intros H H' He He' Hm Hw. pose proof (reorder_rules _ _ _ _ He He' Hm Hw) as Hw'. split; intros [n Hk].
  - destruct (main_reorder junk junk' O2 O1 n eta jobs jobs' channel channel' inputs inputs' srcs srcs' vs vs' H H' He He' Hm Hw Hk) as [n0 X]. exists n0. apply X. lia.
  - assert (Hs : reordered vs' vs). { apply numbered_sym; [| |exact Hm]; [exact (elab_numbered _ _ (source_of_nonempty _ _ _ H) He Hw)|exact (elab_numbered _ _ (source_of_nonempty _ _ _ H') He' Hw')]. }
    destruct (main_reorder junk' junk O1 O2 n eta jobs' jobs channel' channel inputs' inputs srcs' srcs vs' vs H' H He' He Hs Hw' Hk) as [n0 X]. exists n0. apply X. lia.
Qed.
Theorem main_reorder_web_iff junk junk' O1 O2 eta modules modules' srcs srcs' vs vs' :
  Forall2 (web_source junk) modules srcs -> Forall2 (web_source junk') modules' srcs' -> elaborates srcs vs -> elaborates srcs' vs' -> reordered vs vs' -> without_rules srcs ->
  ((exists n, web_check junk (real_kernel O1 n) (Opts eta None false) modules (Ok tt)) <-> (exists n, web_check junk' (real_kernel O2 n) (Opts eta None false) modules' (Ok tt))).
Proof.
  intros H H' He He' Hm Hw. pose proof (reorder_rules _ _ _ _ He He' Hm Hw) as Hw'. split; intros [n Hk].
  - destruct (main_reorder_web junk junk' O2 O1 n eta modules modules' srcs srcs' vs vs' H H' He He' Hm Hw Hk) as [n0 X]. exists n0. apply X. lia.
  - assert (Hs : reordered vs' vs). { apply numbered_sym; [| |exact Hm]; [exact (elab_numbered _ _ (web_source_nonempty _ _ _ H) He Hw)|exact (elab_numbered _ _ (web_source_nonempty _ _ _ H') He' Hw')]. }
    destruct (main_reorder_web junk' junk O1 O2 n eta modules' modules srcs' srcs vs' vs H' H He' He Hs Hw' Hk) as [n0 X]. exists n0. apply X. lia.
Qed.
