(** * Lemmas for C21: all results of processing with a channel *)

From Verif Require Import Base ModelTerm ModelGctx ModelCommand ModelInfer ModelSyntax ModelSymbols ModelShare ModelProcess
  SpecTerm SpecConv SpecTyping SpecQuery SpecProcess Erase MainProcess MainRun.

Section Channel.
  Variable PE : Type.

  Lemma before_file path items (files : list (file PE)) :
    events_before PE ((Ok path, items) :: files) =
    (file_events PE path items ++ fst (events_before PE files), snd (events_before PE files)).
  Proof.
    cbn [events_before]. destruct (events_before PE files) as [evs r]. cbn [fst snd]. unfold file_events. cbn [app].
    do 3 f_equal. apply map_ext. intros [| | |]; reflexivity.
  Qed.
  Lemma produce_cap files : forall cap, produce PE files cap =
    let '(evs, r) := events_before PE files in
    match cap with
    | None => (evs, r, false)
    | Some n => if n <? length evs then (firstn n evs, Ok tt, true) else (evs, r, false)
    end.
  Proof.
    induction files as [|[[path|e| |] items] files IH]; intros cap.
    - destruct cap; reflexivity.
    - rewrite before_file. cbn [produce]. rewrite !IH. destruct (events_before PE files) as [evs r]. cbn [fst snd].
      destruct cap as [n|]; [|reflexivity]. rewrite app_length.
      destruct (n <? length (file_events PE path items)) eqn:L.
      + apply Nat.ltb_lt in L. destruct (n <? length _ + _) eqn:L2; [|apply Nat.ltb_ge in L2; lia].
        rewrite firstn_app. replace (n - _) with 0 by lia. rewrite firstn_O, app_nil_r. reflexivity.
      + apply Nat.ltb_ge in L. rewrite IH. destruct (_ - _ <? _) eqn:L3.
        * apply Nat.ltb_lt in L3. destruct (n <? _) eqn:L2; [|apply Nat.ltb_ge in L2; lia].
          rewrite firstn_app, (firstn_all2 (n := n)) by lia. reflexivity.
        * apply Nat.ltb_ge in L3. destruct (n <? _) eqn:L2; [apply Nat.ltb_lt in L2; lia|]. reflexivity.
    - destruct cap; reflexivity.
    - destruct cap; reflexivity.
    - destruct cap; reflexivity.
  Qed.

  Variable K : kernel.
  Variable o : opts.
  Notation evs files := (fst (events_before PE files)).
  Notation path_result files := (snd (events_before PE files)).

  Lemma main_channel_iff files r : main_channel PE K o files r <->
    match path_result files with Ok _ => consume PE K o (evs files) r | e => r = e end \/
    exists e k, k < length (evs files) /\ r = Err e /\ consume PE K o (firstn k (evs files)) (Err e).
  Proof.
    unfold main_channel. setoid_rewrite produce_cap. destruct (events_before PE files) as [es r1]. cbn [fst snd]. split.
    - intros (cap & es' & r2 & b & E & H).
      assert (X : (es' = es /\ r2 = r1 /\ b = false) \/ exists n, n < length es /\ es' = firstn n es /\ r2 = Ok tt /\ b = true).
      { destruct cap as [n|]; [|injection E as <- <- <-; auto]. destruct (n <? length es) eqn:L; injection E as <- <- <-; auto.
        right. exists n. apply Nat.ltb_lt in L. auto. }
      destruct X as [(-> & -> & ->)|(n & L & -> & -> & ->)].
      + left. destruct r1; [apply H|exact H..].
      + right. destruct H as [H Hb]. destruct (Hb eq_refl) as [e ->]. exists e, n. auto.
    - intros [H|(e & k & L & -> & H)].
      + exists None, es, r1, false. split; [reflexivity|]. destruct r1; [split; [exact H|discriminate]|exact H..].
      + exists (Some k), (firstn k es), (Ok tt), true. apply Nat.ltb_lt in L. rewrite L. split; [reflexivity|]. split; [exact H|]. eauto.
  Qed.

  (** ** Sequential processing *)
  Hypothesis Hj : o_jobs o = false.
  Notation rseq := (infer_checks_seq PE K o _ (run_item PE o)).
  Notation cseq := (infer_checks_seq PE K o _ (consume_item PE o)).

  Lemma consume_seq es r : consume PE K o es r <-> snd (cseq es (pst_new o)) = r.
  Proof.
    unfold consume, infer_checks. rewrite Hj. destruct (cseq es (pst_new o)) as [[st rest] r'] eqn:E. cbn [snd]. split.
    - intros (st' & rest' & H). injection H as _ _ H. exact H.
    - intros <-. eauto.
  Qed.
  Lemma consume_prefix es es' e : consume PE K o es (Err e) -> consume PE K o (es ++ es') (Err e).
  Proof.
    rewrite !consume_seq. rewrite seq_app. destruct (cseq es (pst_new o)) as [[st rest] r']. cbn [snd]. intros ->. reflexivity.
  Qed.
  Lemma seq_state es : omits o StShare = true -> forall st st', snd (cseq es st) = snd (cseq es st').
  Proof.
    intros Om. induction es as [|it es IH]; intros st st'; [reflexivity|]. cbn [infer_checks_seq].
    destruct it as [ev|e| |]; cbn [consume_item]; rewrite ?Om; cbn [filter_infer]; try reflexivity. apply IH.
  Qed.
  Lemma run_seq files : forall st r, path_result files <> Panic -> path_result files <> Fuel ->
    (run_files PE K o files st r <-> match snd (cseq (evs files) st) with Ok _ => path_result files | e => e end = r).
  Proof.
    induction files as [|[[path|e| |] items] files IH]; intros st r Hp Hp'; [| | |contradiction..].
    - cbn. split; [intros H; inversion H; reflexivity|intros <-; constructor].
    - rewrite before_file in *. cbn [fst snd] in *. specialize (fun st r => IH st r Hp Hp').
      assert (E : snd (cseq (file_events PE path items ++ evs files) st) =
        let '(st1, _, r1) := rseq items (with_path st path) in
        match r1 with Ok _ => snd (cseq (evs files) st1) | _ => r1 end).
      { unfold file_events. cbn [app].
        transitivity (snd (cseq (map (fun r => res_err PParse (res_map EvCommand r)) items ++ evs files) (with_path st path))).
        - destruct (omits o StShare) eqn:Om; [|rewrite seq_module by exact Om; reflexivity].
          rewrite (seq_state _ Om st (with_path st path)). cbn [infer_checks_seq consume_item]. rewrite Om. reflexivity.
        - rewrite seq_app, seq_ev. destruct (rseq items (with_path st path)) as [[st1 rest] [[]|e| |]]; reflexivity. }
      rewrite E. destruct (rseq items (with_path st path)) as [[st1 rest] r1] eqn:Er. split.
      + intros H. inversion H as [| |? ? ? ? st2 ? X Hok|? ? ? ? st2 ? X Y]; subst; unfold infer_checks in X; rewrite Hj in X;
          destruct X as [rest' X]; unfold with_path in Er; rewrite Er in X; injection X as X1 X2 X3; subst.
        * destruct r; [discriminate|reflexivity..].
        * apply IH. exact Y.
      + intros H. destruct r1 as [[]|e| |].
        * eapply run_ok; [|apply IH; exact H]. unfold infer_checks. rewrite Hj. exists rest. exact Er.
        * subst r. eapply run_err; [|reflexivity]. unfold infer_checks. rewrite Hj. exists rest. exact Er.
        * subst r. eapply run_err; [|reflexivity]. unfold infer_checks. rewrite Hj. exists rest. exact Er.
        * subst r. eapply run_err; [|reflexivity]. unfold infer_checks. rewrite Hj. exists rest. exact Er.
    - cbn. split; [intros H; inversion H; reflexivity|intros <-; constructor].
  Qed.
  Lemma main_run_seq files r : path_result files <> Panic -> path_result files <> Fuel ->
    (run PE K o files r <-> exists r', consume PE K o (evs files) r' /\ r = match r' with Ok _ => path_result files | e => e end).
  Proof.
    intros H H'. unfold run. rewrite run_seq by assumption. split.
    - intros <-. eexists. split; [apply consume_seq; reflexivity|]. destruct (snd (cseq _ _)); reflexivity.
    - intros (r' & Hc & ->). apply consume_seq in Hc. rewrite Hc. destruct r'; reflexivity.
  Qed.
  Lemma before_ok (files : list (file PE)) : Forall (fun f => is_ok (fst f) = true) files -> exists p, path_result files = Ok p.
  Proof.
    induction 1 as [|[[path|e| |] items] files H _ IH]; try discriminate; [exists tt; reflexivity|]. rewrite before_file. exact IH.
  Qed.
  Lemma main_channel_seq files r : Forall (fun f => is_ok (fst f) = true) files ->
    (main_channel PE K o files r <-> run PE K o files r).
  Proof.
    intros Hf. apply before_ok in Hf as [p Hp]. rewrite main_channel_iff, main_run_seq by congruence. rewrite Hp. split.
    - intros [H|(e & k & L & -> & H)]; [exists r; split; [exact H|]; destruct r as [[]| | |]; destruct p; reflexivity|].
      exists (Err e). split; [|reflexivity]. rewrite <- (firstn_skipn k (evs files)). apply consume_prefix. exact H.
    - intros (r' & H & ->). left. destruct r' as [[]| | |]; [|exact H..]. destruct p; exact H.
  Qed.
End Channel.
