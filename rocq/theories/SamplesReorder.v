(** * Sample programs in another order (C85) *)

From Coq Require Import Sorting.Permutation.
From Verif Require Import Base ModelTerm ModelGctx ModelCommand ModelSubst ModelInfer ModelSyntax ModelLex ModelParse ModelProcess ModelMain
  SpecTerm SpecConv SpecProgram SpecWhole SpecProcess SpecEmbed SpecOrder SpecReorder Samples SamplesProcess SamplesParse SamplesProgram MainVerify MainProgram MainWhole SamplesWhole SamplesSem MainSem SamplesRec SamplesExamples SamplesProg TestExamples SamplesInf SamplesEmbed SamplesOrder MainReorder.

(** A program, and the same introductions in another order and in two files *)
Definition mix_source : str * option str := ($"mix.dk", Some ($"A : Type. a : A. B : A -> Type. def id : A -> A := x => x. b : B (id a). def both : Type := x : A -> B x -> A.
C : Type. c : B a -> C. thm t : C := c b.")).
Definition mix1_source : str * option str := ($"one.dk", Some ($"C : Type. A : Type. def id : A -> A := x => x.")).
Definition mix2_source : str * option str := ($"two.dk", Some ($"B : one.A -> Type. a : one.A. c : B a -> one.C. b : B (one.id a). thm t : one.C := c b. def both : Type := x : one.A -> B x -> one.A.")).
Definition mix_f (c : nat) : nat := nth c [1; 4; 3; 2; 6; 8; 0; 5; 7] c.
Definition text_of (s : str * option str) : str := match snd s with Some t => t | None => [] end.
Definition mix_vs : list vcmd := Eval vm_compute in source_vs mix_source.
Definition mixed_vs : list vcmd := Eval vm_compute in
  map er_cmd (oks (results ((EvModule [$"one"] :: commands_of (text_of mix1_source)) ++ EvModule [$"two"] :: commands_of (text_of mix2_source)))).
Lemma mix_reordered : reordered mix_vs mixed_vs.
Proof.
  exists mix_f. split.
  - intros c d. unfold mix_f. do 9 (destruct c as [|c]; [do 9 (destruct d as [|d]; [cbn; try reflexivity; discriminate|]); cbn; destruct d; discriminate|]).
    do 9 (destruct d as [|d]; [cbn; destruct c; discriminate|]). cbn. destruct c, d; cbn; congruence.
  - apply NoDup_Permutation_bis; [|vm_compute; lia|].
    + vm_compute. repeat constructor; cbn; intros H; repeat (destruct H as [H|H]; [discriminate|]); exact H.
    + intros v H. vm_compute in H. vm_compute. repeat (destruct H as [<-|H]; [tauto|]). destruct H.
Qed.
Lemma mix_elaborates : exists srcs, Forall2 (source_of junk0) [mix_source] srcs /\ elaborates srcs mix_vs.
Proof. emb_src. Qed.
Lemma mixed_elaborates : exists srcs, Forall2 (source_of junk0) [mix1_source; mix2_source] srcs /\ elaborates srcs mixed_vs.
Proof. emb_src. Qed.
Lemma mix_kocheck : kocheck junk0 sample_kernel (Opts false None false) false [mix_source] (Ok tt).
Proof. eexists. split; [whole_opens|]. eapply run_ok; [unfold infer_checks; cbn [o_jobs]; eexists; vm_compute; reflexivity|]. constructor. Qed.
Lemma mixed_kocheck : kocheck junk0 sample_kernel (Opts false None false) false [mix1_source; mix2_source] (Ok tt).
Proof.
  eexists. split; [whole_opens|]. eapply run_ok; [unfold infer_checks; cbn [o_jobs]; eexists; vm_compute; reflexivity|].
  eapply run_ok; [unfold infer_checks; cbn [o_jobs]; eexists; vm_compute; reflexivity|]. constructor.
Qed.
Lemma mix_rules srcs : elaborates srcs mix_vs -> without_rules srcs.
Proof. intros H. apply (elab_intros _ _ _ _ H). vm_compute. repeat constructor; repeat eexists. Qed.
(** Rules: [need_source] and [early_source] have the same commands. *)
Lemma need_reordered : reordered need_vs early_vs.
Proof.
  exists (fun c => c). split; [intros c d H; exact H|]. change (map (cm_vcmd (fun c => c)) need_vs) with need_vs.
  change need_vs with (firstn 5 need_vs ++ [nth 5 need_vs (VRules []); nth 6 need_vs (VRules [])]). change early_vs with (firstn 5 need_vs ++ [nth 6 need_vs (VRules []); nth 5 need_vs (VRules [])]).
  apply Permutation_app_head. apply perm_swap.
Qed.
