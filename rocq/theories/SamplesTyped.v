(** * Sample contexts with well-typed rules, and a program with a rule that is not checked *)

From Verif Require Import Base ModelTerm ModelGctx ModelCommand ModelSubst ModelReduce ModelInfer ModelSyntax ModelShare ModelProcess
  SpecTerm SpecConv SpecTyping SpecRed SpecType SpecQuery SpecProcess Erase RedConfl EtaConfl RedCheck TypeFacts MainKernel MainConv MainVerify MainTyped
  Samples SamplesConv SamplesProcess.

Lemma types_in gc (P : nat -> tm -> Prop) : Forall (fun '(c, A) => P c (erl A)) (g_types gc) ->
  forall c A, sg_type (er_gctx gc) c = Some A -> P c A.
Proof.
  intros H c A. cbn. unfold get_type. destruct (slookup (g_types gc) c) as [A0|] eqn:E; [|discriminate]. intros [= <-].
  apply slookup_in in E. rewrite Forall_forall in H. exact (H _ E).
Qed.
Lemma rules_in gc (P : nat -> srule -> Prop) : Forall (fun '(c, r) => P c r) (gctx_rules gc) ->
  forall c rs r, sg_rules (er_gctx gc) c = Some rs -> In r rs -> P c r.
Proof.
  intros H c rs r Hrs Hin. cbn in Hrs. unfold get_rules in Hrs.
  destruct (slookup (g_rules gc) c) as [rs0|] eqn:E; [|discriminate]. injection Hrs as <-.
  apply slookup_in in E. apply in_map_iff in Hin. destruct Hin as (r0 & <- & Hin). rewrite Forall_forall in H.
  apply (H (c, er_rule r0)). unfold gctx_rules. apply in_flat_map. exists (c, rs0). split; [assumption|]. apply in_map_iff. eauto.
Qed.

(** A type found by inference. *)
Lemma by_infer gc lc t ty : ModelInfer.run (ModelInfer.infer shared gc fuel (lctx_of lc) (sterm_of_lterm t)) = Ok ty ->
  has_type (er_gctx gc) (map erl (rev lc)) (erl t) (ers ty).
Proof. apply main_infer. Qed.

Lemma orth_closed : closed_types (er_gctx orth_gc).
Proof.
  intros c A H. revert c A H. apply (types_in orth_gc (fun _ A => scoped 0 A)). vm_compute. repeat constructor.
Qed.
Lemma orth_church_rosser : church_rosser (er_gctx orth_gc).
Proof. apply orthogonal_church_rosser; [apply gctx_orthogonal; vm_compute; reflexivity|reflexivity]. Qed.
Lemma orth_pi : pi_injective (er_gctx orth_gc).
Proof. apply church_rosser_pi, orth_church_rosser. Qed.

Ltac instp := lazymatch goal with
  | |- inst _ (PatVar ?m) _ => exact (inst_var _ m)
  | |- inst _ (PatSymb ?c [?p; ?q]) (App (App _ ?t) ?u) =>
    refine (inst_symb _ c [p; q] [t; u] _); constructor; [instp|constructor; [instp|constructor]]
  | |- inst _ (PatSymb ?c [?p]) (App _ ?t) => refine (inst_symb _ c [p] [t] _); constructor; [instp|constructor]
  | |- inst _ (PatSymb ?c []) _ => refine (inst_symb _ c [] [] _); constructor
  end.
Ltac nojoker := cbn; repeat (apply Forall_cons || apply Forall_nil || apply nj_var || apply nj_symb).
Ltac rule_by lc l r := split; [nojoker|]; exists (map erl (rev lc)), (erl l);
  eexists; split; [reflexivity|]; split; [cbn; instp|]; split; [refine (by_infer _ lc l _ _)|refine (by_infer _ lc r _ _)]; vm_compute; reflexivity.
Lemma orth_rules : rules_typed (er_gctx orth_gc).
Proof.
  intros c rs r H1 H2 _. revert c rs r H1 H2. apply (rules_in orth_gc (rule_typed (er_gctx orth_gc))).
  let l := eval vm_compute in (gctx_rules orth_gc) in change (gctx_rules orth_gc) with l.
  constructor; [rule_by (@nil lterm) (lapp (LConst 8) [ZERO]) NAT|].
  constructor; [rule_by [NAT] (lapp (LConst 8) [SUCC (LVar 0)]) (larr NAT (lapp (LConst 8) [LVar 1]))|].
  constructor; [rule_by (@nil lterm) (lapp (LConst 8) [ZERO]) NAT|].
  constructor; [rule_by (@nil lterm) (LConst 7) (num 2)|].
  constructor; [rule_by [NAT] (PLUS ZERO (LVar 0)) (LVar 0)|].
  constructor; [rule_by [NAT; NAT] (PLUS (SUCC (LVar 1)) (LVar 0)) (SUCC (PLUS (LVar 1) (LVar 0)))|].
  constructor; [rule_by [NAT] (PLUS ZERO (LVar 0)) (LVar 0)|]. constructor.
Qed.
Lemma orth_sorted : sorted_types (er_gctx orth_gc).
Proof.
  intros c A H. revert c A H. apply (types_in orth_gc (fun _ A => sorted (er_gctx orth_gc) [] A)).
  let l := eval vm_compute in (g_types orth_gc) in change (g_types orth_gc) with l.
  repeat (constructor; [first [right; left; refine (by_infer _ [] _ SType _); vm_compute; reflexivity
    |right; right; refine (by_infer _ [] _ SKind _); vm_compute; reflexivity]|]). constructor.
Qed.

(** [Nat : Type. zero : Nat. Bool : Type. true : Bool. def f : Nat -> Nat. \[\] f _ --> true.] *)
Definition joker_commands : list ModelSyntax.scoped :=
  [ PIntro ($"Nat") [] (IDeclaration false p_type);
    PIntro ($"zero") [] (IDeclaration false pNAT);
    PIntro ($"Bool") [] (IDeclaration false p_type);
    PIntro ($"true") [] (IDeclaration false (local ($"Bool")));
    PIntro ($"f") [] (IDefinition (Some (p_arr pNAT pNAT)) None);
    PRules [ MkPRule [] (p_app (local ($"f")) [p_var 0]) (local ($"true")) ] ].
Definition joker_events : list event := EvModule [$"joker"] :: map EvCommand joker_commands.
Definition seq_opts : opts := Opts false None false.
Definition joker_run := infer_checks_seq unit sample_kernel seq_opts _ (consume_item unit seq_opts) (map Ok joker_events) (pst_new seq_opts).
Definition joker_st : pst := fst (fst joker_run).
Definition joker_gc : gctx := ps_gc joker_st.

Lemma joker_refuted : exists st' n t t' T,
  infer_checks_seq unit sample_kernel seq_opts _ (consume_item unit seq_opts) (map Ok joker_events) (pst_new seq_opts) = (st', [], Ok tt) /\
  orthogonal (er_gctx (ps_gc st')) /\ ModelInfer.run (whnf shared (ps_gc st') n t) = Ok t' /\
  has_type (er_gctx (ps_gc st')) [] (ers t) T /\ ~ has_type (er_gctx (ps_gc st')) [] (ers t') T.
Proof.
  assert (Ho : orthogonal (er_gctx joker_gc)) by (apply gctx_orthogonal; vm_compute; reflexivity).
  assert (Hcr : church_rosser (er_gctx joker_gc)) by (apply orthogonal_church_rosser; [exact Ho|reflexivity]).
  exists joker_st, fuel, (sterm_of_lterm (lapp (LConst 4) [LConst 1])), (SConst 3), (Const 0).
  split; [vm_compute; reflexivity|]. split; [exact Ho|]. split; [vm_compute; reflexivity|]. split.
  - change (Const 0) with (ers (SConst 0)). rewrite ers_sterm_of_lterm. refine (by_infer joker_gc [] _ _ _). vm_compute. reflexivity.
  - intros H. apply (main_not_convertible shared joker_gc fuel (SConst 2) (SConst 0) Hcr (eta_off_safe (er_gctx joker_gc) eq_refl)).
    + vm_compute. reflexivity.
    + change (conv (er_gctx joker_gc) (ers (SConst 2)) (Const 0)).
      eapply (main_infer_unique shared joker_gc fuel [] (SConst 3)); [apply church_rosser_pi; exact Hcr|constructor|exact I| |exact H].
      vm_compute. reflexivity.
Qed.

(** the sample program *)
Definition typed_st : pst := fst (fst (infer_checks_seq unit sample_kernel seq_opts _ (consume_item unit seq_opts) (map Ok sample_events) (pst_new seq_opts))).
Lemma typed_pi : pi_injective (er_gctx (ps_gc typed_st)).
Proof. apply church_rosser_pi, orthogonal_church_rosser; [apply gctx_orthogonal; vm_compute; reflexivity|vm_compute; reflexivity]. Qed.
Lemma typed_annotated cmds : share_results sample_events (pst_new seq_opts) = map Ok cmds -> Forall annotated (map er_cmd cmds).
Proof.
  let x := eval vm_compute in (share_results sample_events (pst_new seq_opts)) in change (share_results sample_events (pst_new seq_opts)) with x.
  intros H. repeat (let c := fresh "c" in destruct cmds as [|c cmds]; [discriminate H|]; cbn [map] in H; injection H as <- H). destruct cmds; [|discriminate].
  cbn. repeat constructor; cbn.
  - exists [Const 0]. reflexivity.
  - exists [Const 0; Const 0]. reflexivity.
Qed.
