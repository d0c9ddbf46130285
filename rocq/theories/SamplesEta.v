(** * Sample texts for eta *)

From Verif Require Import Base ModelTerm ModelGctx ModelCommand ModelSubst ModelInfer ModelSyntax ModelLex ModelParse ModelProcess ModelMain
  SpecTerm SpecConv SpecDef SpecProgram SpecWhole SpecProcess SpecEta Samples SamplesProcess SamplesParse SamplesProgram SamplesWhole SamplesProg SamplesDef SpecSN SpecType SpecDomain SpecTotal Erase MainProgTotal MainDef MainVerify MainProgram MainWhole MainEta.

(** needs eta *)
Definition eta_source : str * option str := ($"eta.dk", Some ($"nat : Type. f : nat -> nat. P : (nat -> nat) -> Type. p : P f.
thm t : P (x => f x) := p.")).
(** does not; its rules are linear *)
Definition line_source : str * option str := ($"line.dk", Some ($"nat : Type. zero : nat. succ : nat -> nat. def pred : nat -> nat.
[n : nat] pred (succ n) --> n. P : nat -> Type. p : P zero. thm t : P (pred (succ zero)) := p.")).
(** neither does this, whose first rule is not linear *)
Definition twin_source : str * option str := ($"twin.dk", Some ($"nat : Type. g : nat -> nat. def F : (nat -> nat) -> (nat -> nat) -> Type.
T1 : Type. T2 : Type. [x] F x x --> T1. [x, y] F x y --> T2. p : T2. thm t : F g (x => g x) := p.")).

Lemma eta_whole : exists srcs, Forall2 (source_of junk0) [eta_source] srcs /\ without_rules srcs.
Proof.
  eapply whole_sources; [whole_opens|vm_compute; reflexivity|]. intros rs H. repeat destruct H as [H|H]; try discriminate. contradiction.
Qed.
Lemma line_whole : exists srcs, Forall2 (source_of junk0) [line_source] srcs /\ linear_sources srcs.
Proof.
  eapply results_linear; [whole_opens|vm_compute; reflexivity|].
  vm_compute. repeat (apply Forall_cons || apply Forall_nil); try exact I. repeat constructor; intros [].
Qed.
Lemma twin_whole : exists srcs, Forall2 (source_of junk0) [twin_source] srcs.
Proof.
  assert (X : forall inputs files evs, Forall2 (opens junk0) inputs files -> files_events parse_error files = Some evs -> exists srcs, Forall2 (source_of junk0) inputs srcs)
    by (intros inputs files evs H1 H2; destruct (opens_sources _ _ _ H1 _ H2) as (srcs & H & _); exists srcs; exact H).
  eapply X; [whole_opens|vm_compute; reflexivity].
Qed.
Lemma eta_off : kocheck junk0 sample_kernel (Opts false None false) false [eta_source] (Err (PKo (KoTyping Unconvertible))).
Proof.
  eexists. split; [whole_opens|]. eapply run_err; [unfold infer_checks; cbn [o_jobs]; eexists; vm_compute; reflexivity|]. reflexivity.
Qed.
Lemma eta_on : kocheck junk0 sample_kernel (Opts true None false) false [eta_source] (Ok tt).
Proof.
  eexists. split; [whole_opens|]. eapply run_ok; [unfold infer_checks; cbn [o_jobs]; eexists; vm_compute; reflexivity|]. constructor.
Qed.
Lemma line_off : kocheck junk0 sample_kernel (Opts false None false) false [line_source] (Ok tt).
Proof.
  eexists. split; [whole_opens|]. eapply run_ok; [unfold infer_checks; cbn [o_jobs]; eexists; vm_compute; reflexivity|]. constructor.
Qed.
Lemma twin_off : kocheck junk0 sample_kernel (Opts false None false) false [twin_source] (Ok tt).
Proof.
  eexists. split; [whole_opens|]. eapply run_ok; [unfold infer_checks; cbn [o_jobs]; eexists; vm_compute; reflexivity|]. constructor.
Qed.
Lemma twin_on : kocheck junk0 sample_kernel (Opts true None false) false [twin_source] (Err (PKo (KoTyping Unconvertible))).
Proof.
  eexists. split; [whole_opens|]. eapply run_err; [unfold infer_checks; cbn [o_jobs]; eexists; vm_compute; reflexivity|]. reflexivity.
Qed.

(** [nat : Type. f : nat -> nat.] with eta *)
Definition eta_events : list event :=
  EvModule [$"eta"] :: map EvCommand [ PIntro ($"nat") [] (IDeclaration false p_type); PIntro ($"f") [] (IDeclaration false (p_arr (local ($"nat")) (local ($"nat")))) ].
Definition eta_st : pst := fst (fst (infer_checks_seq unit sample_kernel (Opts true None false) _ (consume_item unit (Opts true None false)) (map Ok eta_events) (pst_new (Opts true None false)))).
Lemma eta_definitional : definitional (er_gctx (ps_gc eta_st)).
Proof.
  apply (main_rule_free_definitional (fun _ => shared) unit true false eta_events); [free|]. exists fuel. vm_compute. reflexivity.
Qed.
Lemma eta_f : well_typed (er_gctx (ps_gc eta_st)) [] (Const 1) (Pi (Const 0) (Const 0)).
Proof. apply (wt_const _ _ 1 (Pi (Const 0) (Const 0))). reflexivity. Qed.
Lemma eta_expanded : well_typed (er_gctx (ps_gc eta_st)) [] (ULam (App (Const 1) (Var 0))) (Pi (Const 0) (Const 0)).
Proof.
  assert (N : forall G, well_typed (er_gctx (ps_gc eta_st)) G (Const 0) Typ) by (intros G; apply (wt_const _ _ 0 Typ); reflexivity).
  apply wt_lam with (s := Typ); [apply N| |apply N|left; reflexivity].
  apply (wt_app _ _ _ _ (Const 0) (Const 0)); [apply (wt_const _ _ 1 (Pi (Const 0) (Const 0))); reflexivity|].
  apply (wt_var _ [Const 0] 0 (Const 0)). reflexivity.
Qed.
(** [x => f x] *)
Definition eta_expansion : sterm := SSComb (Abst ($"x") None (SSComb (Appl (SConst 1) [SVar 0]))).
