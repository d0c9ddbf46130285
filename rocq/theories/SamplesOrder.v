(** * Sample programs with exchanged commands (C83) *)

From Verif Require Import Base ModelTerm ModelGctx ModelCommand ModelSubst ModelInfer ModelSyntax ModelLex ModelParse ModelProcess ModelMain
  SpecTerm SpecConv SpecProgram SpecWhole SpecProcess SpecEmbed SpecOrder Samples SamplesProcess SamplesParse SamplesProgram MainVerify MainProgram MainWhole SamplesWhole SamplesSem MainSem SamplesRec SamplesExamples SamplesProg TestExamples SamplesInf SamplesEmbed.

(** The introductions of [zero] and [succ] in another order: both are used in rules and in a proof. *)
Definition order1_source : str * option str := ($"order.dk", Some ($"nat : Type. zero : nat. succ : nat -> nat.
def plus : nat -> nat -> nat. [n] plus zero n --> n. [m, n] plus (succ m) n --> succ (plus m n).
eq : nat -> nat -> Type. refl : n : nat -> eq n n.
def one := succ zero.
thm two : eq (plus one one) (succ one) := refl (succ one).")).
Definition order2_source : str * option str := ($"order.dk", Some ($"nat : Type. succ : nat -> nat. zero : nat.
def plus : nat -> nat -> nat. [n] plus zero n --> n. [m, n] plus (succ m) n --> succ (plus m n).
eq : nat -> nat -> Type. refl : n : nat -> eq n n.
def one := succ zero.
thm two : eq (plus one one) (succ one) := refl (succ one).")).
Definition order1_vs : list vcmd := Eval vm_compute in source_vs order1_source.
Definition order2_vs : list vcmd := Eval vm_compute in source_vs order2_source.
Lemma order_exchanged : exchanged order1_vs order2_vs.
Proof.
  set (B := skipn 3 order1_vs). vm_compute in B.
  change order1_vs with ([VIntro 0 (IDeclaration false Typ)] ++ VIntro 1 (IDeclaration false (Const 0)) :: VIntro 2 (IDeclaration false (Pi (Const 0) (Const 0))) :: B).
  change order2_vs with (map (cm_vcmd (exchange 1 2)) ([VIntro 0 (IDeclaration false Typ)] ++ VIntro 2 (IDeclaration false (Pi (Const 0) (Const 0))) :: VIntro 1 (IDeclaration false (Const 0)) :: B)).
  apply ex_here. cbn. lia.
Qed.
Lemma order1_elaborates : exists srcs, Forall2 (source_of junk0) [order1_source] srcs /\ elaborates srcs order1_vs.
Proof. emb_src. Qed.
Lemma order2_elaborates : exists srcs, Forall2 (source_of junk0) [order2_source] srcs /\ elaborates srcs order2_vs.
Proof. emb_src. Qed.
Lemma order1_kocheck : kocheck junk0 sample_kernel (Opts false None false) false [order1_source] (Ok tt).
Proof. eexists. split; [whole_opens|]. eapply run_ok; [unfold infer_checks; cbn [o_jobs]; eexists; vm_compute; reflexivity|]. constructor. Qed.
Lemma order2_kocheck : kocheck junk0 sample_kernel (Opts false None false) false [order2_source] (Ok tt).
Proof. eexists. split; [whole_opens|]. eapply run_ok; [unfold infer_checks; cbn [o_jobs]; eexists; vm_compute; reflexivity|]. constructor. Qed.

(** A definition that needs a rule for a symbol that it does not mention *)
Definition early_source : str * option str := ($"need.dk", Some ($"t : Type. a : t. def d : t. p : t -> Type. h : p d. def use : p a := h. [] d --> a.")).
Definition early_vs : list vcmd := Eval vm_compute in source_vs early_source.
Lemma early_elaborates : exists srcs, Forall2 (source_of junk0) [early_source] srcs /\ elaborates srcs early_vs.
Proof. emb_src. Qed.
Lemma early_kocheck : kocheck junk0 sample_kernel (Opts false None false) false [early_source] (Err (PKo (KoTyping Unconvertible))).
Proof. eexists. split; [whole_opens|]. eapply run_err; [unfold infer_checks; cbn [o_jobs]; eexists; vm_compute; reflexivity|]. reflexivity. Qed.
(** A definition that a rule for a symbol that it does not mention makes wrong *)
Definition before_source : str * option str := ($"k.dk", Some ($"t : Type. a : t. b : t. def k : t. def f : t -> t. [] f k --> a. p : t -> Type. g : p (f k). def use : p a := g. [] k --> b.")).
Definition after_source : str * option str := ($"k.dk", Some ($"t : Type. a : t. b : t. def k : t. def f : t -> t. [] f k --> a. p : t -> Type. g : p (f k). [] k --> b. def use : p a := g.")).
Definition before_vs : list vcmd := Eval vm_compute in source_vs before_source.
Definition after_vs : list vcmd := Eval vm_compute in source_vs after_source.
Lemma before_elaborates : exists srcs, Forall2 (source_of junk0) [before_source] srcs /\ elaborates srcs before_vs.
Proof. emb_src. Qed.
Lemma after_elaborates : exists srcs, Forall2 (source_of junk0) [after_source] srcs /\ elaborates srcs after_vs.
Proof. emb_src. Qed.
Lemma before_kocheck : kocheck junk0 sample_kernel (Opts false None false) false [before_source] (Ok tt).
Proof. eexists. split; [whole_opens|]. eapply run_ok; [unfold infer_checks; cbn [o_jobs]; eexists; vm_compute; reflexivity|]. constructor. Qed.
Lemma after_kocheck : kocheck junk0 sample_kernel (Opts false None false) false [after_source] (Err (PKo (KoTyping Unconvertible))).
Proof. eexists. split; [whole_opens|]. eapply run_err; [unfold infer_checks; cbn [o_jobs]; eexists; vm_compute; reflexivity|]. reflexivity. Qed.
