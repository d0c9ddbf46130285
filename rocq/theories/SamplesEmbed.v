(** * Sample programs that contain other programs (C82) *)

From Verif Require Import Base ModelTerm ModelGctx ModelCommand ModelSubst ModelInfer ModelSyntax ModelLex ModelParse ModelProcess ModelMain
  SpecTerm SpecConv SpecProgram SpecWhole SpecProcess SpecEmbed Samples SamplesProcess SamplesParse SamplesProgram MainVerify MainProgram MainWhole SamplesWhole SamplesSem MainSem SamplesRec SamplesExamples SamplesProg TestExamples SamplesInf.

Lemma emb_sources junk inputs files evs vs : Forall2 (opens junk) inputs files -> files_events parse_error files = Some evs ->
  forallb is_ok (results evs) && true = true -> map er_cmd (oks (results evs)) = vs -> exists srcs, Forall2 (source_of junk) inputs srcs /\ elaborates srcs vs.
Proof. intros H1 H2 H3 H4. destruct (opens_sources _ _ _ H1 _ H2) as (srcs & H5 & ->). exists srcs. split; [exact H5|]. eapply sem_elaborates; [exact H5|reflexivity|exact H3|exact H4]. Qed.

(** The definition of [double], its rules, and a theorem about it are not used. *)
Definition large_source : str * option str := ($"large.dk", Some ($"nat : Type. zero : nat. succ : nat -> nat.
def double : nat -> nat. [] double zero --> zero. [n] double (succ n) --> succ (succ (double n)).
def plus : nat -> nat -> nat. [n] plus zero n --> n. [m, n] plus (succ m) n --> succ (plus m n).
eq : nat -> nat -> Type. refl : n : nat -> eq n n.
thm twice : eq (double (succ zero)) (succ (succ zero)) := refl (plus (succ zero) (succ zero)).
def one := succ zero.
thm two : eq (plus one one) (succ one) := refl (succ one).")).
Definition small_source : str * option str := ($"small.dk", Some ($"nat : Type. zero : nat. succ : nat -> nat.
def plus : nat -> nat -> nat. [n] plus zero n --> n. [m, n] plus (succ m) n --> succ (plus m n).
eq : nat -> nat -> Type. refl : n : nat -> eq n n.
def one := succ zero.
thm two : eq (plus one one) (succ one) := refl (succ one).")).
Definition wrong_source : str * option str := ($"small.dk", Some ($"nat : Type. zero : nat. succ : nat -> nat.
def plus : nat -> nat -> nat. [n] plus zero n --> n. [m, n] plus (succ m) n --> succ (plus m n).
eq : nat -> nat -> Type. refl : n : nat -> eq n n.
def one := succ zero.
thm two : eq (plus one one) (succ one) := refl one.")).
Definition large_f (c : nat) : nat := if c <? 3 then c else if c <? 6 then S c else S (S c).
Lemma large_inj : injective large_f.
Proof. intros c d. unfold large_f. destruct (Nat.ltb_spec c 3), (Nat.ltb_spec d 3), (Nat.ltb_spec c 6), (Nat.ltb_spec d 6); lia. Qed.
Definition source_vs (s : str * option str) : list vcmd := match snd s with Some t => map er_cmd (oks (results (EvModule [$"large"] :: commands_of t))) | None => [] end.
Definition large_vs : list vcmd := Eval vm_compute in source_vs large_source.
Definition small_vs : list vcmd := Eval vm_compute in source_vs small_source.
Definition wrong_vs : list vcmd := Eval vm_compute in source_vs wrong_source.
Ltac outside := intros; cbn [v_head]; unfold large_f; repeat match goal with |- context [?c <? ?k] => destruct (Nat.ltb_spec c k) end; lia.
Ltac emb_go := repeat first [apply em_nil | apply em_keep | apply em_skip; [first [apply ap_intro; outside | apply ap_rules; let H := fresh in intros ? ? H; cbn [In] in H; repeat (destruct H as [<-|H]; [outside|]); destruct H]|]].
Lemma small_embeds : embeds large_f small_vs large_vs.
Proof. unfold small_vs, large_vs. emb_go. Qed.
Ltac emb_src := match goal with |- exists srcs, Forall2 (source_of ?j) ?inputs srcs /\ elaborates srcs ?vs =>
  let X := fresh in assert (X : exists files evs, Forall2 (opens j) inputs files /\ files_events parse_error files = Some evs /\ forallb is_ok (results evs) && true = true /\ map er_cmd (oks (results evs)) = vs);
  [eexists; eexists; split; [whole_opens|]; split; [vm_compute; reflexivity|]; split; vm_compute; reflexivity|]; destruct X as (files & evs & H1 & H2 & H3 & H4); eapply emb_sources; eassumption end.
Lemma large_elaborates : exists srcs, Forall2 (source_of junk0) [large_source] srcs /\ elaborates srcs large_vs.
Proof. emb_src. Qed.
Lemma small_elaborates : exists srcs, Forall2 (source_of junk0) [small_source] srcs /\ elaborates srcs small_vs.
Proof. emb_src. Qed.
Lemma large_kocheck : kocheck junk0 sample_kernel (Opts false None false) false [large_source] (Ok tt).
Proof. eexists. split; [whole_opens|]. eapply run_ok; [unfold infer_checks; cbn [o_jobs]; eexists; vm_compute; reflexivity|]. constructor. Qed.
Lemma small_kocheck : kocheck junk0 sample_kernel (Opts false None false) false [small_source] (Ok tt).
Proof. eexists. split; [whole_opens|]. eapply run_ok; [unfold infer_checks; cbn [o_jobs]; eexists; vm_compute; reflexivity|]. constructor. Qed.
(** With a wrong proof, the smaller program is rejected, ... *)
Lemma wrong_elaborates : exists srcs, Forall2 (source_of junk0) [wrong_source] srcs /\ elaborates srcs wrong_vs.
Proof. emb_src. Qed.
Lemma wrong_kocheck : kocheck junk0 sample_kernel (Opts false None false) false [wrong_source] (Err (PKo (KoTyping Unconvertible))).
Proof. eexists. split; [whole_opens|]. eapply run_err; [unfold infer_checks; cbn [o_jobs]; eexists; vm_compute; reflexivity|]. reflexivity. Qed.
(** ... and also with rules in between, for another symbol. *)
Definition hide_source : str * option str := ($"hide.dk", Some ($"nat : Type. zero : nat. succ : nat -> nat.
def double : nat -> nat. [n] double n --> n.
def plus : nat -> nat -> nat. [n] plus zero n --> n. [m, n] plus (succ m) n --> succ (plus m n). [n] double n --> plus n n.
eq : nat -> nat -> Type. refl : n : nat -> eq n n.
thm all : n : nat -> eq (double n) n := n => refl n.
def one := succ zero.
thm two : eq (plus one one) (succ one) := refl one.")).
Definition hide_vs : list vcmd := Eval vm_compute in source_vs hide_source.
Lemma wrong_embeds : embeds large_f wrong_vs hide_vs.
Proof. unfold wrong_vs, hide_vs. emb_go. Qed.
Lemma hide_elaborates : exists srcs, Forall2 (source_of junk0) [hide_source] srcs /\ elaborates srcs hide_vs.
Proof. emb_src. Qed.

(** Rules for a symbol that no later command mentions can be necessary. *)
Definition need_source : str * option str := ($"need.dk", Some ($"t : Type. a : t. def d : t. p : t -> Type. h : p d. [] d --> a. def use : p a := h.")).
Definition lack_source : str * option str := ($"need.dk", Some ($"t : Type. a : t. def d : t. p : t -> Type. h : p d. def use : p a := h.")).
Definition need_vs : list vcmd := Eval vm_compute in source_vs need_source.
Definition lack_vs : list vcmd := Eval vm_compute in source_vs lack_source.
Lemma need_elaborates : exists srcs, Forall2 (source_of junk0) [need_source] srcs /\ elaborates srcs need_vs.
Proof. emb_src. Qed.
Lemma lack_elaborates : exists srcs, Forall2 (source_of junk0) [lack_source] srcs /\ elaborates srcs lack_vs.
Proof. emb_src. Qed.
Lemma need_kocheck : kocheck junk0 sample_kernel (Opts false None false) false [need_source] (Ok tt).
Proof. eexists. split; [whole_opens|]. eapply run_ok; [unfold infer_checks; cbn [o_jobs]; eexists; vm_compute; reflexivity|]. constructor. Qed.
Lemma lack_kocheck : kocheck junk0 sample_kernel (Opts false None false) false [lack_source] (Err (PKo (KoTyping Unconvertible))).
Proof. eexists. split; [whole_opens|]. eapply run_err; [unfold infer_checks; cbn [o_jobs]; eexists; vm_compute; reflexivity|]. reflexivity. Qed.
