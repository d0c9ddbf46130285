(** * Sample texts of programs without rewrite rules *)

From Verif Require Import Base ModelTerm ModelGctx ModelCommand ModelSubst ModelInfer ModelSyntax ModelLex ModelParse ModelProcess ModelMain
  SpecDef SpecProgram SpecWhole SpecProcess Samples SamplesProcess SamplesParse SamplesProgram MainVerify MainWhole.

Definition nat_source : str * option str := ($"nat.dk", Some ($"nat : Type. zero : nat. succ : nat -> nat. vec : nat -> Type.
def two : nat := succ (succ zero).
def twice (f : nat -> nat) (n : nat) := f (f n).
def vec2 : nat -> Type := n => vec (twice succ n).")).
(** uses [nat.dk], where [vec2 zero] and [vec two] are convertible *)
Definition good_source : str * option str := ($"good.dk", Some ($"v : nat.vec2 nat.zero. thm w : nat.vec nat.two := v.")).
Definition bad_source : str * option str := ($"bad.dk", Some ($"v : nat.vec2 nat.zero. thm w : nat.vec nat.zero := v.")).

(** Files, and thus sources, given by computation *)
Ltac whole_opens := repeat (first [apply Forall2_nil | apply Forall2_cons]);
  (eapply opens_text; [reflexivity|]; apply run_results_ok with (n := 20); vm_compute; reflexivity).
Lemma good_whole : exists srcs, Forall2 (source_of junk0) [nat_source; good_source] srcs /\ without_rules srcs.
Proof.
  eapply whole_sources; [whole_opens|vm_compute; reflexivity|]. intros rs H. repeat destruct H as [H|H]; try discriminate. contradiction.
Qed.
Lemma bad_whole : exists srcs, Forall2 (source_of junk0) [nat_source; bad_source] srcs /\ without_rules srcs.
Proof.
  eapply whole_sources; [whole_opens|vm_compute; reflexivity|]. intros rs H. repeat destruct H as [H|H]; try discriminate. contradiction.
Qed.
Lemma good_kocheck : kocheck junk0 sample_kernel (Opts false None false) false [nat_source; good_source] (Ok tt).
Proof.
  eexists. split; [whole_opens|].
  do 2 (eapply run_ok; [unfold infer_checks; cbn [o_jobs]; eexists; vm_compute; reflexivity|]). constructor.
Qed.
Lemma bad_kocheck : kocheck junk0 sample_kernel (Opts false None false) false [nat_source; bad_source] (Err (PKo (KoTyping Unconvertible))).
Proof.
  eexists. split; [whole_opens|].
  eapply run_ok; [unfold infer_checks; cbn [o_jobs]; eexists; vm_compute; reflexivity|].
  eapply run_err; [unfold infer_checks; cbn [o_jobs]; eexists; vm_compute; reflexivity|]. reflexivity.
Qed.
