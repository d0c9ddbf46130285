(** * Sample texts of programs with structurally recursive functions *)

From Verif Require Import Base ModelTerm ModelGctx ModelCommand ModelSubst ModelInfer ModelSyntax ModelLex ModelParse ModelProcess ModelMain
  SpecDef SpecProgram SpecWhole SpecWholeRec SpecProcess Samples SamplesProcess SamplesParse SamplesProgram SamplesProg SamplesWhole MainVerify MainWhole MainWholeRec RecCheck RecTest.

Definition fun_source : str * option str := ($"fun.dk", Some ($"Nat : Type. Z : Nat. S : Nat -> Nat. def plus : Nat -> Nat -> Nat. def times : Nat -> Nat -> Nat.
[m : Nat] plus Z m --> m [n : Nat, m : Nat] plus (S n) m --> S (plus n m).
[m : Nat] times Z m --> Z [n : Nat, m : Nat] times (S n) m --> plus m (times n m).
def iter : (Nat -> Nat) -> Nat -> Nat -> Nat.
[f : Nat -> Nat, x : Nat] iter f Z x --> x [f : Nat -> Nat, n : Nat, x : Nat] iter f (S n) x --> f (iter f n x).
def pow (m : Nat) (n : Nat) : Nat := iter (times m) n (S Z). def two : Nat := S (S Z). Is : Nat -> Type. is : n : Nat -> Is n.")).
(** uses [fun.dk], and adds a function of its own *)
Definition even_source : str * option str := ($"even.dk", Some ($"Bool : Type. true : Bool. false : Bool. def not : Bool -> Bool. [] not true --> false [] not false --> true.
def even : fun.Nat -> Bool. [] even fun.Z --> true [n : fun.Nat] even (fun.S n) --> not (even n).
Holds : Bool -> Type. holds : Holds true. thm t : Holds (even (fun.pow fun.two fun.two)) := holds.
thm u : fun.Is (fun.S (fun.S (fun.plus fun.two fun.two))) := fun.is (fun.plus fun.two (fun.pow fun.two fun.two)).")).
(** the number [3] is not even *)
Definition odd_source : str * option str := ($"odd.dk", Some ($"Bool : Type. true : Bool. false : Bool. def not : Bool -> Bool. [] not true --> false [] not false --> true.
def even : fun.Nat -> Bool. [] even fun.Z --> true [n : fun.Nat] even (fun.S n) --> not (even n).
Holds : Bool -> Type. holds : Holds true. thm t : Holds (even (fun.S fun.two)) := holds.")).
(** a rule of which the sides have different types *)
Definition unsound_source : str * option str := ($"unsound.dk", Some ($"Bool : Type. true : Bool. def even : fun.Nat -> Bool. [] even fun.Z --> true [n : fun.Nat] even (fun.S n) --> n.")).

Lemma even_whole : exists srcs, Forall2 (source_of junk0) [fun_source; even_source] srcs /\ recursive_sources srcs.
Proof. eapply (rec_sources junk0 (fun _ => sometimes) sometimes fuel); [whole_opens|vm_compute; reflexivity|vm_compute; reflexivity]. Qed.
Lemma odd_whole : exists srcs, Forall2 (source_of junk0) [fun_source; odd_source] srcs /\ recursive_sources srcs.
Proof. eapply (rec_sources junk0 (fun _ => sometimes) sometimes fuel); [whole_opens|vm_compute; reflexivity|vm_compute; reflexivity]. Qed.
Lemma unsound_whole : exists srcs, Forall2 (source_of junk0) [fun_source; unsound_source] srcs /\ recursive_sources srcs.
Proof. eapply (rec_sources junk0 (fun _ => sometimes) sometimes fuel); [whole_opens|vm_compute; reflexivity|vm_compute; reflexivity]. Qed.

Notation rec_kernel := (real_kernel (fun _ => sometimes) fuel).
Lemma even_kocheck : kocheck junk0 rec_kernel (Opts false None false) false [fun_source; even_source] (Ok tt).
Proof.
  eexists. split; [whole_opens|].
  do 2 (eapply run_ok; [unfold infer_checks; cbn [o_jobs]; eexists; vm_compute; reflexivity|]). constructor.
Qed.
Lemma odd_kocheck : kocheck junk0 rec_kernel (Opts false None false) false [fun_source; odd_source] (Err (PKo (KoTyping Unconvertible))).
Proof.
  eexists. split; [whole_opens|].
  eapply run_ok; [unfold infer_checks; cbn [o_jobs]; eexists; vm_compute; reflexivity|].
  eapply run_err; [unfold infer_checks; cbn [o_jobs]; eexists; vm_compute; reflexivity|]. reflexivity.
Qed.
Lemma unsound_kocheck : kocheck junk0 rec_kernel (Opts false None false) false [fun_source; unsound_source] (Err (PKo (KoTyping Unconvertible))).
Proof.
  eexists. split; [whole_opens|].
  eapply run_ok; [unfold infer_checks; cbn [o_jobs]; eexists; vm_compute; reflexivity|].
  eapply run_err; [unfold infer_checks; cbn [o_jobs]; eexists; vm_compute; reflexivity|]. reflexivity.
Qed.
