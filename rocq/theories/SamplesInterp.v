(** * Sample programs with symbols replaced by terms (C84) *)

From Verif Require Import Base ModelTerm ModelGctx ModelCommand ModelSubst ModelInfer ModelSyntax ModelLex ModelParse ModelProcess ModelMain
  SpecTerm SpecConv SpecRed SpecProgram SpecWhole SpecProcess SpecDerive SpecDef SpecInterp Samples SamplesProcess SamplesParse SamplesProgram MainVerify MainProgram MainWhole SamplesWhole SamplesSem MainSem SamplesRec SamplesExamples SamplesProg TestExamples SamplesInf SamplesEmbed.

Ltac int_src := match goal with |- exists srcs, Forall2 (source_of ?j) ?inputs srcs /\ without_rules srcs /\ elaborates srcs ?vs =>
  let X := fresh in assert (X : exists files evs, Forall2 (opens j) inputs files /\ files_events parse_error files = Some evs /\ rule_free evs /\ forallb is_ok (results evs) && true = true /\ map er_cmd (oks (results evs)) = vs);
  [eexists; eexists; split; [whole_opens|]; split; [vm_compute; reflexivity|]; split; [intros rs H; repeat (destruct H as [H|H]; [discriminate|]); destruct H|]; split; vm_compute; reflexivity|];
  destruct X as (files & evs & H1 & H2 & H3 & H4 & H5); destruct (opens_sources _ _ _ H1 _ H2) as (srcs & H6 & ->); exists srcs;
  split; [exact H6|]; split; [apply free_without_rules; exact H3|]; eapply sem_elaborates; [exact H6|reflexivity|exact H4|exact H5] end.
Ltac int_go := repeat match goal with
  | |- interprets _ _ [] [] => apply in_nil
  | |- interprets ?s ?Q (VIntro ?c ?it :: ?vs) ?vs' =>
    first [ match vs' with VIntro ?d ?jt :: ?vs2 => change jt with (put_intro s it); apply in_keep; [reflexivity|] end
          | eapply in_unfold; [constructor|reflexivity|]
          | eapply in_given; [constructor|reflexivity|repeat (first [left; reflexivity|right])|cbn; constructor|] ]
  end.
Ltac int_ok := eexists; split; [whole_opens|]; eapply run_ok; [unfold infer_checks; cbn [o_jobs]; eexists; vm_compute; reflexivity|]; constructor.

(** Two definitions and a theorem are unfolded. *)
Definition defs_source : str * option str := ($"defs.dk", Some ($"nat : Type. zero : nat. succ : nat -> nat. eq : nat -> nat -> Type. refl : n : nat -> eq n n.
def twice : (nat -> nat) -> nat -> nat := f : (nat -> nat) => n : nat => f (f n).
def two := twice succ zero.
thm lemma : eq two (succ (succ zero)) := refl two.
p : eq two (succ (succ zero)) -> Type.
q : p lemma.")).
Definition unfolded_source : str * option str := ($"defs.dk", Some ($"nat : Type. zero : nat. succ : nat -> nat. eq : nat -> nat -> Type. refl : n : nat -> eq n n.
p : eq ((f : (nat -> nat) => n : nat => f (f n)) succ zero) (succ (succ zero)) -> Type.
q : p (refl ((f : (nat -> nat) => n : nat => f (f n)) succ zero)).")).
Definition defs_vs : list vcmd := Eval vm_compute in source_vs defs_source.
Definition unfolded_vs : list vcmd := Eval vm_compute in source_vs unfolded_source.
Definition twice_tm : tm := Lam (Pi (Const 0) (Const 0)) (Lam (Const 0) (App (Var 1) (App (Var 1) (Var 0)))).
Definition two_tm : tm := App (App twice_tm (Const 2)) (Const 1).
Definition defs_s (c : nat) : tm := nth c [Const 0; Const 1; Const 2; Const 3; Const 4; twice_tm; two_tm; App (Const 4) two_tm; Const 5; Const 6] (Const c).
Lemma defs_closed : closed_terms defs_s.
Proof. intros c. do 10 (destruct c as [|c]; [cbn; repeat split; lia|]). destruct c; cbn; auto. Qed.
Lemma defs_interprets : interprets defs_s [] defs_vs unfolded_vs.
Proof. unfold defs_vs, unfolded_vs. int_go. Qed.
Lemma defs_elaborates : exists srcs, Forall2 (source_of junk0) [defs_source] srcs /\ without_rules srcs /\ elaborates srcs defs_vs.
Proof. int_src. Qed.
Lemma unfolded_elaborates : exists srcs, Forall2 (source_of junk0) [unfolded_source] srcs /\ without_rules srcs /\ elaborates srcs unfolded_vs.
Proof. int_src. Qed.
Lemma defs_kocheck : kocheck junk0 sample_kernel (Opts false None false) false [defs_source] (Ok tt).
Proof. int_ok. Qed.
Lemma unfolded_kocheck : kocheck junk0 sample_kernel (Opts false None false) false [unfolded_source] (Ok tt).
Proof. int_ok. Qed.

(** A theory of an operation with a neutral element, ... *)
Definition theory_source : str * option str := ($"theory.dk", Some ($"t : Type. e : t. op : t -> t -> t. eq : t -> t -> Type. refl : x : t -> eq x x.
left : x : t -> eq (op e x) x.
thm lemma : eq (op e e) e := left e.
thm again : x : t -> eq (op e (op e x)) (op e x) := x : t => left (op e x).")).
(** ... an implementation of it, ... *)
Definition bool_source : str * option str := ($"bool.dk", Some ($"bool : Type. true : bool. false : bool. eqb : bool -> bool -> Type. reflb : b : bool -> eqb b b.
def and : bool -> bool -> bool := x => y => y.
thm unit : b : bool -> eqb (and true b) b := b : bool => reflb b.")).
(** ... and the theorems of the theory for it *)
Definition instance_source : str * option str := ($"bool.dk", Some ($"bool : Type. true : bool. false : bool. eqb : bool -> bool -> Type. reflb : b : bool -> eqb b b.
def and : bool -> bool -> bool := x => y => y.
thm unit : b : bool -> eqb (and true b) b := b : bool => reflb b.
thm lemma : eqb (and true true) true := unit true.
thm again : x : bool -> eqb (and true (and true x)) (and true x) := x : bool => unit (and true x).")).
Definition theory_vs : list vcmd := Eval vm_compute in source_vs theory_source.
Definition bool_vs : list vcmd := Eval vm_compute in source_vs bool_source.
Definition instance_vs : list vcmd := Eval vm_compute in skipn 7 (source_vs instance_source).
Definition theory_s (c : nat) : tm := Const (nth c [0; 1; 5; 3; 4; 6; 7; 8] c).
Lemma theory_closed : closed_terms theory_s.
Proof. intros c. split; exact I. Qed.
Lemma theory_interprets : interprets theory_s bool_vs theory_vs instance_vs.
Proof.
  unfold theory_vs, bool_vs, instance_vs.
  do 6 (eapply in_given; [constructor|reflexivity|repeat (first [left; reflexivity|right])|cbn; constructor|]). int_go.
Qed.
Lemma theory_elaborates : exists srcs, Forall2 (source_of junk0) [theory_source] srcs /\ without_rules srcs /\ elaborates srcs theory_vs.
Proof. int_src. Qed.
Lemma bool_elaborates : exists srcs, Forall2 (source_of junk0) [bool_source] srcs /\ without_rules srcs /\ elaborates srcs bool_vs.
Proof. int_src. Qed.
Lemma instance_elaborates : exists srcs, Forall2 (source_of junk0) [instance_source] srcs /\ without_rules srcs /\ elaborates srcs (bool_vs ++ instance_vs).
Proof. int_src. Qed.
Lemma theory_kocheck : kocheck junk0 sample_kernel (Opts false None false) false [theory_source] (Ok tt).
Proof. int_ok. Qed.
Lemma bool_kocheck : kocheck junk0 sample_kernel (Opts false None false) false [bool_source] (Ok tt).
Proof. int_ok. Qed.
Lemma instance_kocheck : kocheck junk0 sample_kernel (Opts false None false) false [instance_source] (Ok tt).
Proof. int_ok. Qed.

(** A definition with an abstraction without domain *)
Definition short_source : str * option str := ($"id.dk", Some ($"nat : Type. zero : nat. p : nat -> Type. q : n : nat -> p n. def id : nat -> nat := x => x. thm same : p (id zero) := q zero.")).
Definition long_source : str * option str := ($"id.dk", Some ($"nat : Type. zero : nat. p : nat -> Type. q : n : nat -> p n. thm same : p ((x => x) zero) := q zero.")).
Definition short_vs : list vcmd := Eval vm_compute in source_vs short_source.
Definition long_vs : list vcmd := Eval vm_compute in source_vs long_source.
Definition short_s (c : nat) : tm := nth c [Const 0; Const 1; Const 2; Const 3; ULam (Var 0); Const 4] (Const c).
Lemma short_closed : forall c, scoped 0 (short_s c).
Proof. intros c. do 6 (destruct c as [|c]; [cbn; repeat split; lia|]). destruct c; cbn; auto. Qed.
Lemma short_interprets : interprets short_s [] short_vs long_vs.
Proof. unfold short_vs, long_vs. int_go. Qed.
Lemma short_elaborates : exists srcs, Forall2 (source_of junk0) [short_source] srcs /\ without_rules srcs /\ elaborates srcs short_vs.
Proof. int_src. Qed.
Lemma long_elaborates : exists srcs, Forall2 (source_of junk0) [long_source] srcs /\ without_rules srcs /\ elaborates srcs long_vs.
Proof. int_src. Qed.
Lemma short_kocheck : kocheck junk0 sample_kernel (Opts false None false) false [short_source] (Ok tt).
Proof. int_ok. Qed.
Lemma long_kocheck : exists e, kocheck junk0 sample_kernel (Opts false None false) false [long_source] (Err (PKo (KoTyping e))).
Proof. eexists. eexists. split; [whole_opens|]. eapply run_err; [unfold infer_checks; cbn [o_jobs]; eexists; vm_compute; reflexivity|]. reflexivity. Qed.
