(** * Property C65: kocheck decides programs with structurally recursive functions

    As C62, for programs with rewrite rules.  The only assumption is [recursive_sources]: the rules found by
    every command are structurally recursive (as in C64), and the variables of rules are given types (or their sides have a common type, see C71).
    It does not say that terms are typable; whether the sides of a rule have the same type is decided, too. *)

From Verif Require Import Base ModelTerm ModelGctx ModelCommand ModelSubst ModelInfer ModelSyntax ModelLex ModelParse ModelProcess ModelMain
  SpecProcess SpecProgram SpecRec SpecWholeRec Samples SamplesProcess SamplesParse SamplesProgram SamplesWholeRec MainProgram MainVerify MainWhole MainRec MainWholeRec RecCheck RecTest.

(** Given enough fuel, kocheck has exactly one result.  It is not a panic, and it is success iff all names are
    declared and all commands typable.  With less fuel, it has this result or runs out of fuel. *)
Theorem C65_decides : forall junk O inputs srcs, Forall2 (source_of junk) inputs srcs -> recursive_sources srcs ->
  exists n0 r, r <> Fuel /\ r <> Panic /\
    (forall n, n0 <= n -> forall r', kocheck junk (real_kernel O n) (Opts false None false) false inputs r' <-> r' = r) /\
    (forall n r', kocheck junk (real_kernel O n) (Opts false None false) false inputs r' -> r' = r \/ r' = Fuel) /\
    (r = Ok tt <-> typable_program srcs).
Proof. exact (main_rec_decides structural structural_class). Qed.
Print Assumptions C65_decides.

(** With threads or with a channel, it also accepts exactly these programs. *)
Theorem C65_accepts : forall junk O jobs channel inputs srcs, Forall2 (source_of junk) inputs srcs -> recursive_sources srcs ->
  exists n0, (forall n, n0 <= n -> kocheck junk (real_kernel O n) (Opts false None jobs) channel inputs (Ok tt) <-> typable_program srcs) /\
    (forall n, kocheck junk (real_kernel O n) (Opts false None jobs) channel inputs (Ok tt) -> typable_program srcs).
Proof. exact (main_rec_accepts structural structural_class). Qed.
Print Assumptions C65_accepts.

(** The same for koweb *)
Theorem C65_web : forall junk O modules srcs, Forall2 (web_source junk) modules srcs -> recursive_sources srcs ->
  exists n0 r, r <> Fuel /\ r <> Panic /\
    (forall n, n0 <= n -> forall r', web_check junk (real_kernel O n) (Opts false None false) modules r' <-> r' = r) /\
    (r = Ok tt <-> typable_program srcs).
Proof. exact (main_rec_web structural structural_class). Qed.
Print Assumptions C65_web.

(** A test that can be computed shows the assumption for given texts. *)
Theorem C65_test : forall junk O uniq n inputs srcs, Forall2 (source_of junk) inputs srcs -> eventsb structuralb O uniq n (program_events srcs) = true ->
  recursive_sources srcs.
Proof. exact main_eventsb. Qed.
Print Assumptions C65_test.

(** a typable program, one with a wrong theorem and one with a wrong rule, and what kocheck says about them *)
Example C65_example : exists srcs, Forall2 (source_of junk0) [fun_source; even_source] srcs /\ recursive_sources srcs /\ typable_program srcs /\
  kocheck junk0 rec_kernel (Opts false None false) false [fun_source; even_source] (Ok tt).
Proof.
  destruct even_whole as (srcs & H1 & H2). exists srcs. split; [exact H1|]. split; [exact H2|]. split; [|exact even_kocheck].
  destruct (C65_decides junk0 (fun _ => sometimes) _ _ H1 H2) as (n0 & r & _ & _ & _ & Hr & Ht). apply Ht.
  destruct (Hr _ _ even_kocheck) as [H|H]; [symmetry; exact H|discriminate].
Qed.
Example C65_example_untypable : exists srcs, Forall2 (source_of junk0) [fun_source; odd_source] srcs /\ recursive_sources srcs /\ ~ typable_program srcs /\
  kocheck junk0 rec_kernel (Opts false None false) false [fun_source; odd_source] (Err (PKo (KoTyping Unconvertible))).
Proof.
  destruct odd_whole as (srcs & H1 & H2). exists srcs. split; [exact H1|]. split; [exact H2|]. split; [|exact odd_kocheck].
  destruct (C65_decides junk0 (fun _ => sometimes) _ _ H1 H2) as (n0 & r & _ & _ & _ & Hr & Ht). rewrite <- Ht.
  destruct (Hr _ _ odd_kocheck) as [<-|H]; discriminate.
Qed.
Example C65_example_rule : exists srcs, Forall2 (source_of junk0) [fun_source; unsound_source] srcs /\ recursive_sources srcs /\ ~ typable_program srcs /\
  kocheck junk0 rec_kernel (Opts false None false) false [fun_source; unsound_source] (Err (PKo (KoTyping Unconvertible))).
Proof.
  destruct unsound_whole as (srcs & H1 & H2). exists srcs. split; [exact H1|]. split; [exact H2|]. split; [|exact unsound_kocheck].
  destruct (C65_decides junk0 (fun _ => sometimes) _ _ H1 H2) as (n0 & r & _ & _ & _ & Hr & Ht). rewrite <- Ht.
  destruct (Hr _ _ unsound_kocheck) as [<-|H]; discriminate.
Qed.
