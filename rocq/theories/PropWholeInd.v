(** * Property C69: kocheck decides programs with recursive functions over inductive types

    As C65, for functions of C64 or C68.  Among the programs covered is [examples/fo_imp.dk] of the repository,
    whose function [prf] from propositions to types is the way in which logics are usually encoded. *)

From Verif Require Import Base ModelTerm ModelGctx ModelCommand ModelSubst ModelInfer ModelSyntax ModelLex ModelParse ModelProcess ModelMain
  SpecProcess SpecProgram SpecRec SpecInd SpecWholeRec Samples SamplesProcess SamplesParse SamplesProgram SamplesInd MainProgram MainVerify MainWhole MainRec MainWholeRec RecCheck RecTest IndCheck.

(** Given enough fuel, kocheck has exactly one result.  It is not a panic, and it is success iff all names are
    declared and all commands typable.  With less fuel, it has this result or runs out of fuel. *)
Theorem C69_decides : forall junk O inputs srcs, Forall2 (source_of junk) inputs srcs -> sources_in recursive_sig srcs ->
  exists n0 r, r <> Fuel /\ r <> Panic /\
    (forall n, n0 <= n -> forall r', kocheck junk (real_kernel O n) (Opts false None false) false inputs r' <-> r' = r) /\
    (forall n r', kocheck junk (real_kernel O n) (Opts false None false) false inputs r' -> r' = r \/ r' = Fuel) /\
    (r = Ok tt <-> typable_program srcs).
Proof. exact (main_rec_decides recursive_sig recursive_class). Qed.
Print Assumptions C69_decides.

(** With threads or with a channel, it also accepts exactly these programs. *)
Theorem C69_accepts : forall junk O jobs channel inputs srcs, Forall2 (source_of junk) inputs srcs -> sources_in recursive_sig srcs ->
  exists n0, (forall n, n0 <= n -> kocheck junk (real_kernel O n) (Opts false None jobs) channel inputs (Ok tt) <-> typable_program srcs) /\
    (forall n, kocheck junk (real_kernel O n) (Opts false None jobs) channel inputs (Ok tt) -> typable_program srcs).
Proof. exact (main_rec_accepts recursive_sig recursive_class). Qed.
Print Assumptions C69_accepts.

(** The same for koweb *)
Theorem C69_web : forall junk O modules srcs, Forall2 (web_source junk) modules srcs -> sources_in recursive_sig srcs ->
  exists n0 r, r <> Fuel /\ r <> Panic /\
    (forall n, n0 <= n -> forall r', web_check junk (real_kernel O n) (Opts false None false) modules r' <-> r' = r) /\
    (r = Ok tt <-> typable_program srcs).
Proof. exact (main_rec_web recursive_sig recursive_class). Qed.
Print Assumptions C69_web.

(** A test that can be computed shows the assumption for given texts. *)
Theorem C69_test : forall junk O uniq n inputs srcs, Forall2 (source_of junk) inputs srcs -> eventsb recursiveb O uniq n (program_events srcs) = true ->
  sources_in recursive_sig srcs.
Proof. exact (main_class_events recursive_sig recursive_class same_recursive recursiveb recursiveb_ok). Qed.
Print Assumptions C69_test.

(** [fo_imp.dk] and a file with proofs that use it *)
Example C69_example : exists srcs, Forall2 (source_of junk0) [fo_imp_source; imp_source] srcs /\ sources_in recursive_sig srcs /\ typable_program srcs /\
  kocheck junk0 ind_kernel (Opts false None false) false [fo_imp_source; imp_source] (Ok tt).
Proof.
  destruct imp_whole as (srcs & H1 & H2). exists srcs. split; [exact H1|]. split; [exact H2|]. split; [|exact imp_kocheck].
  destruct (C69_decides junk0 (fun _ => sometimes) _ _ H1 H2) as (n0 & r & _ & _ & _ & Hr & Ht). apply Ht.
  destruct (Hr _ _ imp_kocheck) as [H|H]; [symmetry; exact H|discriminate].
Qed.
(** [fo_imp.dk] and a file with a wrong proof *)
Example C69_example_untypable : exists srcs, Forall2 (source_of junk0) [fo_imp_source; conv_source] srcs /\ sources_in recursive_sig srcs /\ ~ typable_program srcs /\
  kocheck junk0 ind_kernel (Opts false None false) false [fo_imp_source; conv_source] (Err (PKo (KoTyping Unconvertible))).
Proof.
  destruct conv_whole as (srcs & H1 & H2). exists srcs. split; [exact H1|]. split; [exact H2|]. split; [|exact conv_kocheck].
  destruct (C69_decides junk0 (fun _ => sometimes) _ _ H1 H2) as (n0 & r & _ & _ & _ & Hr & Ht). rewrite <- Ht.
  destruct (Hr _ _ conv_kocheck) as [<-|H]; discriminate.
Qed.
(** quantifiers, the function of Ackermann by recursion over functions, and sums of ordinal numbers *)
Example C69_example_ind : exists srcs, Forall2 (source_of junk0) [ind_source] srcs /\ sources_in recursive_sig srcs /\ typable_program srcs /\
  kocheck junk0 ind_kernel (Opts false None false) false [ind_source] (Ok tt).
Proof.
  destruct ind_whole as (srcs & H1 & H2). exists srcs. split; [exact H1|]. split; [exact H2|]. split; [|exact ind_kocheck].
  destruct (C69_decides junk0 (fun _ => sometimes) _ _ H1 H2) as (n0 & r & _ & _ & _ & Hr & Ht). apply Ht.
  destruct (Hr _ _ ind_kocheck) as [H|H]; [symmetry; exact H|discriminate].
Qed.
Example C69_example_six : exists srcs, Forall2 (source_of junk0) [ind_source; six_source] srcs /\ sources_in recursive_sig srcs /\ ~ typable_program srcs /\
  kocheck junk0 ind_kernel (Opts false None false) false [ind_source; six_source] (Err (PKo (KoTyping Unconvertible))).
Proof.
  destruct six_whole as (srcs & H1 & H2). exists srcs. split; [exact H1|]. split; [exact H2|]. split; [|exact six_kocheck].
  destruct (C69_decides junk0 (fun _ => sometimes) _ _ H1 H2) as (n0 & r & _ & _ & _ & Hr & Ht). rewrite <- Ht.
  destruct (Hr _ _ six_kocheck) as [<-|H]; discriminate.
Qed.
