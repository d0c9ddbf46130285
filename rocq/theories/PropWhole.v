(** * Property C62: kocheck decides programs without rewrite rules

    The theorem starts from the texts of files and does not assume anything about the program, except that
    it contains no rewrite rules (definitions are allowed).  [junk] is the number of characters that the lexer
    skips after unrecognised ones; [O] and [n] are the shape of references and the fuel of the kernel. *)

From Verif Require Import Base ModelTerm ModelGctx ModelCommand ModelSubst ModelInfer ModelSyntax ModelLex ModelParse ModelProcess ModelMain
  SpecProcess SpecProgram SpecWhole Samples SamplesProcess SamplesParse SamplesProgram SamplesWhole MainVerify MainWhole.

(** Given enough fuel, kocheck has exactly one result.  It is not a panic, and it is success iff all names are
    declared and all commands typable.  With less fuel, it has this result or runs out of fuel. *)
Theorem C62_decides : forall junk O eta inputs srcs, Forall2 (source_of junk) inputs srcs -> without_rules srcs ->
  exists n0 r, r <> Fuel /\ r <> Panic /\
    (forall n, n0 <= n -> forall r', kocheck junk (real_kernel O n) (Opts eta None false) false inputs r' <-> r' = r) /\
    (forall n r', kocheck junk (real_kernel O n) (Opts eta None false) false inputs r' -> r' = r \/ r' = Fuel) /\
    (r = Ok tt <-> typable_sources eta srcs).
Proof. exact main_whole_decides. Qed.
Print Assumptions C62_decides.

(** With threads or with a channel, it also accepts exactly these programs. *)
Theorem C62_accepts : forall junk O eta jobs channel inputs srcs, Forall2 (source_of junk) inputs srcs -> without_rules srcs ->
  exists n0, (forall n, n0 <= n -> kocheck junk (real_kernel O n) (Opts eta None jobs) channel inputs (Ok tt) <-> typable_sources eta srcs) /\
    (forall n, kocheck junk (real_kernel O n) (Opts eta None jobs) channel inputs (Ok tt) -> typable_sources eta srcs).
Proof. exact main_whole_accepts. Qed.
Print Assumptions C62_accepts.

(** The same for koweb *)
Theorem C62_web : forall junk O eta modules srcs, Forall2 (web_source junk) modules srcs -> without_rules srcs ->
  exists n0 r, r <> Fuel /\ r <> Panic /\
    (forall n, n0 <= n -> forall r', web_check junk (real_kernel O n) (Opts eta None false) modules r' <-> r' = r) /\
    (r = Ok tt <-> typable_sources eta srcs).
Proof. exact main_whole_web. Qed.
Print Assumptions C62_web.

(** a typable program, one that is not, and what kocheck says about them *)
Example C62_example : exists srcs, Forall2 (source_of junk0) [nat_source; good_source] srcs /\ without_rules srcs /\ typable_sources false srcs /\
  kocheck junk0 sample_kernel (Opts false None false) false [nat_source; good_source] (Ok tt).
Proof.
  destruct good_whole as (srcs & H1 & H2). exists srcs. split; [exact H1|]. split; [exact H2|]. split; [|exact good_kocheck].
  destruct (C62_decides junk0 (fun _ => shared) false _ _ H1 H2) as (n0 & r & _ & _ & _ & Hr & Ht). apply Ht.
  destruct (Hr _ _ good_kocheck) as [H|H]; [symmetry; exact H|discriminate].
Qed.
Example C62_example_untypable : exists srcs, Forall2 (source_of junk0) [nat_source; bad_source] srcs /\ without_rules srcs /\ ~ typable_sources false srcs /\
  kocheck junk0 sample_kernel (Opts false None false) false [nat_source; bad_source] (Err (PKo (KoTyping Unconvertible))).
Proof.
  destruct bad_whole as (srcs & H1 & H2). exists srcs. split; [exact H1|]. split; [exact H2|]. split; [|exact bad_kocheck].
  destruct (C62_decides junk0 (fun _ => shared) false _ _ H1 H2) as (n0 & r & _ & _ & _ & Hr & Ht). rewrite <- Ht.
  destruct (Hr _ _ bad_kocheck) as [<-|H]; discriminate.
Qed.
