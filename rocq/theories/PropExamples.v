(** * Property C71: the examples of the repository are decided *)

From Verif Require Import Base ModelTerm ModelGctx ModelCommand ModelSubst ModelReduce ModelInfer ModelSyntax ModelLex ModelParse ModelProcess ModelMain
  SpecTerm SpecConv SpecWhnf SpecRed SpecSN SpecType SpecProcess SpecDomain SpecTotal SpecRec SpecInd SpecRecProg SpecProgram SpecWholeRec Erase RedConfl EtaConfl
  Samples SamplesProcess SamplesParse SamplesProgram SamplesRec SamplesExamples MainConv TestExamples.

(** The examples have rules that are not checked, since the types of their variables are missing or since they have jokers.
    Their rules overlap: [fac (succ 0) --> 1] and [fac (succ X) --> mul (succ X) (fac X)].  The theorems C47, C57, C58, C64, C65, C68
    and C69 are thus stated for rules all of which follow from rules that overlap trivially ([complete]), and for unchecked rules that
    have types once their jokers are replaced by variables ([typed_rule]). *)

(** Reduction with such rules has the Church-Rosser property, ... *)
Theorem C71_church_rosser : forall sg, complete sg -> sg_eta sg = false -> church_rosser sg.
Proof. exact complete_church_rosser. Qed.
Print Assumptions C71_church_rosser.
(** ... and answers to questions of convertibility are right. *)
Theorem C71_convertible : forall uniq gc n t u b, complete (er_gctx gc) -> g_eta gc = false ->
  ModelInfer.run (convertible uniq gc n t u) = Ok b -> (b = true <-> conv (er_gctx gc) (ers t) (ers u)).
Proof. exact main_convertible_complete. Qed.
Print Assumptions C71_convertible.
(** Orthogonal rules are a special case; the rules of [nat.dk] are not orthogonal. *)
Theorem C71_more : (forall sg, orthogonal sg -> complete sg) /\ exists sg, built sg /\ structural sg /\ ~ orthogonal sg.
Proof. exact (conj orthogonal_complete nat_larger). Qed.
Print Assumptions C71_more.

(** kocheck terminates on the examples of the repository and accepts them, whatever is shared, ... *)
Theorem C71_examples : forall text, In text [bool_dk; fo_imp_dk; magic_dk; nat_dk; nat_dk ++ fib8; bool_dk ++ nat_dk ++ or_n_dk ++ or8] ->
  accepts (stdin text).
Proof. exact all_accepts. Qed.
Print Assumptions C71_examples.
(** ... and rejects them with wrong definitions added. *)
Theorem C71_wrong : forall text, In text [magic_dk ++ magic_fails; nat_dk ++ fib8_wrong; bool_dk ++ nat_dk ++ or_n_dk ++ or_wrong] ->
  rejects (stdin text).
Proof. exact all_rejects. Qed.
Print Assumptions C71_wrong.

(** Unchecked rules that are not typed make reduction diverge, though the program is accepted and its rules are structural. *)
Theorem C71_unchecked_refuted : exists evs st, accepted (fun _ => sometimes) unit (Opts false None false) evs st /\
  structural (er_gctx (ps_gc st)) /\ ~ normalising (er_gctx (ps_gc st)).
Proof. exact unchecked_refuted. Qed.
Print Assumptions C71_unchecked_refuted.

(** a rule with a joker and without types *)
Example C71_example_joker : structural_program (fun _ => sometimes) unit (Opts false None false) joker_rec /\
  snd (rec_seq joker_rec) = Ok tt.
Proof. split; [exact joker_program|]. vm_compute. reflexivity. Qed.
(** the rules of [nat.dk] *)
Example C71_example_complete : complete (rec_sig nat_events) /\ exists r1 r2 r3, sg_rules (rec_sig nat_events) 15 = Some [r1; r2; r3].
Proof. split; [apply CompCheck.completeb_ok; vm_compute; reflexivity|]. do 3 eexists. vm_compute. reflexivity. Qed.
