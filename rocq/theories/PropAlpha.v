(** * Property C79: names of bound variables do not matter *)

From Verif Require Import Base ModelTerm ModelCommand ModelSyntax ModelParse ModelMake ModelProcess ModelMain SpecSyntax SpecProgram SpecWhole SpecAlpha
  Samples SamplesProcess SamplesParse SamplesProgram SamplesExamples TestExamples SamplesAlpha MainAlphaSyn MainAlphaProg.

(** Programs that differ in names of bound variables, parameters and variables of rules have the same meaning, ... *)
Theorem C79_elaborates : forall srcs srcs' vs, alpha_sources srcs srcs' -> (elaborates srcs vs <-> elaborates srcs' vs).
Proof. exact main_alpha_elaborates. Qed.
Print Assumptions C79_elaborates.
(** ... and kocheck gives the same verdict and the same error, unless checking one of them does not end. *)
Theorem C79_verdict : forall junk junk' O1 O2 n1 n2 eta inputs inputs' srcs srcs' r r',
  Forall2 (source_of junk) inputs srcs -> Forall2 (source_of junk') inputs' srcs' -> alpha_sources srcs srcs' ->
  kocheck junk (real_kernel O1 n1) (Opts eta None false) false inputs r -> kocheck junk' (real_kernel O2 n2) (Opts eta None false) false inputs' r' ->
  r = Fuel \/ r' = Fuel \/ r = r'.
Proof. exact main_alpha_verdict. Qed.
Print Assumptions C79_verdict.
(** koweb, whatever stages are omitted. *)
Theorem C79_web : forall junk junk' O1 O2 n1 n2 eta om modules modules' srcs srcs' r r',
  Forall2 (web_source junk) modules srcs -> Forall2 (web_source junk') modules' srcs' -> alpha_sources srcs srcs' ->
  web_check junk (real_kernel O1 n1) (Opts eta om false) modules r -> web_check junk' (real_kernel O2 n2) (Opts eta om false) modules' r' ->
  r = Fuel \/ r' = Fuel \/ r = r'.
Proof. exact main_alpha_web. Qed.
Print Assumptions C79_web.
(** What is accepted with several threads or with a channel is not rejected after renaming. *)
Theorem C79_accepted : forall junk junk' O1 O2 n1 n2 eta jobs channel inputs inputs' srcs srcs' r',
  Forall2 (source_of junk) inputs srcs -> Forall2 (source_of junk') inputs' srcs' -> alpha_sources srcs srcs' ->
  kocheck junk (real_kernel O1 n1) (Opts eta None jobs) channel inputs (Ok tt) -> kocheck junk' (real_kernel O2 n2) (Opts eta None false) false inputs' r' ->
  r' = Ok tt \/ r' = Fuel.
Proof. exact main_alpha_accepted. Qed.
Print Assumptions C79_accepted.
(** Without rewrite rules, renaming does not change what is accepted ... *)
Theorem C79_simple : forall junk junk' O1 O2 eta jobs jobs' channel channel' inputs inputs' srcs srcs',
  Forall2 (source_of junk) inputs srcs -> Forall2 (source_of junk') inputs' srcs' -> alpha_sources srcs srcs' -> without_rules srcs ->
  ((exists n, kocheck junk (real_kernel O1 n) (Opts eta None jobs) channel inputs (Ok tt)) <->
   (exists n, kocheck junk' (real_kernel O2 n) (Opts eta None jobs') channel' inputs' (Ok tt))).
Proof. exact main_alpha_simple. Qed.
Print Assumptions C79_simple.
(** ... nor does it if nothing is inferred. *)
Theorem C79_infer : forall junk junk' K K' eta eta' jobs jobs' channel channel' inputs inputs' srcs srcs',
  Forall2 (source_of junk) inputs srcs -> Forall2 (source_of junk') inputs' srcs' -> alpha_sources srcs srcs' ->
  (kocheck junk K (Opts eta (Some StInfer) jobs) channel inputs (Ok tt) <-> kocheck junk' K' (Opts eta' (Some StInfer) jobs') channel' inputs' (Ok tt)).
Proof. exact main_alpha_infer. Qed.
Print Assumptions C79_infer.

(** With rules that do not terminate, renaming decides whether checking ends: terms are compared with their names
    before they are reduced (kontroli/src/comb.rs:4, kernel/reduce.rs:235). *)
Theorem C79_terminates_refuted :
  Forall2 (source_of junk0) (stdin loop_x) [([$"-"], loop_cmds_x)] /\ Forall2 (source_of junk0) (stdin loop_y) [([$"-"], loop_cmds_y)] /\
  alpha_sources [([$"-"], loop_cmds_x)] [([$"-"], loop_cmds_y)] /\
  (forall O n r, fuel <= n -> kocheck junk0 (real_kernel O n) (Opts false None false) false (stdin loop_x) r <-> r = Ok tt) /\
  (forall O n jobs channel, ~ kocheck junk0 (real_kernel O n) (Opts false None jobs) channel (stdin loop_y) (Ok tt)).
Proof. exact (conj loop_x_source (conj loop_y_source (conj loop_alpha (conj loop_x_accepts loop_y_never)))). Qed.
Print Assumptions C79_terminates_refuted.

(** The texts of the refutation *)
Example C79_texts : loop_x = loop_start ++ $"def b : w (x : nat => x) := a.
" /\ loop_y = loop_start ++ $"def b : w (y : nat => y) := a.
".
Proof. split; reflexivity. Qed.
(** Parameters, bound variables and variables of rules are renamed; some hide names of symbols. *)
Example C79_example :
  Forall2 (source_of junk0) (stdin names_one) [([$"-"], names_cmds_one)] /\ Forall2 (source_of junk0) (stdin names_two) [([$"-"], names_cmds_two)] /\
  alpha_sources [([$"-"], names_cmds_one)] [([$"-"], names_cmds_two)] /\
  kocheck junk0 (real_kernel (fun _ => sometimes) fuel) (Opts false None false) false (stdin names_one) (Ok tt) /\
  kocheck junk0 (real_kernel (fun _ => sometimes) fuel) (Opts false None false) false (stdin names_two) (Ok tt).
Proof. exact (conj names_one_source (conj names_two_source (conj names_alpha (conj names_one_accepted names_two_accepted)))). Qed.
(** A variable must not be captured. *)
Example C79_example_captured :
  ~ alpha [(Some ($"x"), Some ($"x"))] (PTm (HAbst ($"y") None (PTm (HAtom (Symb [] ($"x"))) [])) []) (PTm (HAbst ($"x") None (PTm (HAtom (Symb [] ($"x"))) [])) []).
Proof.
  intros H. repeat match goal with
  | H : alpha _ _ _ |- _ => inversion H; subst; clear H
  | H : alpha_head _ _ _ |- _ => inversion H; subst; clear H
  | H : alpha_symb _ _ _ |- _ => inversion H; subst; clear H
  | H : alpha_name _ _ _ |- _ => inversion H; subst; clear H
  end; congruence.
Qed.
