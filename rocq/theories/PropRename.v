(** * Property C80: names of symbols and modules do not matter *)

From Verif Require Import Base ModelTerm ModelCommand ModelSyntax ModelSymbols ModelShare ModelParse ModelMake ModelProcess ModelMain SpecSyntax SpecProgram SpecWhole SpecAlpha SpecRename
  Samples SamplesProcess SamplesParse SamplesProgram SamplesExamples TestExamples SamplesRename MainRename.

(** In a program, modules and names may be replaced by others such that different ones stay different; bound variables may be renamed, too.
    The programs have the same meaning, ... *)
Theorem C80_elaborates : forall mu rho srcs srcs' vs,
  renaming mu rho -> alpha_sources (rn_sources mu rho srcs) srcs' -> (elaborates srcs vs <-> elaborates srcs' vs).
Proof. exact main_rename_elaborates. Qed.
Print Assumptions C80_elaborates.
(** ... and kocheck gives the same verdict and the same error (with the new names), unless checking one of them does not end. *)
Theorem C80_verdict : forall mu rho junk junk' O1 O2 n1 n2 eta inputs inputs' srcs srcs' r r',
  renaming mu rho -> Forall2 (source_of junk) inputs srcs -> Forall2 (source_of junk') inputs' srcs' -> alpha_sources (rn_sources mu rho srcs) srcs' ->
  kocheck junk (real_kernel O1 n1) (Opts eta None false) false inputs r -> kocheck junk' (real_kernel O2 n2) (Opts eta None false) false inputs' r' ->
  r = Fuel \/ r' = Fuel \/ rn_result mu rho r r'.
Proof. exact main_rename_verdict. Qed.
Print Assumptions C80_verdict.
(** koweb, whatever stages are omitted. *)
Theorem C80_web : forall mu rho junk junk' O1 O2 n1 n2 eta om modules modules' srcs srcs' r r',
  renaming mu rho -> Forall2 (web_source junk) modules srcs -> Forall2 (web_source junk') modules' srcs' -> alpha_sources (rn_sources mu rho srcs) srcs' ->
  web_check junk (real_kernel O1 n1) (Opts eta om false) modules r -> web_check junk' (real_kernel O2 n2) (Opts eta om false) modules' r' ->
  r = Fuel \/ r' = Fuel \/ rn_result mu rho r r'.
Proof. exact main_rename_web. Qed.
Print Assumptions C80_web.
(** What is accepted with several threads or with a channel is not rejected after renaming, nor before it. *)
Theorem C80_accepted : forall mu rho junk junk' O1 O2 n1 n2 eta jobs channel inputs inputs' srcs srcs',
  renaming mu rho -> Forall2 (source_of junk) inputs srcs -> Forall2 (source_of junk') inputs' srcs' -> alpha_sources (rn_sources mu rho srcs) srcs' ->
  (kocheck junk (real_kernel O1 n1) (Opts eta None jobs) channel inputs (Ok tt) -> forall r', kocheck junk' (real_kernel O2 n2) (Opts eta None false) false inputs' r' -> r' = Ok tt \/ r' = Fuel) /\
  (kocheck junk' (real_kernel O2 n2) (Opts eta None jobs) channel inputs' (Ok tt) -> forall r, kocheck junk (real_kernel O1 n1) (Opts eta None false) false inputs r -> r = Ok tt \/ r = Fuel).
Proof. exact main_rename_accepted. Qed.
Print Assumptions C80_accepted.
(** Without rewrite rules, renaming does not change what is accepted ... *)
Theorem C80_simple : forall mu rho junk junk' O1 O2 eta jobs jobs' channel channel' inputs inputs' srcs srcs',
  renaming mu rho -> Forall2 (source_of junk) inputs srcs -> Forall2 (source_of junk') inputs' srcs' -> alpha_sources (rn_sources mu rho srcs) srcs' -> without_rules srcs ->
  ((exists n, kocheck junk (real_kernel O1 n) (Opts eta None jobs) channel inputs (Ok tt)) <->
   (exists n, kocheck junk' (real_kernel O2 n) (Opts eta None jobs') channel' inputs' (Ok tt))).
Proof. exact main_rename_simple. Qed.
Print Assumptions C80_simple.
(** ... nor does it if nothing is inferred. *)
Theorem C80_infer : forall mu rho junk junk' K K' eta eta' jobs jobs' channel channel' inputs inputs' srcs srcs',
  renaming mu rho -> Forall2 (source_of junk) inputs srcs -> Forall2 (source_of junk') inputs' srcs' -> alpha_sources (rn_sources mu rho srcs) srcs' ->
  (kocheck junk K (Opts eta (Some StInfer) jobs) channel inputs (Ok tt) <-> kocheck junk' K' (Opts eta' (Some StInfer) jobs') channel' inputs' (Ok tt)).
Proof. exact main_rename_infer. Qed.
Print Assumptions C80_infer.
(** The theorems include that bound variables are renamed just as all other names. *)
Theorem C80_same : forall srcs, alpha_sources srcs srcs.
Proof. exact alpha_sources_refl. Qed.
Print Assumptions C80_same.

(** If different names become the same, a program may be rejected. *)
Theorem C80_merge_refuted :
  Forall2 (source_of junk0) (stdin merge_in) merge_in_srcs /\ Forall2 (source_of junk0) (stdin merge_out) merge_out_srcs /\
  rn_sources (fun x => x) merge_rho merge_in_srcs = merge_out_srcs /\
  kocheck junk0 (real_kernel (fun _ => sometimes) fuel) (Opts false None false) false (stdin merge_in) (Ok tt) /\
  kocheck junk0 (real_kernel (fun _ => sometimes) fuel) (Opts false None false) false (stdin merge_out) (Err (PKo (KoSymbols Reinsertion))).
Proof. exact merge_refutes. Qed.
Print Assumptions C80_merge_refuted.

(** Two files in one directory; directory, file, symbols and a bound variable are renamed, and the layout differs. *)
Example C80_example :
  renaming ren_mu ren_rho /\ Forall2 (source_of junk0) ren_in ren_in_srcs /\ Forall2 (source_of junk0) ren_out ren_out_srcs /\
  alpha_sources (rn_sources ren_mu ren_rho ren_in_srcs) ren_out_srcs /\
  kocheck junk0 (real_kernel (fun _ => sometimes) fuel) (Opts false None false) false ren_in (Ok tt) /\
  kocheck junk0 (real_kernel (fun _ => sometimes) fuel) (Opts false None false) false ren_out (Ok tt).
Proof. exact (conj ren_renaming (conj ren_in_source (conj ren_out_source (conj ren_alpha (conj ren_in_accepted ren_out_accepted))))). Qed.
Example C80_example_names : ren_mu ($"lib") = $"pkg" /\ ren_mu ($"nat") = $"number" /\ ren_rho ($"nat") = $"N" /\ ren_rho ($"twice") = $"f" /\ ren_rho ($"f") = $"twice".
Proof. vm_compute. auto. Qed.
(** An error with the name of a symbol. *)
Example C80_example_error :
  (Forall2 (source_of junk0) ren_err_in ren_err_in_srcs /\ Forall2 (source_of junk0) ren_err_out ren_err_out_srcs /\ rn_sources ren_mu ren_rho ren_err_in_srcs = ren_err_out_srcs) /\
  kocheck junk0 (real_kernel (fun _ => sometimes) fuel) (Opts false None false) false ren_err_in (Err (PKo (KoShare (UndeclaredSymbol ($"nat.plus"))))) /\
  kocheck junk0 (real_kernel (fun _ => sometimes) fuel) (Opts false None false) false ren_err_out (Err (PKo (KoShare (UndeclaredSymbol ($"number.add"))))).
Proof. exact (conj ren_err_sources ren_err_runs). Qed.
