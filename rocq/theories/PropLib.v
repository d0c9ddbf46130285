(** * Property C59: the loop over commands in the documentation and benchmarks of the library *)

From Verif Require Import Base ModelTerm ModelGctx ModelCommand ModelSubst ModelReduce ModelInfer ModelSyntax ModelLex ModelSymbols ModelShare ModelParse ModelProcess ModelMain ModelLib
  SpecTerm SpecConv SpecTyping SpecProcess SpecLib Erase MainVerify MainLib Samples SamplesProcess SamplesParse SamplesProgram SamplesLib.

(** ** C59: the library trusts rules, and otherwise does what kocheck does *)

(** Every name introduced by commands that are accepted has a type; rules are added as they are. *)
Theorem C59_sound : forall O n cmds st,
  lib_check (real_kernel O n) cmds lib_new = (st, Ok tt) ->
  exists cs, share_results (map EvCommand cmds) lib_new = map Ok cs /\
    trusted_all (empty_sig false) (map er_cmd cs) (er_gctx (ps_gc st)).
Proof. exact main_lib_sound. Qed.
Print Assumptions C59_sound.

(** kocheck accepts the same commands if and only if also their rules pass, and the final states are then the same. *)
Theorem C59_kocheck : forall K PE cmds st,
  infer_checks_seq PE K (Opts false None false) _ (consume_item PE (Opts false None false))
    (map (fun c => Ok (EvCommand c)) cmds) (pst_new (Opts false None false)) = (st, [], Ok tt) <->
  lib_check K cmds lib_new = (st, Ok tt) /\ rules_pass K (lib_command K) cmds lib_new.
Proof. intros K PE cmds st. exact (main_lib_kocheck K PE cmds lib_new st). Qed.
Print Assumptions C59_kocheck.

(** Without rules, also the errors are the same. *)
Theorem C59_no_rules : forall K PE cmds,
  (forall rs, ~ In (PRules rs) cmds) ->
  exists rest, infer_checks_seq PE K (Opts false None false) _ (consume_item PE (Opts false None false))
    (map (fun c => Ok (EvCommand c)) cmds) (pst_new (Opts false None false)) =
    (fst (lib_check K cmds lib_new), rest, res_err PKo (snd (lib_check K cmds lib_new))).
Proof. intros K PE cmds. exact (main_lib_no_rules K PE cmds lib_new). Qed.
Print Assumptions C59_no_rules.

(** the loop that also parses: commands that are accepted are those of the loop above *)
Theorem C59_text : forall K junk text,
  lib_text K junk text (Ok tt) ->
  exists cmds st, results (strict_next scope_atom) (strict_new junk text) (map Ok cmds) /\ lib_check K cmds lib_new = (st, Ok tt).
Proof. exact main_lib_text. Qed.
Print Assumptions C59_text.

(** The loop accepts ill-typed rules, which kocheck rejects: [def f : Nat -> Nat. [x : Nat] f x --> Nat.] *)
Theorem C59_rules_refuted : exists cmds st,
  lib_check (real_kernel (fun _ => shared) fuel) cmds lib_new = (st, Ok tt) /\
  snd (infer_checks_seq unit (real_kernel (fun _ => shared) fuel) (Opts false None false) _ (consume_item unit (Opts false None false))
    (map (fun c => Ok (EvCommand c)) cmds) (pst_new (Opts false None false))) = Err (PKo (KoTyping Unconvertible)) /\
  forall sg', ~ exists cs, share_results (map EvCommand cmds) lib_new = map Ok cs /\ verified_all (empty_sig false) (map er_cmd cs) sg'.
Proof. exact lib_rules_refuted. Qed.
Print Assumptions C59_rules_refuted.

Example C59_example :
  (exists st, lib_check (real_kernel (fun _ => sometimes) fuel) nat_commands lib_new = (st, Ok tt)) /\
  (forall rs, ~ In (PRules rs) (firstn 4 nat_commands)).
Proof. split; [eexists; vm_compute; reflexivity|]. intros rs H. cbn in H. intuition discriminate. Qed.

(** the program in the documentation, kontroli/src/lib.rs:40-50 *)
Definition doc_text : str := $"
     (; declarations ;)
     prop : Type.
     imp : prop -> prop -> prop.

     (; definition with a rewrite rule ;)
     def proof : prop -> Type.
     [x: prop, y: prop] proof (imp x y) --> proof x -> proof y.

     (; theorem ;)
     thm imp_refl (x : prop) : proof (imp x x) := p : proof x => p.
".
Example C59_example_doc : lib_text (real_kernel (fun _ => sometimes) fuel) junk0 doc_text (Ok tt).
Proof. eexists. split; [apply run_results_ok with (n := 20); vm_compute; reflexivity|vm_compute; reflexivity]. Qed.
