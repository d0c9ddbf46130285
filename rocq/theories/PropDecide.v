(** * Property C58: inference and checking decide typability *)

From Verif Require Import Base ModelTerm ModelGctx ModelCommand ModelSubst ModelReduce ModelInfer ModelSyntax ModelSymbols ModelShare ModelProcess
  SpecTerm SpecConv SpecRed SpecSN SpecType SpecQuery SpecDomain SpecTotal SpecDerive SpecDecide Erase RedConfl MainDecide
  Samples SamplesTotal SamplesProcess SamplesProg.

(** ** C58: in a terminating context with the Church-Rosser property, the kernel decides typability *)

(** Typability is that of the rules of textbooks ([derives], SpecDerive.v). [annotations] says that abstractions
    without domain occur only where a type is given. A type is found if and only if there is one, and it is then
    the only one up to convertibility. *)
Theorem C58_infer_decides : forall uniq gc lc t,
  terminating gc -> church_rosser (er_gctx gc) -> proper_gctx gc ->
  type_ctx (er_gctx gc) (dctx lc) -> Forall proper_l lc -> proper_l t ->
  exists n0 r, (forall n, n0 <= n -> ModelInfer.run (ModelInfer.infer uniq gc n (lctx_of lc) (sterm_of_lterm t)) = r) /\
    match r with
    | Ok ty => annotations true (erl t) /\ derives (er_gctx gc) (dctx lc) (erl t) (strip (ers ty)) /\
               forall A, derives (er_gctx gc) (dctx lc) (erl t) A -> conv (er_gctx gc) A (strip (ers ty))
    | Err _ => ~ (annotations true (erl t) /\ exists A, derives (er_gctx gc) (dctx lc) (erl t) A)
    | _ => False
    end.
Proof. exact main_infer_decides. Qed.
Print Assumptions C58_infer_decides.

(** A check succeeds if and only if the term has the type. *)
Theorem C58_check_decides : forall uniq gc c,
  terminating gc -> church_rosser (er_gctx gc) -> proper_gctx gc ->
  type_ctx (er_gctx gc) (dctx (t_lc c)) -> (exists K, well_typed (er_gctx gc) (dctx (t_lc c)) (strip (erl (t_ty c))) K) ->
  Forall proper_l (t_lc c) -> proper_l (t_tm c) -> proper_l (t_ty c) ->
  exists n0 r, (forall n, n0 <= n -> ModelInfer.run (check_check uniq gc n c) = r) /\
    match r with
    | Ok _ => has gc (t_lc c) (t_tm c) (strip (erl (t_ty c)))
    | Err _ => ~ has gc (t_lc c) (t_tm c) (strip (erl (t_ty c)))
    | _ => False
    end.
Proof. exact main_check_decides. Qed.
Print Assumptions C58_check_decides.

(** A command is accepted if and only if its terms are typable and its symbols are admissible.
    A typing error is reported exactly for commands that are not typable. *)
Theorem C58_command_decides : forall O o gc cmd,
  terminating gc -> church_rosser (er_gctx gc) -> proper_gctx gc ->
  omits o StCheck = false -> cmd_ctx gc cmd -> proper_cmd cmd ->
  exists n0 gc' r, (forall n, n0 <= n -> infer_check (real_kernel O n) o cmd gc = (gc', r)) /\
    match r with
    | Ok _ => cmd_derives gc cmd /\ cmd_admissible gc cmd
    | Err (KoTyping _) => ~ cmd_derives gc cmd
    | Err (KoGCtx _) => cmd_derives gc cmd /\ ~ cmd_admissible gc cmd
    | _ => False
    end.
Proof. exact main_command_decides. Qed.
Print Assumptions C58_command_decides.

(** A program in the sense of C57 is accepted if and only if all its commands are typable and admissible
    in the contexts of their predecessors. *)
Theorem C58_program_decides : forall O PE eta jobs evs,
  program_ok O PE (Opts eta None jobs) evs ->
  ((exists st, accepted O PE (Opts eta None jobs) evs st) <->
   (forall pre cmd post st, evs = pre ++ EvCommand cmd :: post -> accepted O PE (Opts eta None jobs) pre st -> ready st cmd)).
Proof. exact main_program_decides. Qed.
Print Assumptions C58_program_decides.

(** numbers with addition, and vectors *)
Example C58_example_context : terminating vec_gc /\ church_rosser (er_gctx vec_gc) /\ proper_gctx vec_gc.
Proof.
  split; [exact vec_terminating|]. split; [exact vec_church_rosser|]. split.
  - intros c ty. unfold get_type. cbn. repeat (destruct (_ =? _); [intros [= <-]; cbn; tauto|]). discriminate.
  - intros c rs r. unfold get_rules. cbn. repeat (destruct (_ =? _); [intros [= <-] Hin; cbn in Hin; intuition; subst; cbn; tauto|]). discriminate.
Qed.

(** the judgement on its own: [succ zero] is a number, and [x => succ x] a function if its type is given *)
Example C58_example_derivation :
  has vec_gc [] (SUCC ZERO) (Const 0) /\ has vec_gc [] (lulam (SUCC (LVar 0))) (Pi (Const 0) (Const 0)) /\
  ~ (exists A, yields vec_gc [] (lulam (SUCC (LVar 0))) A).
Proof.
  assert (Hs : forall G, derives vec_sg G (Const 2) (Pi (Const 0) (Const 0))) by (intros G; apply (d_const vec_sg G 2 (Pi (Const 0) (Const 0))); reflexivity).
  assert (Hn : forall G, well_typed vec_sg G (Const 0) Typ) by (intros G; apply (wt_const vec_sg G 0 Typ); reflexivity).
  split; [|split].
  - split; [cbn; tauto|]. cbn. apply (d_app vec_sg [] (Const 2) (Const 1) (Const 0) (Const 0)); [apply Hs|].
    apply (d_const vec_sg [] 1 (Const 0)). reflexivity.
  - split; [cbn; tauto|]. cbn. eapply d_ulam; [apply Hn| |apply Hn|auto].
    apply (d_app vec_sg [Const 0] (Const 2) (Var 0) (Const 0) (Const 0)); [apply Hs|]. apply (d_var vec_sg [Const 0] 0 (Const 0)). reflexivity.
  - intros (A & H & _). exact H.
Qed.

(** an accepted and a rejected check *)
Example C58_example_check : type_ctx (er_gctx vec_gc) (dctx (t_lc cons_chk)) /\
  (exists K, well_typed (er_gctx vec_gc) (dctx (t_lc cons_chk)) (strip (erl (t_ty cons_chk))) K) /\
  Forall proper_l (t_lc cons_chk) /\ proper_l (t_tm cons_chk) /\ proper_l (t_ty cons_chk) /\
  ModelInfer.run (check_check sometimes vec_gc fuel cons_chk) = Ok tt /\
  ModelInfer.run (check_check sometimes vec_gc fuel (MkTyping [VEC (num 2)] (VEC (num 2)) cons_tm)) = Err Unconvertible.
Proof.
  split; [exact vec_ctx|]. split; [exact vec_goal|]. split; [repeat constructor|]. split; [repeat constructor|]. split; [repeat constructor|].
  split; vm_compute; reflexivity.
Qed.
Example C58_example_infer :
  proper_l cons_tm /\ ModelInfer.run (ModelInfer.infer sometimes vec_gc fuel (lctx_of (t_lc cons_chk)) (sterm_of_lterm cons_tm)) <> Fuel /\
  ModelInfer.run (ModelInfer.infer sometimes vec_gc fuel (lctx_of []) (sterm_of_lterm (lapp ZERO [ZERO]))) = Err ProductExpected.
Proof. split; [repeat constructor|]. split; vm_compute; [discriminate|reflexivity]. Qed.

(** commands that are accepted, not typable, and not admissible *)
Example C58_example_command :
  (cmd_ctx vec_gc (CRules [plus_right]) /\ proper_cmd (CRules [plus_right]) /\ proper_cmd (CIntro 7 cons_def)) /\
  snd (infer_check (real_kernel (fun _ => sometimes) fuel) (Opts false None false) (CRules [plus_right]) vec_gc) = Ok tt /\
  snd (infer_check (real_kernel (fun _ => sometimes) fuel) (Opts false None false) (CIntro 7 cons_def) vec_gc) = Ok tt /\
  snd (infer_check (real_kernel (fun _ => sometimes) fuel) (Opts false None false) (CIntro 7 (IDefinition None (Some (lapp ZERO [ZERO])))) vec_gc)
    = Err (KoTyping ProductExpected) /\
  snd (infer_check (real_kernel (fun _ => sometimes) fuel) (Opts false None false) (CIntro 6 cons_def) vec_gc) = Err (KoGCtx Reintroduction).
Proof.
  split; [split; [exact plus_right_ctx|]|repeat split; vm_compute; reflexivity].
  split; [|cbn; tauto]. cbn. constructor; [|constructor]. cbn. split; [|tauto]. constructor; [|constructor]. intros A [= <-]. exact I.
Qed.

(** accepted and rejected programs *)
Example C58_example_program :
  program_ok (fun _ => sometimes) unit (Opts false None false) vec_events /\
  accepted (fun _ => sometimes) unit (Opts false None false) vec_events (fst (fst (prog_seq vec_events))) /\
  program_ok (fun _ => sometimes) unit (Opts false None false) bad_events /\
  snd (infer_checks_seq unit (real_kernel (fun _ => sometimes) fuel) (Opts false None false) _ (consume_item unit (Opts false None false))
    (map Ok bad_events) (pst_new (Opts false None false))) = Err (PKo (KoTyping ProductExpected)).
Proof. split; [exact vec_ok|]. split; [exists fuel; vm_compute; reflexivity|]. split; [exact bad_ok|vm_compute; reflexivity]. Qed.
