(** * Property C56: inference and checking terminate *)

From Verif Require Import Base ModelTerm ModelGctx ModelCommand ModelSubst ModelReduce ModelInfer ModelProcess
  SpecTerm SpecConv SpecRed SpecSN SpecType SpecBidir SpecQuery SpecDomain SpecTotal Erase RedConfl MainTotal Samples SamplesTotal.

(** ** C56: in a terminating context, every query of the kernel and every command returns *)

(** From some amount of fuel on, the result is always the same, and not that fuel has run out.
    The term need not be well-typed. *)
Theorem C56_infer_returns : forall uniq gc lc t,
  terminating gc -> type_ctx (er_gctx gc) (dctx lc) ->
  exists n0 r, r <> Fuel /\ forall n, n0 <= n -> ModelInfer.run (ModelInfer.infer uniq gc n (lctx_of lc) (sterm_of_lterm t)) = r.
Proof. exact main_infer_returns. Qed.
Print Assumptions C56_infer_returns.

(** The term need not have the type, but the type has to be well-typed. *)
Theorem C56_check_returns : forall uniq gc c,
  terminating gc -> type_ctx (er_gctx gc) (dctx (t_lc c)) ->
  (exists K, well_typed (er_gctx gc) (dctx (t_lc c)) (strip (erl (t_ty c))) K) ->
  exists n0 r, r <> Fuel /\ forall n, n0 <= n -> ModelInfer.run (check_check uniq gc n c) = r.
Proof. exact main_check_returns. Qed.
Print Assumptions C56_check_returns.

(** All queries of a command, whether its terms are well-typed or not *)
Theorem C56_command_returns : forall O o gc cmd,
  terminating gc -> cmd_ctx gc cmd ->
  exists n0 r, snd r <> Fuel /\ forall n, n0 <= n -> infer_check (real_kernel O n) o cmd gc = r.
Proof. exact main_command_returns. Qed.
Print Assumptions C56_command_returns.

(** Without eta and with the Church-Rosser property (for instance of orthogonal rules, C47), checking decides
    whether the term has the type, in the sense of C49. *)
Theorem C56_check_decides : forall uniq gc c,
  terminating gc -> g_eta gc = false -> church_rosser (er_gctx gc) -> proper_gctx gc ->
  type_ctx (er_gctx gc) (dctx (t_lc c)) -> (exists K, well_typed (er_gctx gc) (dctx (t_lc c)) (strip (erl (t_ty c))) K) ->
  Forall proper_l (t_lc c) -> proper_l (t_tm c) -> proper_l (t_ty c) ->
  exists n0 r, r <> Fuel /\ (forall n, n0 <= n -> ModelInfer.run (check_check uniq gc n c) = r) /\
    (r = Ok tt -> checks (er_gctx gc) (map erl (rev (t_lc c))) (erl (t_tm c)) (erl (t_ty c))) /\
    (forall e, r = Err e -> e = BindNoType \/ e = SortExpected \/ e = UnexpectedKind \/
      ~ checks (er_gctx gc) (map erl (rev (t_lc c))) (erl (t_tm c)) (erl (t_ty c))).
Proof. exact main_check_decides. Qed.
Print Assumptions C56_check_decides.

(** numbers with addition, and vectors *)
Example C56_example_context : terminating vec_gc /\ church_rosser (er_gctx vec_gc) /\ proper_gctx vec_gc.
Proof.
  split; [exact vec_terminating|]. split; [exact vec_church_rosser|]. split.
  - intros c ty. unfold get_type. cbn. repeat (destruct (_ =? _); [intros [= <-]; cbn; tauto|]). discriminate.
  - intros c rs r. unfold get_rules. cbn. repeat (destruct (_ =? _); [intros [= <-] Hin; cbn in Hin; intuition; subst; cbn; tauto|]). discriminate.
Qed.
Example C56_example_check : type_ctx (er_gctx vec_gc) (dctx (t_lc cons_chk)) /\
  (exists K, well_typed (er_gctx vec_gc) (dctx (t_lc cons_chk)) (strip (erl (t_ty cons_chk))) K) /\
  ModelInfer.run (check_check sometimes vec_gc fuel cons_chk) = Ok tt /\
  ModelInfer.run (check_check sometimes vec_gc fuel (MkTyping [VEC (num 2)] (VEC (num 2)) cons_tm)) = Err Unconvertible.
Proof. split; [exact vec_ctx|]. split; [exact vec_goal|]. split; vm_compute; reflexivity. Qed.
Example C56_example_command :
  cmd_ctx vec_gc (CRules [plus_right]) /\
  snd (infer_check (real_kernel (fun _ => sometimes) fuel) (Opts false None false) (CRules [plus_right]) vec_gc) = Ok tt /\
  snd (infer_check (real_kernel (fun _ => sometimes) fuel) (Opts false None false) (CIntro 7 cons_def) vec_gc) = Ok tt /\
  snd (infer_check (real_kernel (fun _ => sometimes) fuel) (Opts false None false) (CIntro 7 (IDefinition None (Some (lapp ZERO [ZERO])))) vec_gc)
    = Err (KoTyping ProductExpected).
Proof. split; [exact plus_right_ctx|]. repeat split; vm_compute; reflexivity. Qed.

(** It is not enough that symbols and rules are well-typed: with the rule [F x --> F x] for a type [F x],
    there is a definition whose type is never found. *)
Theorem C56_loop_refuted : exists gc it,
  g_eta gc = false /\ left_linear (er_gctx gc) /\ pi_injective (er_gctx gc) /\ good_types (er_gctx gc) /\ good_rules (er_gctx gc) /\
  forall uniq n, ModelInfer.run (kintro uniq gc n it) = Fuel.
Proof. exact spin_refuted. Qed.
Print Assumptions C56_loop_refuted.
