(** * Properties of processing: C18-C22 *)

From Verif Require Import Base ModelTerm ModelGctx ModelCommand ModelSubst ModelInfer ModelSyntax ModelSymbols ModelShare ModelProcess
  SpecTerm SpecConv SpecTyping SpecQuery SpecProcess SpecFails Erase Samples SamplesProcess MainProcess MainRun MainVerify MainFails MainChannel.

(** ** C18: a successful run verifies everything *)
Theorem C18_run : forall O n PE eta jobs files,
  run PE (real_kernel O n) (Opts eta None jobs) files (Ok tt) ->
  exists evs cmds sg, files_events PE files = Some evs /\
    share_results evs (pst_new (Opts eta None jobs)) = map Ok cmds /\
    verified_all (empty_sig eta) (map er_cmd cmds) sg.
Proof. exact main_verified_run. Qed.
Print Assumptions C18_run.
Theorem C18_consume : forall O n PE eta jobs items,
  consume PE (real_kernel O n) (Opts eta None jobs) items (Ok tt) ->
  exists evs cmds sg, items = map Ok evs /\
    share_results evs (pst_new (Opts eta None jobs)) = map Ok cmds /\
    verified_all (empty_sig eta) (map er_cmd cmds) sg.
Proof. exact main_verified_consume. Qed.
Print Assumptions C18_consume.

Example C18_example : run unit sample_kernel (Opts false None false) sample_files (Ok tt).
Proof.
  eapply run_ok; [unfold infer_checks; cbn [o_jobs]; eexists; vm_compute; reflexivity|].
  eapply run_ok; [unfold infer_checks; cbn [o_jobs]; eexists; vm_compute; reflexivity|]. constructor.
Qed.
Example C18_example_wrong : run unit sample_kernel (Opts false None false) wrong_files (Err (PKo (KoTyping Unconvertible))).
Proof.
  eapply run_ok; [unfold infer_checks; cbn [o_jobs]; eexists; vm_compute; reflexivity|].
  eapply run_ok; [unfold infer_checks; cbn [o_jobs]; eexists; vm_compute; reflexivity|].
  eapply run_err; [unfold infer_checks; cbn [o_jobs]; eexists; vm_compute; reflexivity|]. reflexivity.
Qed.

(** ** C19: concurrent checking has the verdict of sequential checking *)
Theorem C19_verdict : forall K PE o I item items st st',
  infer_checks_par PE K o I item items st st' (Ok tt) <-> infer_checks_seq PE K o I item items st = (st', [], Ok tt).
Proof. exact par_ok. Qed.
Print Assumptions C19_verdict.
(** If sequential checking succeeds, no interleaving reports an error, and all can be completed. *)
Theorem C19_no_error : forall K PE o I item items st st' p,
  infer_checks_seq PE K o I item items st = (st', [], Ok tt) ->
  par_steps PE K o I item (Par PE I items st [] []) p ->
  p_errs PE I p = [] /\
  exists q, par_steps PE K o I item p q /\ p_st PE I q = st' /\ par_result PE I q (Ok tt).
Proof. exact par_no_error. Qed.
Print Assumptions C19_no_error.
(** A reported error is the error of some command, and sequential checking does not succeed. *)
Theorem C19_error : forall K PE o I item items st p e,
  par_steps PE K o I item (Par PE I items st [] []) p -> In e (p_errs PE I p) ->
  (forall st' rest, infer_checks_seq PE K o I item items st <> (st', rest, Ok tt)) /\
  exists pre it post, items = pre ++ it :: post /\
    (snd (pull PE K o I item it (fst (pull_all K PE o I item pre st))) = Fails PE e \/
     exists t ke, snd (pull PE K o I item it (fst (pull_all K PE o I item pre st))) = Task PE t /\
       check K t = Err ke /\ e = PKo ke).
Proof. exact par_error. Qed.
Print Assumptions C19_error.
(** Every interleaving ends: it makes progress until everything is done (unless a kernel query does not end). *)
Theorem C19_ends : forall K PE o I item p q,
  par_step PE K o I item p q -> par_measure PE I q < par_measure PE I p.
Proof. exact par_decreases. Qed.
Print Assumptions C19_ends.
Theorem C19_progress : forall K PE o I item p,
  (exists q, par_step PE K o I item p q) \/
  (p_items PE I p = [] /\ p_tasks PE I p = []) \/
  (exists it items st', p_items PE I p = it :: items /\ pull PE K o I item it (p_st PE I p) = (st', Stuck PE)) \/
  (exists t, In t (p_tasks PE I p) /\ (check K t = Panic \/ check K t = Fuel)).
Proof. exact par_progress. Qed.
Print Assumptions C19_progress.
(** the same for whole runs *)
Theorem C19_run : forall PE K eta om files,
  run PE K (Opts eta om true) files (Ok tt) <-> run PE K (Opts eta om false) files (Ok tt).
Proof. exact main_run_jobs. Qed.
Print Assumptions C19_run.
Theorem C19_run_unique : forall PE K o files st r,
  run_files PE K o files st (Ok tt) -> run_files PE K o files st r -> r = Ok tt.
Proof. exact main_run_unique. Qed.
Print Assumptions C19_run_unique.
Theorem C19_consume : forall PE K eta om evs,
  consume PE K (Opts eta om true) evs (Ok tt) <-> consume PE K (Opts eta om false) evs (Ok tt).
Proof. exact main_consume_jobs. Qed.
Print Assumptions C19_consume.

(** Two theorems are pulled before the first of them is checked; the second one is wrong. *)
Example C19_example :
  exists st e, infer_checks_par unit sample_kernel (Opts false None true) _ (run_item unit (Opts false None true))
    (map Ok (nat_commands ++ [PIntro ($"t") [] (ITheorem pNAT (local ($"zero"))); PIntro ($"u") [] (ITheorem pNAT pNAT)]))
    (pst_new (Opts false None true)) st (Err e).
Proof.
  do 2 eexists. unfold infer_checks_par. eexists. split; [|split; [reflexivity|]].
  - cbn [map app nat_commands].
    do 4 (eapply steps_step; [eapply step_pull_task; vm_compute; reflexivity|]).
    eapply steps_step; [eapply step_pull_task; vm_compute; reflexivity|].
    do 2 (eapply steps_step; [eapply step_pull_task; vm_compute; reflexivity|]).
    eapply steps_step; [|apply steps_refl]. cbn [app].
    match goal with |- par_step _ _ _ _ _ (Par _ _ _ _ [?a; ?b; ?c; ?d; ?e; ?f; ?g] _) _ =>
      apply (step_check_err unit sample_kernel _ _ _ [] _ [a; b; c; d; e; f] g [] [] (KoTyping Unconvertible)) end.
    vm_compute. reflexivity.
  - cbn. left. reflexivity.
Qed.

(** ** C20: omitting stages only accepts more *)
Theorem C20_run : forall PE K eta jobs files,
  (run PE K (Opts eta None jobs) files (Ok tt) -> run PE K (Opts eta (Some StCheck) jobs) files (Ok tt)) /\
  (run PE K (Opts eta (Some StCheck) jobs) files (Ok tt) -> run PE K (Opts eta (Some StInfer) jobs) files (Ok tt)) /\
  (run PE K (Opts eta (Some StInfer) jobs) files (Ok tt) -> run PE K (Opts eta (Some StShare) jobs) files (Ok tt)).
Proof. exact main_omit_run. Qed.
Print Assumptions C20_run.
Theorem C20_consume : forall PE K eta jobs evs,
  (consume PE K (Opts eta None jobs) evs (Ok tt) -> consume PE K (Opts eta (Some StCheck) jobs) evs (Ok tt)) /\
  (consume PE K (Opts eta (Some StCheck) jobs) evs (Ok tt) -> consume PE K (Opts eta (Some StInfer) jobs) evs (Ok tt)) /\
  (consume PE K (Opts eta (Some StInfer) jobs) evs (Ok tt) -> consume PE K (Opts eta (Some StShare) jobs) evs (Ok tt)).
Proof. exact main_omit_consume. Qed.
Print Assumptions C20_consume.
(** Omitting sharing leaves only parsing: *)
Theorem C20_share : forall PE K eta jobs evs,
  consume PE K (Opts eta (Some StShare) jobs) evs (Ok tt) <-> Forall (fun r => is_ok r = true) evs.
Proof. exact main_omit_share. Qed.
Print Assumptions C20_share.
(** Omitting inference leaves only parsing and sharing: *)
Theorem C20_infer : forall PE K eta jobs evs,
  consume PE K (Opts eta (Some StInfer) jobs) (map Ok evs) (Ok tt) <->
  Forall (fun r => is_ok r = true) (share_results evs (pst_new (Opts eta (Some StInfer) jobs))).
Proof. exact main_omit_infer. Qed.
Print Assumptions C20_infer.
(** Omitting checks is like a kernel that accepts all checks: *)
Theorem C20_check : forall PE K eta jobs evs,
  consume PE K (Opts eta (Some StCheck) jobs) evs (Ok tt) <->
  consume PE (Kernel (k_intro K) (k_rewrite K) (fun _ _ => Ok tt)) (Opts eta None jobs) evs (Ok tt).
Proof. exact main_omit_check. Qed.
Print Assumptions C20_check.

(** The inclusions are strict. *)
Example C20_example :
  (exists rest st, infer_checks_seq unit sample_kernel (Opts false (Some StCheck) false) _ (run_item unit (Opts false (Some StCheck) false))
    (map Ok (nat_commands ++ [PIntro ($"u") [] (ITheorem pNAT pNAT)])) (pst_new (Opts false None false)) = (st, rest, Ok tt)) /\
  (exists rest st e, infer_checks_seq unit sample_kernel (Opts false None false) _ (run_item unit (Opts false None false))
    (map Ok (nat_commands ++ [PIntro ($"u") [] (ITheorem pNAT pNAT)])) (pst_new (Opts false None false)) = (st, rest, Err e)).
Proof. split; [do 2 eexists; vm_compute; reflexivity|]. do 3 eexists. vm_compute. reflexivity. Qed.

(** ** C21: streaming and direct processing agree *)
Theorem C21_stream : forall PE K o files, run PE K o files (Ok tt) <-> main_channel PE K o files (Ok tt).
Proof. exact main_stream. Qed.
Print Assumptions C21_stream.
Theorem C21_stream_unique : forall PE K o files r,
  run PE K o files (Ok tt) -> main_channel PE K o files r -> r = Ok tt.
Proof. exact main_stream_unique. Qed.
Print Assumptions C21_stream_unique.
(** in terms of [produce] and [consume], with a channel that accepts everything *)
Theorem C21_produce_consume : forall PE K o files, run PE K o files (Ok tt) <->
  exists evs, produce PE files None = (evs, Ok tt, false) /\ consume PE K o evs (Ok tt).
Proof. exact main_produce_consume. Qed.
Print Assumptions C21_produce_consume.

(** all possible results with a channel: that of the first file name that is no module path, or if there is none,
    that of all events; or an error among the events that were sent before sending failed *)
Theorem C21_channel : forall PE K o files r, main_channel PE K o files r <->
  match snd (events_before PE files) with
  | Ok _ => consume PE K o (fst (events_before PE files)) r
  | e => r = e
  end \/
  exists e k, k < length (fst (events_before PE files)) /\ r = Err e /\
    consume PE K o (firstn k (fst (events_before PE files))) (Err e).
Proof. exact main_channel_iff. Qed.
Print Assumptions C21_channel.
(** the only result of direct processing without [--jobs]: that of the events before such a file name,
    or if they succeed, that of the file name *)
Theorem C21_run : forall PE K o, o_jobs o = false -> forall files r,
  snd (events_before PE files) <> Panic -> snd (events_before PE files) <> Fuel ->
  (run PE K o files r <-> exists r', consume PE K o (fst (events_before PE files)) r' /\
    r = match r' with Ok _ => snd (events_before PE files) | e => e end).
Proof. exact main_run_seq. Qed.
Print Assumptions C21_run.
(** without [--jobs], also the errors are the same, if all file names are module paths *)
Theorem C21_errors : forall PE K o, o_jobs o = false -> forall files r,
  Forall (fun f => is_ok (fst f) = true) files -> (main_channel PE K o files r <-> run PE K o files r).
Proof. exact main_channel_seq. Qed.
Print Assumptions C21_errors.
(** if some file name is none, then [run] reports an error in a file before it,
    whereas with a channel, either that error or the one of the file name may be reported *)
Definition bad_path_files : list (file unit) := wrong_files ++ [(Ok [$"last"], []); (Err PModule, [])].
Theorem C21_errors_refuted :
  (forall r, run unit sample_kernel (Opts false None false) bad_path_files r -> r = Err (PKo (KoTyping Unconvertible))) /\
  main_channel unit sample_kernel (Opts false None false) bad_path_files (Err (PKo (KoTyping Unconvertible))) /\
  main_channel unit sample_kernel (Opts false None false) bad_path_files (Err PModule).
Proof.
  split; [|split].
  - intros r H. apply C21_run in H as (r' & (st & rest & H) & ->); [|reflexivity|discriminate..]. vm_compute in H.
    injection H as _ _ <-. reflexivity.
  - exists (Some 11). do 3 eexists. split; [vm_compute; reflexivity|]. split; [|eauto].
    eexists. unfold infer_checks. cbn [o_jobs]. eexists. vm_compute. reflexivity.
  - exists None. do 3 eexists. split; [vm_compute; reflexivity|]. reflexivity.
Qed.
Print Assumptions C21_errors_refuted.

Example C21_example : main_channel unit sample_kernel (Opts false None false) sample_files (Ok tt).
Proof.
  exists None. do 3 eexists. split; [vm_compute; reflexivity|]. split; [|discriminate].
  eexists. unfold infer_checks. cbn [o_jobs]. eexists. vm_compute. reflexivity.
Qed.

(** ** C22: processing stops at the first error *)
Theorem C22_first_error : forall K PE o I item items st st' rest r,
  infer_checks_seq PE K o I item items st = (st', rest, r) -> r <> Ok tt ->
  exists pre it st0, items = pre ++ it :: rest /\
    infer_checks_seq PE K o I item pre st = (st0, [], Ok tt) /\
    infer_checks_seq PE K o I item [it] st0 = (st', [], r).
Proof. exact seq_first_error. Qed.
Print Assumptions C22_first_error.
(** The rest [post] of the source is left as it is. *)
Theorem C22_stops : forall K PE o I item pre it post st st0 st' rest r,
  infer_checks_seq PE K o I item pre st = (st0, [], Ok tt) ->
  infer_checks_seq PE K o I item [it] st0 = (st', rest, r) -> r <> Ok tt ->
  infer_checks_seq PE K o I item (pre ++ it :: post) st = (st', post, r).
Proof. exact seq_stops. Qed.
Print Assumptions C22_stops.
(** Exactly the error of the first failing element is reported ([elem_fails] in SpecFails.v). *)
Theorem C22_reported : forall K eta PE I item items st e rest,
  (exists st', infer_checks_seq PE K (Opts eta None false) I item items st = (st', rest, Err e)) <->
  exists pre it st0, items = pre ++ it :: rest /\
    infer_checks_seq PE K (Opts eta None false) I item pre st = (st0, [], Ok tt) /\
    elem_fails K (fst (item it st0)) (snd (item it st0)) e.
Proof. exact main_fails. Qed.
Print Assumptions C22_reported.
(** Files after the first failing one are not processed. *)
Theorem C22_files : forall PE K eta om files file rest st r,
  run_files PE K (Opts eta om false) (files ++ [file]) st r -> r <> Ok tt ->
  run_files PE K (Opts eta om false) (files ++ file :: rest) st r.
Proof. exact main_files_stop. Qed.
Print Assumptions C22_files.

Example C22_example :
  exists st, infer_checks_seq unit sample_kernel (Opts false None false) _ (run_item unit (Opts false None false))
    (map Ok nat_commands ++ [Err tt; Ok (PIntro ($"Nat") [] (IDeclaration false p_type))]) (pst_new (Opts false None false)) =
    (st, [Ok (PIntro ($"Nat") [] (IDeclaration false p_type))], Err (PParse tt)).
Proof. eexists. vm_compute. reflexivity. Qed.
(** The natural numbers, then [thm bad : Nat := Nat.], then another command *)
Definition c22_opts := Opts false None false.
Definition c22_bad : res unit scoped := Ok (PIntro ($"bad") [] (ITheorem pNAT pNAT)).
Definition c22_more : list (res unit scoped) := [Ok (PIntro ($"more") [] (IDeclaration false p_type))].
Definition c22_state : pst :=
  fst (fst (infer_checks_seq unit sample_kernel c22_opts _ (run_item unit c22_opts) (map Ok nat_commands) (pst_new c22_opts))).
Definition c22_item := run_item unit c22_opts c22_bad c22_state.
Example C22_example_reported :
  infer_checks_seq unit sample_kernel c22_opts _ (run_item unit c22_opts) (map Ok nat_commands) (pst_new c22_opts) = (c22_state, [], Ok tt) /\
  snd c22_item = Some (Ok (CIntro 4 (ITheorem NAT NAT))) /\
  cmd_fails sample_kernel (ps_gc (fst c22_item)) (CIntro 4 (ITheorem NAT NAT)) (KoTyping Unconvertible).
Proof.
  split; [vm_compute; reflexivity|]. split; [vm_compute; reflexivity|].
  apply cf_check with (ty := MkTyping [] NAT None) (chk := MkTyping [] NAT NAT); vm_compute; reflexivity.
Qed.
