(** * Model of command processing: [kocheck/src/{process,infer_checks,event,stage,opt,error,main}.rs] *)

From Verif Require Import Base ModelTerm ModelGctx ModelCommand ModelSubst ModelReduce ModelInfer
  ModelSyntax ModelSymbols ModelShare.

(** ** Errors *)

(** kontroli/src/error.rs:10-15 [enum Error]. *)
Inductive ko_error :=
| KoShare (e : share_error)
| KoGCtx (e : gctx_error)
| KoSymbols (e : symbols_error)
| KoTyping (e : kerror).

(** kocheck/src/error.rs:6-11 [enum Error]; [PE] is the type of parse errors.
    I/O errors carry no information here. *)
Inductive perror (PE : Type) :=
| PModule
| PParse (e : PE)
| PIo
| PKo (e : ko_error).
Arguments PModule {PE}.
Arguments PParse {PE} e.
Arguments PIo {PE}.
Arguments PKo {PE} e.

(** [map_err] / [?] with [From] *)
Definition res_err {E E' A} (f : E -> E') (r : res E A) : res E' A :=
  match r with
  | Ok a => Ok a
  | Err e => Err (f e)
  | Panic => Panic
  | Fuel => Fuel
  end.
Definition is_ok {E A} (r : res E A) : bool := match r with Ok _ => true | _ => false end.

(** ** Options *)

(** kocheck/src/stage.rs:9-16 [enum Stage]. *)
Inductive stage := StShare | StInfer | StCheck.
Definition stage_eqb (a b : stage) : bool :=
  match a, b with StShare, StShare | StInfer, StInfer | StCheck, StCheck => true | _, _ => false end.

(** kocheck/src/opt.rs:8-50 [struct Opt]; the other fields ([channel_capacity], [files])
    are arguments of the functions below.  Of [jobs], only its presence matters here. *)
Record opts := Opts { o_eta : bool; o_omit : option stage; o_jobs : bool }.
(** kocheck/src/opt.rs:52-56 [Opt::omits]. *)
Definition omits (o : opts) (s : stage) : bool :=
  match o_omit o with Some s' => stage_eqb s' s | None => false end.

(** kocheck/src/lib.rs:18 [type Command]. *)
Definition command := command_ sym intro rule.

(** ** The kernel, as seen from kocheck: three queries.
    The answer to a query depends only on the context and the query (C06, C08). *)
Record kernel := Kernel {
  k_intro : gctx -> intro -> res kerror (typing * option ModelGctx.check);
  k_rewrite : gctx -> rule_ lterm lterm lterm -> res kerror ModelGctx.check;
  k_check : gctx -> ModelGctx.check -> res kerror unit
}.
(** The kernel of ModelInfer: for each query an oracle (of [Rc::get_mut]) and fuel *)
Inductive query :=
| QIntro (gc : gctx) (it : intro)
| QRewrite (gc : gctx) (r : rule_ lterm lterm lterm)
| QCheck (gc : gctx) (c : ModelGctx.check).
Definition real_kernel (O : query -> nat -> bool) (n : nat) : kernel :=
  Kernel (fun gc it => run (kintro (O (QIntro gc it)) gc n it))
         (fun gc r => run (rewrite (O (QRewrite gc r)) gc n r))
         (fun gc c => run (check_check (O (QCheck gc c)) gc n c)).

(** The local variables of [run] and [consume]: the symbol table, the arena, the context.
    The arena gives every allocated symbol a new address; it is the number of symbols so far.
    Everything that mutates them returns them also in case of an error. *)
Record pst := PSt { ps_syms : symbols; ps_next : nat; ps_gc : gctx }.
(** kocheck/src/process.rs:57-61, 101-105 *)
Definition pst_new (o : opts) : pst :=
  PSt symbols_new 0 (GCtx (g_types gctx_new) (g_rules gctx_new) (o_eta o)).

Section Process.
  Variable PE : Type.
  Variable K : kernel.
  Variable o : opts.

  (** kocheck/src/process.rs:21-34 [share]. *)
  Definition share (cmd : scoped) (st : pst) : pst * res ko_error command :=
    match share_command (ps_syms st) cmd with
    | Ok (CIntro id it) =>
      let owned := ps_next st in
      let '(syms, r) := symbols_insert (ps_syms st) id owned in
      (PSt syms (S owned) (ps_gc st), res_err KoSymbols (res_map (fun id => CIntro id it) r))
    | Ok (CRules rules) => (st, Ok (CRules rules))
    | Err e => (st, Err (KoShare e))
    | Panic => (st, Panic)
    | Fuel => (st, Fuel)
    end.

  (** kocheck/src/event.rs:8-13 [enum Event]. *)
  Inductive event :=
  | EvModule (path : list str)
  | EvCommand (cmd : scoped).

  (** kocheck/src/process.rs:10-19 [from_event] with kocheck/src/event.rs:16-24 [Event::handle]. *)
  Definition from_event (ev : event) (st : pst) : pst * option (res ko_error command) :=
    match ev with
    | EvModule path => (PSt (set_path (ps_syms st) path) (ps_next st) (ps_gc st), None)
    | EvCommand cmd => let '(st, r) := share cmd st in (st, Some r)
    end.

  (** ** kocheck/src/infer_checks.rs *)

  Definition ko_typing {A} : res kerror A -> res ko_error A := res_err KoTyping.
  Definition ko_gctx (r : gctx * option gctx_error) : gctx * res ko_error unit :=
    let '(gc, e) := r in (gc, match e with Some e => Err (KoGCtx e) | None => Ok tt end).

  (** infer_checks.rs:32: [try_for_each] over the rules *)
  Fixpoint add_rules (rules : list rule) (gc : gctx) : gctx * res ko_error unit :=
    match rules with
    | [] => (gc, Ok tt)
    | r :: rules =>
      match ko_gctx (add_rule gc r) with
      | (gc, Ok _) => add_rules rules gc
      | (gc, e) => (gc, e)
      end
    end.

  Section InferWith.
    (** the state of the closure [f] *)
    Variable F : Type.
    Variable f : ModelGctx.check -> gctx -> F -> F * res ko_error unit.

    (** infer_checks.rs:24-31: the loop over the rules *)
    Fixpoint rewrites (rules : list rule) (gc : gctx) (s : F) : F * res ko_error unit :=
      match rules with
      | [] => (s, Ok tt)
      | r :: rules =>
        match rule_try r with
        | Ok r =>
          match ko_typing (k_rewrite K gc r) with
          | Ok chk =>
            match f chk gc s with
            | (s, Ok _) => rewrites rules gc s
            | (s, e) => (s, e)
            end
          | Err e => (s, Err e)
          | Panic => (s, Panic)
          | Fuel => (s, Fuel)
          end
        | _ => rewrites rules gc s
        end
      end.

    (** infer_checks.rs:8-36 [infer_with]. *)
    Definition infer_with (cmd : command) (gc : gctx) (s : F) : gctx * F * res ko_error unit :=
      match cmd with
      | CIntro sym it =>
        match ko_typing (k_intro K gc it) with
        | Ok (typing, chk) =>
          match match chk with Some chk => f chk gc s | None => (s, Ok tt) end with
          | (s, Ok _) => let '(gc, r) := ko_gctx (gctx_insert gc sym typing (rewritable it)) in (gc, s, r)
          | (s, e) => (gc, s, e)
          end
        | Err e => (gc, s, Err e)
        | Panic => (gc, s, Panic)
        | Fuel => (gc, s, Fuel)
        end
      | CRules rules =>
        match rewrites rules gc s with
        | (s, Ok _) => let '(gc, r) := add_rules rules gc in (gc, s, r)
        | (s, e) => (gc, s, e)
        end
      end.
  End InferWith.

  (** infer_checks.rs:38-45 [infer_check]. *)
  Definition infer_check (cmd : command) (gc : gctx) : gctx * res ko_error unit :=
    let '(gc, _, r) :=
      infer_with unit
        (fun chk gc s => (s, if omits o StCheck then Ok tt else ko_typing (k_check K gc chk)))
        cmd gc tt in
    (gc, r).

  (** infer_checks.rs:6 [type Checks]. *)
  Definition checks : Type := list ModelGctx.check * gctx.

  (** infer_checks.rs:47-54 [infer]. *)
  Definition infer (cmd : command) (gc : gctx) : gctx * res ko_error checks :=
    let '(gc', chks, r) := infer_with (list ModelGctx.check) (fun chk _ s => (s ++ [chk], Ok tt)) cmd gc [] in
    (gc', res_map (fun _ => (chks, gc)) r).

  (** infer_checks.rs:56-58 [check]: [try_for_each]. *)
  Fixpoint check_all (chks : list ModelGctx.check) (gc : gctx) : res ko_error unit :=
    match chks with
    | [] => Ok tt
    | chk :: chks => res_bind (ko_typing (k_check K gc chk)) (fun _ => check_all chks gc)
    end.
  Definition check (t : checks) : res ko_error unit := check_all (fst t) (snd t).

  (** ** Sources of commands *)
  Definition perr := perror PE.

  (** What one element of the source does to the iterator of commands (before [infer_checks]):
      nothing is yielded, or one result is yielded. *)

  (** kocheck/src/process.rs:67-69, for each parsed command of a file *)
  Definition run_item (it : res PE scoped) (st : pst) : pst * option (res perr command) :=
    match it with
    | Ok cmd =>
      if omits o StShare then (st, None)
      else let '(st, r) := share cmd st in (st, Some (res_err PKo r))
    | Err e => (st, Some (Err (PParse e)))
    | Panic => (st, Some Panic)
    | Fuel => (st, Some Fuel)
    end.
  (** kocheck/src/process.rs:108-111, for each received event *)
  Definition consume_item (it : res perr event) (st : pst) : pst * option (res perr command) :=
    match it with
    | Ok ev =>
      if omits o StShare then (st, None)
      else let '(st, r) := from_event ev st in (st, option_map (res_err PKo) r)
    | Err e => (st, Some (Err e))
    | Panic => (st, Some Panic)
    | Fuel => (st, Some Fuel)
    end.

  Section InferChecks.
    Variable I : Type.
    Variable item : I -> pst -> pst * option (res perr command).

    (** infer_checks.rs:65: the filter *)
    Definition filter_infer (r : option (res perr command)) : option (res perr command) :=
      match r with
      | Some (Ok _) => if omits o StInfer then None else r
      | _ => r
      end.

    (** infer_checks.rs:72: sequential processing; also returns what is left of the source *)
    Fixpoint infer_checks_seq (items : list I) (st : pst) : pst * list I * res perr unit :=
      match items with
      | [] => (st, [], Ok tt)
      | it :: items =>
        let '(st, r) := item it st in
        match filter_infer r with
        | None => infer_checks_seq items st
        | Some (Ok cmd) =>
          match infer_check cmd (ps_gc st) with
          | (gc, Ok _) => infer_checks_seq items (PSt (ps_syms st) (ps_next st) gc)
          | (gc, e) => (PSt (ps_syms st) (ps_next st) gc, items, res_err PKo e)
          end
        | Some e => (st, items, res_map (fun _ => tt) e)
        end
      end.

    (** infer_checks.rs:67-70: concurrent processing.

        [par_bridge] lets every worker thread repeatedly pull an element from the iterator (protected
        by a lock) and then work on it without the lock.  Pulling an element runs [share] and [infer].
        As soon as one task has failed, the threads may stop; [try_for_each] returns one of the errors. *)
    Record par := Par {
      p_items : list I;             (** the rest of the source *)
      p_st : pst;
      p_tasks : list checks;        (** pulled, but not yet completely checked *)
      p_errs : list perr            (** errors so far *)
    }.

    (** pulling one element of the source (elements may be filtered) *)
    Inductive pulled := Nothing | Task (t : checks) | Fails (e : perr) | Stuck.
    Definition pull (it : I) (st : pst) : pst * pulled :=
      let '(st, r) := item it st in
      match filter_infer r with
      | None => (st, Nothing)
      | Some (Ok cmd) =>
        let '(gc, r) := infer cmd (ps_gc st) in
        (PSt (ps_syms st) (ps_next st) gc,
         match r with
         | Ok t => if omits o StCheck then Nothing else Task t
         | Err e => Fails (PKo e)
         | _ => Stuck
         end)
      | Some (Err e) => (st, Fails e)
      | Some _ => (st, Stuck)
      end.

    Inductive par_step : par -> par -> Prop :=
    | step_pull_nothing it items st st' ts es :
      pull it st = (st', Nothing) -> par_step (Par (it :: items) st ts es) (Par items st' ts es)
    | step_pull_task it items st st' ts es t :
      pull it st = (st', Task t) -> par_step (Par (it :: items) st ts es) (Par items st' (ts ++ [t]) es)
    | step_pull_fails it items st st' ts es e :
      pull it st = (st', Fails e) -> par_step (Par (it :: items) st ts es) (Par items st' ts (es ++ [e]))
    | step_check_ok items st ts1 t ts2 es :
      check t = Ok tt -> par_step (Par items st (ts1 ++ t :: ts2) es) (Par items st (ts1 ++ ts2) es)
    | step_check_err items st ts1 t ts2 es e :
      check t = Err e -> par_step (Par items st (ts1 ++ t :: ts2) es) (Par items st (ts1 ++ ts2) (es ++ [PKo e])).
    Inductive par_steps : par -> par -> Prop :=
    | steps_refl p : par_steps p p
    | steps_step p q r : par_step p q -> par_steps q r -> par_steps p r.

    (** the result of [try_for_each] *)
    Definition par_result (p : par) (r : res perr unit) : Prop :=
      match r with
      | Ok _ => p_items p = [] /\ p_tasks p = [] /\ p_errs p = []
      | Err e => In e (p_errs p)
      | _ => False
      end.
    Definition infer_checks_par (items : list I) (st st' : pst) (r : res perr unit) : Prop :=
      exists p, par_steps (Par items st [] []) p /\ p_st p = st' /\ par_result p r.

    (** infer_checks.rs:61-74 [infer_checks]: the possible results *)
    Definition infer_checks (items : list I) (st st' : pst) (r : res perr unit) : Prop :=
      if o_jobs o then infer_checks_par items st st' r
      else exists rest, infer_checks_seq items st = (st', rest, r).
  End InferChecks.

  (** ** kocheck/src/process.rs *)

  (** An input file: the result of [PathRead::try_from], and of parsing.
      A parser that returns errors forever (C30) is covered by finite lists, because nothing
      after the first error is evaluated before it is reported. *)
  Definition file : Type := res perr (list str) * list (res PE scoped).

  (** process.rs:56-74 [run]: the possible results *)
  Inductive run_files : list file -> pst -> res perr unit -> Prop :=
  | run_nil st : run_files [] st (Ok tt)
  | run_path_err e items files st : run_files ((Err e, items) :: files) st (Err e)
  | run_err path items files st st' r :
    infer_checks _ run_item items (PSt (set_path (ps_syms st) path) (ps_next st) (ps_gc st)) st' r ->
    is_ok r = false ->
    run_files ((Ok path, items) :: files) st r
  | run_ok path items files st st' r :
    infer_checks _ run_item items (PSt (set_path (ps_syms st) path) (ps_next st) (ps_gc st)) st' (Ok tt) ->
    run_files files st' r ->
    run_files ((Ok path, items) :: files) st r.
  Definition run (files : list file) (r : res perr unit) : Prop := run_files files (pst_new o) r.

  (** process.rs:97-114 [consume]: the possible results *)
  Definition consume (events : list (res perr event)) (r : res perr unit) : Prop :=
    exists st, infer_checks _ consume_item events (pst_new o) st r.

  (** process.rs:77-94 [produce], where [send] accepts as many events as [capacity] says
      ([None]: all of them): the events sent, the result, and whether sending failed. *)
  Definition file_events (path : list str) (items : list (res PE scoped)) : list (res perr event) :=
    Ok (EvModule path) :: map (fun r => res_err PParse (res_map EvCommand r)) items.
  Fixpoint produce (files : list file) (capacity : option nat) : list (res perr event) * res perr unit * bool :=
    match files with
    | [] => ([], Ok tt, false)
    | (Ok path, items) :: files =>
      let evs := file_events path items in
      match capacity with
      | None => let '(evs', r, b) := produce files None in (evs ++ evs', r, b)
      | Some n =>
        if n <? length evs then (firstn n evs, Ok tt, true)
        else let '(evs', r, b) := produce files (Some (n - length evs)) in (evs ++ evs', r, b)
      end
    | (e, _) :: _ => ([], res_map (fun _ => tt) e, false)
    end.

  (** kocheck/src/main.rs:27-48: the possible results with [--channel-capacity].
      Sending fails only after the consumer has returned.
      If [produce] returns an error, then [main] returns it without waiting for the consumer. *)
  Definition main_channel (files : list file) (r : res perr unit) : Prop :=
    exists capacity evs r1 failed,
      produce files capacity = (evs, r1, failed) /\
      match r1 with
      | Ok _ => consume evs r /\ (failed = true -> exists e, r = Err e)
      | _ => r = r1
      end.
End Process.
