(** * Model of the reading of files: bytes, lines and errors while reading

    [ModelMain] takes the texts of files for granted.  Here a file is a sequence of bytes, which need not be
    UTF-8, and reading may fail after some of them (for example, a directory can be opened, but the first
    attempt to read from it fails). *)

From Verif Require Import Base ModelTerm ModelSyntax ModelCommand ModelSymbols ModelLex ModelParse ModelMake ModelPath ModelProcess ModelMain.

(** [core::str::from_utf8] (core/src/str/validations.rs, standard library) *)
Definition in_range (a b : nat) (c : ascii) : bool :=
  if a <=? nat_of_ascii c then nat_of_ascii c <=? b else false.
Definition cont_ok (c : ascii) : bool := in_range 128 191 c.
Definition three_ok (a b : ascii) : bool :=
  if in_range 224 224 a then in_range 160 191 b
  else if in_range 237 237 a then in_range 128 159 b
  else if in_range 225 239 a then cont_ok b
  else false.
Definition four_ok (a b : ascii) : bool :=
  if in_range 240 240 a then in_range 144 191 b
  else if in_range 244 244 a then in_range 128 143 b
  else if in_range 241 243 a then cont_ok b
  else false.
Fixpoint valid_utf8 (s : str) : bool :=
  match s with
  | [] => true
  | a :: s1 =>
    if in_range 0 127 a then valid_utf8 s1
    else
      match s1 with
      | [] => false
      | b :: s2 =>
        if in_range 194 223 a then if cont_ok b then valid_utf8 s2 else false
        else
          match s2 with
          | [] => false
          | c :: s3 =>
            if three_ok a b then if cont_ok c then valid_utf8 s3 else false
            else
              match s3 with
              | [] => false
              | d :: s4 => if four_ok a b then if cont_ok c then if cont_ok d then valid_utf8 s4 else false else false else false
              end
          end
      end
  end.

(** What a path gives: it cannot be opened, or bytes can be read from it, and then the end of the file is reached
    or reading [fails]. *)
Inductive input := Closed | Opened (bytes : str) (fails : bool).

(** process.rs:46, kofmt/src/main.rs:97 [BufReader::new(r).lines()] (std::io::BufRead): the results, where [None] is an error.
    [read_line] reads up to the next LF (or the end), and checks that this is UTF-8.
    Then [lines] removes the final LF, and a CR before it.
    Nothing after the first error is evaluated, because [unwrap] panics. *)
Definition check_line (l : str) : option str := if valid_utf8 l then Some l else None.
Fixpoint read_pieces (ls : list str) (fails : bool) : list (option str) :=
  match ls with
  | [] => []
  | [l] => if fails then [None] else match l with [] => [] | _ => [check_line l] end
  | l :: ls => option_map strip_cr (check_line l) :: read_pieces ls fails
  end.
Definition read_lines (bytes : str) (fails : bool) : list (option str) := read_pieces (split "010" bytes) fails.

(** dedukti-parse/src/lib.rs:134-150 [Lazy], where the lines are read on demand.
    The field [lz_lines] of the second component is not used. *)
Definition lazy_read (A : Type) : Type := list (option str) * lazy A.
Section NextLine.
  Context {A : Type}.
  Variable scope : symb -> tctx A -> A.
  (** see [ModelLex.lex] *)
  Variable junk : str -> nat.

  (** dedukti-parse/src/lib.rs:267-308, as [ModelParse.lazy_lines]: [None] is a line whose [unwrap] panics
      (process.rs:46) *)
  Fixpoint read_next_ (lines : list (option str)) (open : nat) (st : pstate A) (ctx : tctx A) :
    res parse_error (option (pcommand (pterm A))) * lazy_read A :=
    match lines with
    | [] =>
        (match ps_cmd st, open with
         | CInit, 0 => Ok None
         | _, _ => Err ExpectedInput
         end, ([], MkLazy [] open st ctx []))
    | None :: lines => (Panic, (lines, MkLazy [] open st ctx []))
    | Some line :: lines =>
        let '(open, line) := comment open line in
        if 0 <? open then read_next_ lines open st ctx
        else
          let '(r, ctx, buf) := feed_line scope st ctx [] 0 (lex junk line) in
          match r with
          | Err e => (Err e, (lines, MkLazy [] 0 pstate_default ctx buf))
          | Ok (st, open) =>
              match rev buf with
              | cmd :: buf => (Ok (Some cmd), (lines, MkLazy [] open st ctx buf))
              | [] => read_next_ lines open st ctx
              end
          | Panic => (Panic, (lines, MkLazy [] 0 pstate_default ctx buf))
          | Fuel => (Fuel, (lines, MkLazy [] 0 pstate_default ctx buf))
          end
    end.
  (** dedukti-parse/src/lib.rs:262-309 [Lazy::next] *)
  Definition read_next (s : lazy_read A) : res parse_error (option (pcommand (pterm A))) * lazy_read A :=
    let '(lines, p) := s in
    match lz_buf p with
    | cmd :: buf => (Ok (Some cmd), (lines, MkLazy [] (lz_open p) (lz_state p) (lz_ctx p) buf))
    | [] => read_next_ lines (lz_open p) (lz_state p) (lz_ctx p)
    end.
End NextLine.

Section Next.
  Variable junk : str -> nat.

  (** process.rs:44-51 [parse] *)
  Definition parse_bytes (bytes : str) (fails : bool) : list (res parse_error scoped) -> Prop :=
    results (read_next scope_atom junk) (read_lines bytes fails, lazy_new []).

  (** process.rs:64 and 83, path_read.rs:22-34, as [ModelMain.opens] *)
  Inductive opens_bytes : str * input -> file parse_error -> Prop :=
  | ob_no_module path i :
    path_read path = None -> opens_bytes (path, i) (Err PModule, [])
  | ob_fails path m :
    path_read path = Some m -> opens_bytes (path, Closed) (Err PIo, [])
  | ob_bytes path bytes fails m stdin items :
    path_read path = Some (m, stdin) -> parse_bytes bytes fails items -> opens_bytes (path, Opened bytes fails) (Ok m, items).

  Variable K : kernel.
  Variable o : opts.

  (** infer_checks.rs:67-70: a panic while an element is pulled or while a task is checked ends the process, once
      the other threads have ended; sequential processing ([ModelProcess.infer_checks_seq]) has panics as results. *)
  Definition pull_panics (it : res parse_error scoped) (st : pst) : Prop :=
    match filter_infer parse_error o (snd (run_item parse_error o it st)) with
    | Some (Ok cmd) => snd (ModelProcess.infer K cmd (ps_gc (fst (run_item parse_error o it st)))) = Panic
    | Some Panic => True
    | _ => False
    end.
  Definition panics (p : par parse_error (res parse_error scoped)) : Prop :=
    (exists it items, p_items _ _ p = it :: items /\ pull_panics it (p_st _ _ p)) \/
    (exists t, In t (p_tasks _ _ p) /\ ModelProcess.check K t = Panic).
  Definition infer_checks_read (items : list (res parse_error scoped)) (st st' : pst) (r : res (perr parse_error) unit) : Prop :=
    infer_checks parse_error K o _ (run_item parse_error o) items st st' r \/
    (o_jobs o = true /\ r = Panic /\
     exists p, par_steps parse_error K o _ (run_item parse_error o) (Par _ _ items st [] []) p /\ p_st _ _ p = st' /\ panics p).

  (** process.rs:56-74 [run], as [ModelProcess.run_files] *)
  Inductive run_read : list (file parse_error) -> pst -> res (perr parse_error) unit -> Prop :=
  | rr_nil st : run_read [] st (Ok tt)
  | rr_path_err e items files st : run_read ((Err e, items) :: files) st (Err e)
  | rr_err path items files st st' r :
    infer_checks_read items (PSt (set_path (ps_syms st) path) (ps_next st) (ps_gc st)) st' r ->
    is_ok r = false ->
    run_read ((Ok path, items) :: files) st r
  | rr_ok path items files st st' r :
    infer_checks_read items (PSt (set_path (ps_syms st) path) (ps_next st) (ps_gc st)) st' (Ok tt) ->
    run_read files st' r ->
    run_read ((Ok path, items) :: files) st r.

  (** process.rs:77-94 [produce], as [ModelProcess.produce]: the events before the panic are sent *)
  Fixpoint until_panic (items : list (res parse_error scoped)) : list (res parse_error scoped) * bool :=
    match items with
    | [] => ([], false)
    | Panic :: _ => ([], true)
    | it :: items => let '(items, b) := until_panic items in (it :: items, b)
    end.
  Fixpoint produce_read (files : list (file parse_error)) (capacity : option nat) :
    list (res (perr parse_error) event) * res (perr parse_error) unit * bool :=
    match files with
    | [] => ([], Ok tt, false)
    | (Ok path, items) :: files =>
      let '(items, panics) := until_panic items in
      let evs := file_events parse_error path items in
      match capacity with
      | None =>
        if panics then (evs, Panic, false)
        else let '(evs', r, b) := produce_read files None in (evs ++ evs', r, b)
      | Some n =>
        if n <? length evs then (firstn n evs, Ok tt, true)
        else if panics then (evs, Panic, false)
        else let '(evs', r, b) := produce_read files (Some (n - length evs)) in (evs ++ evs', r, b)
      end
    | (e, _) :: _ => ([], res_map (fun _ => tt) e, false)
    end.
  (** main.rs:27-46, as [ModelProcess.main_channel]: if [produce] panics, then the process ends, whatever the consumer does. *)
  Definition channel_read (files : list (file parse_error)) (r : res (perr parse_error) unit) : Prop :=
    exists capacity evs r1 failed,
      produce_read files capacity = (evs, r1, failed) /\
      match r1 with
      | Ok _ => consume parse_error K o evs r /\ (failed = true -> exists e, r = Err e)
      | _ => r = r1
      end.

  (** main.rs:11-49 [main], as [ModelMain.kocheck] *)
  Definition kocheck_bytes (channel : bool) (inputs : list (str * input)) (r : res (perr parse_error) unit) : Prop :=
    exists files, Forall2 opens_bytes inputs files /\
      (if channel then channel_read files r else run_read files (pst_new o) r).
End Next.
