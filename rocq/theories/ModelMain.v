(** * Model of the programs: [kocheck/src/{process,main}.rs] and [koweb/src/lib.rs] on texts

    Input files are given by their path and their contents ([None]: the file cannot be opened).
    Texts consist of ASCII characters, hence reading lines does not fail (process.rs:45
    [line.unwrap()]).  Logging and display in the browser are not modelled. *)

From Verif Require Import Base ModelTerm ModelSyntax ModelLex ModelParse ModelMake ModelPath ModelProcess.

(** The results of a parser up to its end or up to the first error.  Nothing after the first error
    is evaluated before it is reported. *)
Section Results.
  Context {S : Type}.
  Variable next : S -> res parse_error (option scoped) * S.
  Inductive results : S -> list (res parse_error scoped) -> Prop :=
  | results_end s : fst (next s) = Ok None -> results s []
  | results_ok s c s' l : next s = (Ok (Some c), s') -> results s' l -> results s (Ok c :: l)
  | results_err s e : fst (next s) = Err e -> results s [Err e]
  | results_panic s : fst (next s) = Panic -> results s [Panic]
  | results_fuel s : fst (next s) = Fuel -> results s [Fuel].
End Results.

Section Main.
  (** see [ModelLex.lex] *)
  Variable junk : str -> nat.
  Variable K : kernel.

  (** ** kocheck *)

  (** process.rs:44-51 [parse]: [BufRead::lines] and the lazy parser *)
  Definition parse_text (text : str) : list (res parse_error scoped) -> Prop :=
    results (lazy_next scope_atom junk) (lazy_new (text_lines text)).

  (** process.rs:64 and 83, path_read.rs:22-34: the path determines the module, then the file is opened *)
  Inductive opens : str * option str -> file parse_error -> Prop :=
  | opens_no_module path contents :
    path_read path = None -> opens (path, contents) (Err PModule, [])
  | opens_fails path m :
    path_read path = Some m -> opens (path, None) (Err PIo, [])
  | opens_text path text m stdin items :
    path_read path = Some (m, stdin) -> parse_text text items -> opens (path, Some text) (Ok m, items).

  (** main.rs:11-49 [main]: the possible results; [channel]: whether a channel is used *)
  Definition kocheck (o : opts) (channel : bool) (inputs : list (str * option str)) (r : res (perr parse_error) unit) : Prop :=
    exists files, Forall2 opens inputs files /\
      (if channel then main_channel parse_error K o files r else run parse_error K o files r).

  (** ** koweb *)

  (** koweb/src/lib.rs:26-32 [produce]: a module is given by its name and its text *)
  Inductive web_produce : str * str -> list (res (perr parse_error) event) -> Prop :=
  | web_produce_text name text items :
    results (strict_next scope_atom) (strict_new junk text) items ->
    web_produce (name, text) (file_events parse_error [name] items).

  (** lib.rs:34-40 [consume], with the modules of lib.rs:68 or 112-115.
      An error is displayed iff the result is an error. *)
  Definition web_check (o : opts) (modules : list (str * str)) (r : res (perr parse_error) unit) : Prop :=
    exists evss, Forall2 web_produce modules evss /\ consume parse_error K o (concat evss) r.

  (** lib.rs:42-50 [get_omit] *)
  Definition get_omit (do_until : nat) : res Empty_set (option stage) :=
    match do_until with
    | 0 => Ok (Some StShare)
    | 1 => Ok (Some StInfer)
    | 2 => Ok (Some StCheck)
    | 3 => Ok None
    | _ => Panic
    end.

  (** lib.rs:52-69 [check_single] *)
  Definition check_single (text : str) (eta : bool) (omit : nat) (r : res (perr parse_error) unit) : Prop :=
    match get_omit omit with
    | Ok om => web_check (Opts eta om false) [($"main", text)] r
    | _ => r = Panic
    end.

  (** lib.rs:71-77 [struct Program] (without [raw_url], which is not used) *)
  Record program := Program { pg_name : str; pg_deps : list str; pg_urls : list str }.

  (** lib.rs:106 [filename[0..filename.len() - 3]]; the subtraction panics if the name is too short. *)
  Definition module_name (filename : str) : option str :=
    if length filename <? 3 then None else Some (firstn (length filename - 3) filename).
  (** lib.rs:101-113: the modules, if all can be fetched; [fetch] is what [fetch::fetch] returns. *)
  Fixpoint web_modules (fetch : str -> option str) (deps : list (str * str)) : option (list (str * str)) :=
    match deps with
    | [] => Some []
    | (filename, url) :: deps =>
      match module_name filename, fetch url with
      | Some name, Some text => option_map (cons (name, text)) (web_modules fetch deps)
      | _, _ => None
      end
    end.
  (** lib.rs:79-120 [check_multiple]; [zip] ends with the shorter list.
      Nothing happens if there is no program of the given name. *)
  Definition check_multiple (fetch : str -> option str) (programs : list program) (to_run : str) (eta : bool) (omit : nat)
    (r : res (perr parse_error) unit) : Prop :=
    match get_omit omit with
    | Ok om =>
      match find (fun p => str_eqb (pg_name p) to_run) programs with
      | Some main =>
        match web_modules fetch (combine (pg_deps main) (pg_urls main)) with
        | Some modules => web_check (Opts eta om false) modules r
        | None => r = Panic
        end
      | None => r = Ok tt
      end
    | _ => r = Panic
    end.
End Main.
