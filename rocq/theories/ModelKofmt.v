(** * Model of the program kofmt: [kofmt/src/main.rs] *)

From Verif Require Import Base ModelSyntax ModelCommand ModelLex ModelParse ModelFmt ModelRead.

(** kofmt/src/main.rs:13-36: the options; [None] for [--parse] is [FLex].  [--share] concerns only the representation of strings. *)
Inductive fmode := FLex | FParse (by_lines scope : bool).
(** how the program, or the part of it for one file, ends: it continues or returns [Ok]; it returns an error; it panics *)
Inductive fend := FOk | FIo | FPanic.

(** kofmt/src/main.rs:46-70 [print_tokens]: what is printed, also before a panic.
    [print!("{}", token)] panics if [Display] fails. *)
Fixpoint put_tokens (space : bool) (toks : list token) : str * fend :=
  match toks with
  | [] => ([], FOk)
  | t :: toks =>
    let sp := if space && negb (no_space_before t) then $" " else [] in
    match token_show t with
    | None => (sp, FPanic)
    | Some w =>
      let '(out, e) := put_tokens (negb (no_space_after t)) toks in
      (sp ++ w ++ (match t with TDot => ["010"%char] | _ => [] end) ++ out, e)
    end
  end.

(** kofmt/src/main.rs:72-84 [print_cmds]: what is printed, also before a panic *)
Section Cmds.
  Context {S Tm : Type}.
  Variable next : S -> res parse_error (option (pcommand Tm)) * S.
  Variable show : Tm -> str.
  Inductive puts : S -> str -> fend -> Prop :=
  | puts_end s : fst (next s) = Ok None -> puts s [] FOk
  | puts_cmd s c s' out e : next s = (Ok (Some c), s') -> puts s' out e -> puts s (cmd_show show c ++ out) e
  | puts_err s e : fst (next s) = Err e -> puts s [] FPanic
  | puts_panic s : fst (next s) = Panic -> puts s [] FPanic.
End Cmds.

(** [std::fs::read_to_string] *)
Definition read_to_string (i : input) : option str :=
  match i with
  | Opened bytes false => if valid_utf8 bytes then Some bytes else None
  | _ => None
  end.

Section Kofmt.
  (** see [ModelLex.lex] *)
  Variable junk : str -> nat.

  (** kofmt/src/main.rs:92-123: one file, without [--quiet] *)
  Inductive fmt_file : fmode -> input -> str -> fend -> Prop :=
  (* main.rs:119-122 *)
  | ff_lex i text out e : read_to_string i = Some text -> put_tokens false (lex junk text) = (out, e) -> fmt_file FLex i out e
  | ff_lex_io i : read_to_string i = None -> fmt_file FLex i [] FIo
  (* main.rs:103-117 *)
  | ff_strict i text out e : read_to_string i = Some text ->
    puts (strict_next scope_symb) (term_show symb_show) (strict_new junk text) out e -> fmt_file (FParse false false) i out e
  | ff_strict_scope i text out e : read_to_string i = Some text ->
    puts (strict_next scope_atom) (term_show atom_show) (strict_new junk text) out e -> fmt_file (FParse false true) i out e
  | ff_strict_io i scope : read_to_string i = None -> fmt_file (FParse false scope) i [] FIo
  (* main.rs:94-102 *)
  | ff_lazy bytes fails out e :
    puts (read_next scope_symb junk) (term_show symb_show) (read_lines bytes fails, lazy_new []) out e ->
    fmt_file (FParse true false) (Opened bytes fails) out e
  | ff_lazy_scope bytes fails out e :
    puts (read_next scope_atom junk) (term_show atom_show) (read_lines bytes fails, lazy_new []) out e ->
    fmt_file (FParse true true) (Opened bytes fails) out e
  | ff_lazy_io scope : fmt_file (FParse true scope) Closed [] FIo.

  (** With [--quiet], the same is done without printing (main.rs:65-67, 80-82).  Then tokens are not shown, so showing cannot fail. *)
  Inductive fmt_quiet : fmode -> input -> str -> fend -> Prop :=
  | fq_lex i text : read_to_string i = Some text -> fmt_quiet FLex i [] FOk
  | fq_lex_io i : read_to_string i = None -> fmt_quiet FLex i [] FIo
  | fq_parse by_lines scope i out e : fmt_file (FParse by_lines scope) i out e -> fmt_quiet (FParse by_lines scope) i [] e.

  Definition fmt_one (quiet : bool) : fmode -> input -> str -> fend -> Prop := if quiet then fmt_quiet else fmt_file.

  (** kofmt/src/main.rs:86-126 [main]: the files, the text printed, and the end *)
  Inductive kofmt (quiet : bool) (mode : fmode) : list input -> str -> fend -> Prop :=
  | kf_nil : kofmt quiet mode [] [] FOk
  | kf_stop i rest out e : fmt_one quiet mode i out e -> e <> FOk -> kofmt quiet mode (i :: rest) out e
  | kf_next i rest out out' e : fmt_one quiet mode i out FOk -> kofmt quiet mode rest out' e ->
    kofmt quiet mode (i :: rest) (out ++ out') e.
End Kofmt.
