(** * Specification: readable inputs

    What it means that the text of a file can be read, and where reading a file goes wrong first. *)

From Verif Require Import Base ModelSyntax SpecUtf8 SpecMake ModelRead.

(** the file can be opened, can be read completely, and is UTF-8 *)
Definition has_text (i : str * input) (f : str * option str) : Prop :=
  exists bytes, i = (fst f, Opened bytes false) /\ snd f = Some bytes /\ utf8 bytes.
(** the same, if it can be opened *)
Definition has_text_if_open (i : str * input) (f : str * option str) : Prop :=
  has_text i f \/ (i = (fst f, Closed) /\ snd f = None).

(** The first line cannot be read: it is not UTF-8, or reading fails before its end. *)
Inductive bad_start : str -> bool -> Prop :=
| bs_line l rest fails : ~ In LF l -> ~ utf8 l -> bad_start (l ++ LF :: rest) fails
| bs_last l fails : ~ In LF l -> ~ utf8 l -> bad_start l fails
| bs_fails l : ~ In LF l -> bad_start l true.

(** complete lines *)
Definition whole_lines (s : str) : Prop := s = [] \/ exists s', s = s' ++ [LF].
