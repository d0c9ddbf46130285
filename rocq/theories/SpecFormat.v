(** * Specification: formatted files *)

From Verif Require Import Base ModelSyntax ModelLex ModelFmt ModelRead ModelKofmt SpecParse SpecProgram.

(** [text'] is what kofmt prints for [text].  A comment that is not closed is lost by kofmt; such texts are excluded. *)
Definition formats (junk : str -> nat) (text text' : str) : Prop :=
  kofmt junk false FLex [Opened text false] text' FOk /\ forall n, ~ In (TComment n) (lex junk text).
(** Names do not extend over several lines, and lines do not end with CR LF. *)
Definition in_lines (junk : str -> nat) (text : str) : Prop := line_wise (lex junk text) /\ unix text = text.

(** the same file with the formatted text; files that cannot be opened remain such *)
Definition formatted (junk : str -> nat) (i i' : str * option str) : Prop :=
  fst i = fst i' /\
  match snd i, snd i' with
  | Some text, Some text' => formats junk text text' /\ in_lines junk text
  | None, None => True
  | _, _ => False
  end.
Definition web_formatted (junk : str -> nat) (m m' : str * str) : Prop := fst m = fst m' /\ formats junk (snd m) (snd m').
