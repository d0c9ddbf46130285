(** * Specification: what kofmt is for *)

From Verif Require Import Base ModelSyntax ModelCommand ModelLex ModelParse ModelFmt ModelMake ModelRead SpecUtf8 SpecSyntax SpecParse.

(** the file can be opened and read, and is UTF-8 *)
Definition is_text (i : input) (text : str) : Prop := i = Opened text false /\ utf8 text.

(** the tokens are empty or end with a dot *)
Definition dot_last (toks : list token) : Prop := toks = [] \/ exists ts, toks = ts ++ [TDot].
(** no unrecognised characters, no unclosed comment, and no incomplete command at the end *)
Definition formattable (junk : str -> nat) (text : str) : Prop :=
  (forall t, In t (lex junk text) -> t <> TError /\ forall n, t <> TComment n) /\ dot_last (lex junk text).

(** what is printed for a list of commands, where names are separated into variables and constants or not *)
Definition shown (scope : bool) (cs : list (pcommand (pterm symb))) : str :=
  if scope then flat_map (cmd_show (term_show atom_show)) (map scope_command cs) else flat_map (cmd_show (term_show symb_show)) cs.

(** the commands before the first error, and the error, for the two parsers *)
Definition parsed (junk : str -> nat) (by_lines : bool) (text : str) (cs : list (pcommand (pterm symb))) (r : option parse_error) : Prop :=
  if by_lines then outcome (lazy_next scope_symb junk) (lazy_new (text_lines text)) cs r
  else outcome (strict_next scope_symb) (strict_new junk text) cs r.
