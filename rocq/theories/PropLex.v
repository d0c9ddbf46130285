(** * Property theorems about the lexer

    Property C50.  The theorems are stated with the patterns and the longest-match
    rule of [SpecLex]. *)

From Verif Require Import Base ModelSyntax ModelLex SpecParse SpecSyntax SpecLex MainLex.

(** ** C50: the lexer returns the tokens of the text

    At every position the longest match of a pattern is taken, and what is
    skipped and what is an error is as specified. *)
Theorem C50_lex : forall junk s, tokens s (lex junk s).
Proof. exact main_lex. Qed.
Print Assumptions C50_lex.

(** A text that has tokens without errors has no other tokens. *)
Theorem C50_only : forall junk s ts, tokens s ts -> ~ In TError ts -> lex junk s = ts.
Proof. exact main_lex_only. Qed.
Print Assumptions C50_only.

(** a keyword is a keyword only if the identifier ends there; a path continues only after a dot without space *)
Example C50_example : forall junk, tokens ($"def define : a.{|b c|} -> b (;x(;y;) ;). c-->d'") (lex junk ($"def define : a.{|b c|} -> b (;x(;y;) ;). c-->d'")) /\
  lex junk ($"def define : a.{|b c|} -> b (;x(;y;) ;). c-->d'") =
  [TDef; TSymb (Symb [] ($"define")); TColon; TSymb (Symb [$"a"] ($"{|b c|}")); TArrow; TSymb (Symb [] ($"b"));
   TDot; TSymb (Symb [] ($"c")); TLongArrow; TSymb (Symb [] ($"d'"))].
Proof. intros junk. split; [apply main_lex|vm_compute; reflexivity]. Qed.

(** errors: a moustache that is not closed, and a character that starts no token *)
Example C50_example_open : forall junk, lex junk ($"a.{|b") = [TError; TDot; TError; TSymb (Symb [] ($"b"))].
Proof. intros junk. vm_compute. reflexivity. Qed.
Example C50_example_error : forall junk, exists rest, lex junk ($"x @ y") = TSymb (Symb [] ($"x")) :: TError :: rest.
Proof. intros junk. eexists. vm_compute. reflexivity. Qed.
