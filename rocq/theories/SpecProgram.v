(** * Specification of programs: from source files to commands over specification terms

    A program is a list of source files.  Each of them belongs to a module and contains commands.
    Names in commands are resolved (C24), parameters become products and abstractions (C26), and
    left-hand sides of rules become patterns (C27). *)

From Verif Require Import Base ModelTerm ModelCommand ModelSyntax ModelLex SpecTerm SpecConv SpecParse SpecSyntax SpecMake SpecSymbols SpecShare SpecProcess.

(** the module and the commands of a source file *)
Definition source : Type := list str * list (pcommand (pterm symb)).

(** ** Commands of a text *)

(** Commands, with pragmas in between and at the end.
    (In contrast to [gfile], pragmas may also follow the last command.) *)
Inductive gsource : list token -> list (pcommand (pterm symb)) -> Prop :=
| gs_end ps : gpragmas ps -> gsource ps []
| gs_cons ps ts c ts' cs : gpragmas ps -> gcommand ts c -> gsource ts' cs -> gsource (ps ++ ts ++ ts') (c :: cs).

(** the text with every CR LF replaced by LF *)
Fixpoint unix (s : str) : str :=
  match s with
  | [] => []
  | c :: s' =>
    match s' with
    | d :: _ => if Ascii.eqb c "013" && Ascii.eqb d "010" then unix s' else c :: unix s'
    | [] => [c]
    end
  end.

(** ** Elaboration *)

(** [R] gives the symbols that names denote after the given history of module changes and introductions. *)
Definition meaning_in (ops : list symop) (R : symb -> option nat) : Prop :=
  forall s c, R s = Some c <-> resolves ops (sy_path s) (sy_name s) c.

Inductive elab_opt (R : symb -> option nat) : option (pterm atom) -> option tm -> Prop :=
| el_none : elab_opt R None None
| el_some t t' : denotes R t t' -> elab_opt R (Some t) (Some t').
Inductive elab_intro (R : symb -> option nat) : intro_ (pterm atom) (pterm atom) -> intro_ tm tm -> Prop :=
| el_definition A A' t t' : elab_opt R A A' -> elab_opt R t t' -> elab_intro R (IDefinition A t) (IDefinition A' t')
| el_theorem A A' t t' : denotes R A A' -> denotes R t t' -> elab_intro R (ITheorem A t) (ITheorem A' t')
| el_declaration inj A A' : denotes R A A' -> elab_intro R (IDeclaration inj A) (IDeclaration inj A').
(** the variable after the variables of the rule stands for all jokers [_] *)
Inductive elab_rule (R : symb -> option nat) : prule_ (pterm atom) -> vrule -> Prop :=
| el_rule ctx ctx' lhs lhs' c ps rhs rhs' :
  Forall2 (elab_opt R) (map snd ctx) ctx' ->
  denotes R lhs lhs' -> pat_denotes (length ctx) (PatSymb c ps) lhs' ->
  denotes R rhs rhs' ->
  elab_rule R (MkPRule ctx lhs rhs) (VRule ctx' c ps rhs').

(** [elab_command ops n cmd v ops' n']: the command denotes [v], where [n] is the number of symbols
    introduced before it; a name may be introduced only once per module. *)
Inductive elab_command (ops : list symop) (n : nat) : pcommand (pterm symb) -> vcmd -> list symop -> nat -> Prop :=
| el_intro c x args it it' R :
  scope_command c = PIntro x args it -> meaning_in ops R -> elab_intro R (nest args it) it' ->
  unbound ops (cur_module ops) x ->
  elab_command ops n c (VIntro n it') (ops ++ [Insert x n]) (S n)
| el_rules c rules rules' R :
  scope_command c = PRules rules -> meaning_in ops R -> Forall2 (elab_rule R) rules rules' ->
  elab_command ops n c (VRules rules') ops n.

Inductive elab_commands : list symop -> nat -> list (pcommand (pterm symb)) -> list vcmd -> list symop -> nat -> Prop :=
| els_nil ops n : elab_commands ops n [] [] ops n
| els_cons ops n c v ops1 n1 cs vs ops2 n2 :
  elab_command ops n c v ops1 n1 -> elab_commands ops1 n1 cs vs ops2 n2 ->
  elab_commands ops n (c :: cs) (v :: vs) ops2 n2.

Inductive elab_sources : list symop -> nat -> list source -> list vcmd -> Prop :=
| elp_nil ops n : elab_sources ops n [] []
| elp_cons ops n m cs vs ops1 n1 srcs vs' :
  elab_commands (ops ++ [SetPath m]) n cs vs ops1 n1 -> elab_sources ops1 n1 srcs vs' ->
  elab_sources ops n ((m, cs) :: srcs) (vs ++ vs').
Definition elaborates (srcs : list source) (vs : list vcmd) : Prop := elab_sources [] 0 srcs vs.

(** ** Programs given by files *)

(** The text, read line by line, consists of these tokens. *)
Definition read_as (junk : str -> nat) (text : str) (toks : list token) : Prop :=
  exists lines, splits (unix text) lines /\ reads junk 0 lines toks.
(** The input (path and contents of a file) has the given module and commands. *)
Definition source_of (junk : str -> nat) (input : str * option str) (src : source) : Prop :=
  exists text toks, snd input = Some text /\ module_of (fst input) (fst src) /\ read_as junk text toks /\ gsource toks (snd src).

(** In the browser, modules are given by name and text. *)
Definition web_source (junk : str -> nat) (md : str * str) (src : source) : Prop :=
  fst src = [fst md] /\ gfile (lex junk (snd md)) (snd src).
