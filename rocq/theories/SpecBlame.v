(** * Specification of errors: which command is at fault, and why (C86) *)

From Verif Require Import Base ModelTerm ModelGctx ModelCommand ModelSyntax ModelSymbols ModelShare ModelParse ModelProcess
  SpecTerm SpecConv SpecSyntax SpecSymbols SpecShare SpecProcess SpecMake SpecProgram SpecWhole SpecFault.

(** The introductions of a list of commands, numbered from [n] *)
Fixpoint inserts (n : nat) (cs : list (pcommand (pterm symb))) : list symop :=
  match cs with
  | [] => []
  | PIntro x _ _ :: cs => Insert x n :: inserts (S n) cs
  | PRules _ :: cs => inserts n cs
  end.
(** The modules and the introductions of a program, numbered from [n] *)
Fixpoint history (n : nat) (srcs : list source) : list symop :=
  match srcs with
  | [] => []
  | (m, cs) :: srcs => SetPath m :: inserts n cs ++ history (n + length (inserts n cs)) srcs
  end.
(** the number of introductions *)
Definition symbols_in (srcs : list source) : nat := length (flat_map (fun src : source => inserts 0 (snd src)) srcs).

(** The command comes after the given history with [n] symbols, with the given signature. *)
Section Fault.
  Variables (sg : sig) (ops : list symop) (n : nat) (c : pcommand (pterm symb)).
  Inductive at_fault : ko_error -> Prop :=
  (** It contains a name that denotes no symbol. *)
  | ft_unknown s : In s (command_consts (scope_command c)) -> unresolved ops (sy_path s) (sy_name s) -> at_fault (KoShare (UndeclaredSymbol (symb_show s)))
  (** It contains a rule whose left-hand side is not a symbol applied to patterns. *)
  | ft_lhs rules r R lhs e : scope_command c = PRules rules -> In r rules -> meaning_in ops R -> denotes R (pr_lhs r) lhs ->
    (forall d ps, ~ pat_denotes (length (pr_ctx r)) (PatSymb d ps) lhs) -> e = NoPrepattern \/ e = NoTopPattern -> at_fault (KoShare e)
  (** It introduces a name that already exists in the module. *)
  | ft_twice x args it d : scope_command c = PIntro x args it -> bound ops (cur_module ops) x d -> at_fault (KoSymbols Reinsertion)
  (** It contains a rule for a symbol without rules. *)
  | ft_static rules r : elab_command ops n c (VRules rules) ops n -> In r rules -> sg_rules sg (match r with VRule _ d _ _ => d end) = None -> at_fault (KoGCtx NonRewritable)
  (** It is not well-typed (SpecFault.v). *)
  | ft_typing v ops' n' e : elab_command ops n c v ops' n' -> command_fault sg v e -> at_fault (KoTyping e).
End Fault.

(** The command that is reported: before it, there are the files [before] and the commands [cs] in the file with module [m]. *)
Record blamed := Blamed { bl_before : list source; bl_module : list str; bl_cs : list (pcommand (pterm symb)); bl_cmd : pcommand (pterm symb);
  bl_rest : list (pcommand (pterm symb)); bl_after : list source }.
Definition bl_all (b : blamed) : list source := bl_before b ++ (bl_module b, bl_cs b ++ bl_cmd b :: bl_rest b) :: bl_after b.
(** the program before the command, and including the command *)
Definition bl_earlier (b : blamed) : list source := bl_before b ++ [(bl_module b, bl_cs b)].
Definition bl_including (b : blamed) : list source := bl_before b ++ [(bl_module b, bl_cs b ++ [bl_cmd b])].

(** Names are resolved before the kernel looks at a command. *)
Definition kernel_error (e : ko_error) : Prop := match e with KoTyping _ | KoGCtx _ => True | _ => False end.

(** The error belongs to a command such that all commands before it are well-typed; the command is at fault.
    It has been passed to the kernel iff its names could be resolved.
    Without rewrite rules, it is the first command that is not typable. *)
Definition reports (eta : bool) (srcs : list source) (e : perr parse_error) : Prop :=
  exists b e' vs sg, e = PKo e' /\ srcs = bl_all b /\ elaborates (bl_earlier b) vs /\ verified_all (empty_sig eta) vs sg /\
    at_fault sg (history 0 (bl_earlier b)) (symbols_in (bl_earlier b)) (bl_cmd b) e' /\ ((exists vs', elaborates (bl_including b) vs') <-> kernel_error e') /\
    (without_rules srcs -> typable_sources eta (bl_earlier b) /\ ~ typable_sources eta (bl_including b)).

(** ** Files at fault *)
(** what an error says about the file for which it is reported *)
Definition file_fault (junk : str -> nat) (path : str) (contents : option str) (e : perr parse_error) : Prop :=
  match e with
  (** The path does not belong to a module. *)
  | PModule => forall m, ~ module_of path m
  (** The file cannot be opened. *)
  | PIo => (exists m, module_of path m) /\ contents = None
  (** The text does not consist of commands. *)
  | PParse _ => exists text, (exists m, module_of path m) /\ contents = Some text /\ forall toks cs, read_as junk text toks -> ~ gsource toks cs
  | PKo _ => (exists m, module_of path m) /\ contents <> None
  end.
