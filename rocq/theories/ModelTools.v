(** * Model of the tools in [dedukti-parse/examples]: [symcount.rs] and [inline.rs]

    Hash maps are functions from keys to optional values; the order in which [symcount] prints its lines
    is not modelled. *)

From Verif Require Import Base ModelCommand ModelSyntax ModelLex ModelParse ModelMake ModelFmt.

(** dedukti-parse/src/symb.rs:7 [PartialEq], [Eq] and [Hash] of [Symb] are derived. *)
Definition symb_eq_dec (a b : symb) : {a = b} + {a <> b}.
Proof. decide equality; [apply str_eq_dec|apply (list_eq_dec str_eq_dec)]. Defined.
Definition smap (V : Type) : Type := symb -> option V.
Definition sm_empty {V} : smap V := fun _ => None.
Definition sm_set {V} (m : smap V) (k : symb) (v : option V) : smap V := fun k' => if symb_eq_dec k' k then v else m k'.

(** ** [symcount.rs] *)

(** symcount.rs:7-15 [atoms] *)
Fixpoint atoms {A} (t : pterm A) : list A :=
  let '(PTm h args) := t in
  match h with
  | HAtom a => [a]
  | HAbst _ ty tm => (match ty with Some ty => atoms ty | None => [] end) ++ atoms tm
  | HProd _ ty tm => atoms ty ++ atoms tm
  end ++ flat_map atoms args.
(** symcount.rs:17-21 [insert] *)
Definition count_atom (m : smap nat) (a : atom) : smap nat :=
  match a with
  | AConst c => sm_set m c (Some (S (match m c with Some n => n | None => 0 end)))
  | _ => m
  end.
(** symcount.rs:28 [f] *)
Definition count_term (m : smap nat) (t : pterm atom) : smap nat := fold_left count_atom (atoms t) m.
Definition count_opt (m : smap nat) (t : option (pterm atom)) : smap nat := match t with Some t => count_term m t | None => m end.
(** symcount.rs:39-50: the body of the loop; commands for rules are skipped. *)
Definition count_command (m : smap nat) (cmd : scoped) : smap nat :=
  match cmd with
  | PIntro x args it =>
    let m := sm_set m (symb_new x) (Some 0) in
    let m := fold_left (fun m a => count_term m (snd a)) args m in
    match it with
    | IDefinition ty tm => count_opt (count_opt m ty) tm
    | ITheorem ty tm => count_term (count_term m ty) tm
    | IDeclaration _ ty => count_term m ty
    end
  | PRules _ => m
  end.
(** symcount.rs:34-51 for a file that can be parsed; otherwise [cmd.unwrap()] panics. *)
Definition symcount (cmds : list scoped) : smap nat := fold_left count_command cmds sm_empty.

(** ** [inline.rs]

    The strict parser is used with symbols as atoms, that is, bound variables are not recognised (inline.rs:42 and 50). *)
Notation defs := (smap (pterm symb)).

(** inline.rs:5-26 [map_atoms] with the function of inline.rs:28-39 [subst]: a symbol in the map is replaced by
    its definition, which is removed from the map. The arguments are processed before the head. *)
Fixpoint subst (m : defs) (t : pterm symb) : pterm symb * defs :=
  let '(PTm h args) := t in
  let '(args, m) := (fix go (m : defs) (args : list (pterm symb)) : list (pterm symb) * defs :=
    match args with
    | [] => ([], m)
    | a :: args => let '(a, m) := subst m a in let '(args, m) := go m args in (a :: args, m)
    end) m args in
  match h with
  | HAtom a =>
    match m a with
    | None => (PTm (HAtom a) args, m)
    | Some (PTm h' args') => (PTm h' (args' ++ args), sm_set m a None)
    end
  | HAbst x None tm => let '(tm, m) := subst m tm in (PTm (HAbst x None tm) args, m)
  | HAbst x (Some ty) tm => let '(ty, m) := subst m ty in let '(tm, m) := subst m tm in (PTm (HAbst x (Some ty) tm) args, m)
  | HProd x ty tm => let '(ty, m) := subst m ty in let '(tm, m) := subst m tm in (PTm (HProd x ty tm) args, m)
  end.
Definition subst_opt (m : defs) (t : option (pterm symb)) : option (pterm symb) * defs :=
  match t with
  | Some t => let '(t, m) := subst m t in (Some t, m)
  | None => (None, m)
  end.
(** inline.rs:62-65 *)
Fixpoint subst_args (m : defs) (args : list (str * pterm symb)) : list (str * pterm symb) * defs :=
  match args with
  | [] => ([], m)
  | (x, t) :: args => let '(t, m) := subst m t in let '(args, m) := subst_args m args in ((x, t) :: args, m)
  end.
(** inline.rs:66-68: first types, then terms *)
Definition subst_intro (m : defs) (it : intro_ (pterm symb) (pterm symb)) : intro_ (pterm symb) (pterm symb) * defs :=
  match it with
  | IDefinition ty tm => let '(ty, m) := subst_opt m ty in let '(tm, m) := subst_opt m tm in (IDefinition ty tm, m)
  | ITheorem ty tm => let '(ty, m) := subst m ty in let '(tm, m) := subst m tm in (ITheorem ty tm, m)
  | IDeclaration inj ty => let '(ty, m) := subst m ty in (IDeclaration inj ty, m)
  end.
(** inline.rs:54-58: the term of a definition or theorem without parameters *)
Definition body (args : list (str * pterm symb)) (it : intro_ (pterm symb) (pterm symb)) : option (pterm symb) :=
  match args, it with
  | [], IDefinition _ (Some tm) | [], ITheorem _ tm => Some tm
  | _, _ => None
  end.
(** inline.rs:53-73: the body of the loop; returns the command that is printed, if any. *)
Definition inline_command (listed : str -> bool) (m : defs) (cmd : pcommand (pterm symb)) : option (pcommand (pterm symb)) * defs :=
  match cmd with
  | PIntro x args it =>
    match (if listed x then body args it else None) with
    | Some tm => let '(tm, m) := subst m tm in (None, sm_set m (symb_new x) (Some tm))
    | None => let '(args, m) := subst_args m args in let '(it, m) := subst_intro m it in (Some (PIntro x args it), m)
    end
  | PRules rs => (Some (PRules rs), m)
  end.
Fixpoint inline_ (listed : str -> bool) (m : defs) (cmds : list (pcommand (pterm symb))) : list (pcommand (pterm symb)) :=
  match cmds with
  | [] => []
  | cmd :: cmds =>
    let '(out, m) := inline_command listed m cmd in
    match out with Some cmd => [cmd] | None => [] end ++ inline_ listed m cmds
  end.
(** inline.rs:41-77 for a file that can be parsed; [listed] says whether a name is a line of the second file. *)
Definition inline (listed : str -> bool) (cmds : list (pcommand (pterm symb))) : list (pcommand (pterm symb)) :=
  inline_ listed sm_empty cmds.
(** inline.rs:69 and 72: a dot and a newline after each command *)
Definition inline_text (cmds : list (pcommand (pterm symb))) : str :=
  flat_map (fun c => cmd_show (term_show symb_show) c ++ ["."%char; "010"%char]) cmds.

(** dedukti-parse/examples/README.md:17-19: the names of the lines of [symcount] that begin with a 1 and no further digit *)
Definition used_once (m : smap nat) (x : str) : bool := match m (symb_new x) with Some 1 => true | _ => false end.

(** ** The programs *)

(** [cmd.unwrap()] in symcount.rs:36 and inline.rs:52: all commands of a parser; there is no result when the parser fails,
    because the program then panics. *)
Inductive unwrapped {S I E} (next : S -> res E (option I) * S) : S -> list I -> Prop :=
| uw_end s : fst (next s) = Ok None -> unwrapped next s []
| uw_cons s i s' l : next s = (Ok (Some i), s') -> unwrapped next s' l -> unwrapped next s (i :: l).
(** symcount.rs:23-57: the file is parsed line by line. *)
Definition symcount_file (junk : str -> nat) (text : str) (counts : smap nat) : Prop :=
  exists cmds, unwrapped (lazy_next scope_atom junk) (lazy_new (text_lines text)) cmds /\ counts = symcount cmds.
(** inline.rs:41-77: the file is parsed as a whole. [listed]: the lines of the other file *)
Definition inline_file (junk : str -> nat) (listed : str -> bool) (text out : str) : Prop :=
  exists cmds, unwrapped (strict_next scope_symb) (strict_new junk text) cmds /\ out = inline_text (inline listed cmds).
(** README.md:15-24: both programs after each other *)
Definition pipeline (junk : str -> nat) (text out : str) : Prop :=
  exists counts, symcount_file junk text counts /\ inline_file junk (used_once counts) text out.
