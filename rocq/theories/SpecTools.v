(** * Specification of counting and inlining *)

From Verif Require Import Base ModelCommand ModelSyntax SpecSyntax SpecShare SpecProgram ModelTools.

(** ** Counting *)

(** number of occurrences in a list *)
Definition occurrences (s : symb) (l : list symb) : nat := count_occ symb_eq_dec l s.
(** the constants in declarations, definitions and theorems, but not those in rules *)
Definition intro_uses (cmds : list scoped) : list symb :=
  flat_map (fun c => match c with PIntro _ _ _ => command_consts c | PRules _ => [] end) cmds.
(** all constants *)
Definition all_uses (cmds : list scoped) : list symb := flat_map command_consts cmds.
Definition introduces {Tm} (c : pcommand Tm) (x : str) : Prop := exists args it, c = PIntro x args it.

(** ** Inlining *)

(** [expand m t t']: [t'] is [t] where every symbol with a definition in [m] is replaced by it. *)
Inductive expand (m : smap (pterm symb)) : pterm symb -> pterm symb -> Prop :=
| ex_symb a args args' : m a = None -> Forall2 (expand m) args args' -> expand m (PTm (HAtom a) args) (PTm (HAtom a) args')
| ex_def a h l args args' : m a = Some (PTm h l) -> Forall2 (expand m) args args' -> expand m (PTm (HAtom a) args) (PTm h (l ++ args'))
| ex_abst x t t' args args' : expand m t t' -> Forall2 (expand m) args args' -> expand m (PTm (HAbst x None t) args) (PTm (HAbst x None t') args')
| ex_abst_ty x ty ty' t t' args args' : expand m ty ty' -> expand m t t' -> Forall2 (expand m) args args' ->
  expand m (PTm (HAbst x (Some ty) t) args) (PTm (HAbst x (Some ty') t') args')
| ex_prod x ty ty' t t' args args' : expand m ty ty' -> expand m t t' -> Forall2 (expand m) args args' ->
  expand m (PTm (HProd x ty t) args) (PTm (HProd x ty' t') args').
Inductive expand_opt (m : smap (pterm symb)) : option (pterm symb) -> option (pterm symb) -> Prop :=
| ex_none : expand_opt m None None
| ex_some t t' : expand m t t' -> expand_opt m (Some t) (Some t').
Inductive expand_intro (m : smap (pterm symb)) : intro_ (pterm symb) (pterm symb) -> intro_ (pterm symb) (pterm symb) -> Prop :=
| ex_definition ty ty' t t' : expand_opt m ty ty' -> expand_opt m t t' -> expand_intro m (IDefinition ty t) (IDefinition ty' t')
| ex_theorem ty ty' t t' : expand m ty ty' -> expand m t t' -> expand_intro m (ITheorem ty t) (ITheorem ty' t')
| ex_declaration inj ty ty' : expand m ty ty' -> expand_intro m (IDeclaration inj ty) (IDeclaration inj ty').
Definition expand_arg (m : smap (pterm symb)) (a a' : str * pterm symb) : Prop := fst a' = fst a /\ expand m (snd a) (snd a').

(** a definition or theorem without parameters, with the term [t] *)
Inductive defines (x : str) : pcommand (pterm symb) -> pterm symb -> Prop :=
| df_definition ty t : defines x (PIntro x [] (IDefinition ty (Some t))) t
| df_theorem ty t : defines x (PIntro x [] (ITheorem ty t)) t.
(** The definitions of listed symbols are removed, and used in all commands after them, except for rules. *)
Inductive inlined (listed : str -> bool) : smap (pterm symb) -> list (pcommand (pterm symb)) -> list (pcommand (pterm symb)) -> Prop :=
| il_nil m : inlined listed m [] []
| il_remove m x c t t' cmds out : listed x = true -> defines x c t -> expand m t t' ->
  inlined listed (sm_set m (symb_new x) (Some t')) cmds out -> inlined listed m (c :: cmds) out
| il_keep m x args args' it it' cmds out : (forall t, listed x = true -> ~ defines x (PIntro x args it) t) ->
  Forall2 (expand_arg m) args args' -> expand_intro m it it' ->
  inlined listed m cmds out -> inlined listed m (PIntro x args it :: cmds) (PIntro x args' it' :: out)
| il_rules m rs cmds out : inlined listed m cmds out -> inlined listed m (PRules rs :: cmds) (PRules rs :: out).

(** the symbols of a term, including those that are bound variables *)
Fixpoint leaves (t : pterm symb) : list symb :=
  let '(PTm h args) := t in
  match h with
  | HAtom a => [a]
  | HAbst _ None t => leaves t
  | HAbst _ (Some ty) t | HProd _ ty t => leaves ty ++ leaves t
  end ++ flat_map leaves args.
Definition opt_leaves (t : option (pterm symb)) : list symb := match t with Some t => leaves t | None => [] end.
Definition intro_leaves (it : intro_ (pterm symb) (pterm symb)) : list symb :=
  match it with IDefinition ty t => opt_leaves ty ++ opt_leaves t | ITheorem ty t => leaves ty ++ leaves t | IDeclaration _ ty => leaves ty end.
Definition cmd_leaves (c : pcommand (pterm symb)) : list symb :=
  match c with
  | PIntro x args it => flat_map (fun a => leaves (snd a)) args ++ intro_leaves it
  | PRules _ => []
  end.
(** Every listed definition is used at most once in the commands after it, not counting rules. *)
Definition at_most_once (listed : str -> bool) (cmds : list (pcommand (pterm symb))) : Prop :=
  forall pre c x t post, cmds = pre ++ c :: post -> listed x = true -> defines x c t -> occurrences (symb_new x) (flat_map cmd_leaves post) <= 1.

(** the names bound in a term or a command, except for rules *)
Fixpoint bound_names (t : pterm symb) : list str :=
  let '(PTm h args) := t in
  match h with
  | HAtom a => []
  | HAbst x ty t => x :: (match ty with Some ty => bound_names ty | None => [] end) ++ bound_names t
  | HProd ox ty t => (match ox with Some x => [x] | None => [] end) ++ bound_names ty ++ bound_names t
  end ++ flat_map bound_names args.
Definition opt_bound (t : option (pterm symb)) : list str := match t with Some t => bound_names t | None => [] end.
Definition cmd_bound (c : pcommand (pterm symb)) : list str :=
  match c with
  | PIntro x args it => map fst args ++ flat_map (fun a => bound_names (snd a)) args ++
    match it with IDefinition ty t => opt_bound ty ++ opt_bound t | ITheorem ty t => bound_names ty ++ bound_names t | IDeclaration _ ty => bound_names ty end
  | PRules _ => []
  end.
