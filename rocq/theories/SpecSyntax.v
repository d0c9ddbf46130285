(** * Specification of concrete syntax: names, grammar, scoping

    Independent of the parser: names that can be written, a grammar that derives
    terms and commands from token sequences, and scoping by environments. *)

From Verif Require Import Base ModelSyntax ModelCommand ModelLex.

(** ** Names *)

(** the characters an identifier can start with, and those that can follow *)
Definition name_chars : str := $"abcdefghijklmnopqrstuvwxyzABCDEFGHIJKLMNOPQRSTUVWXYZ0123456789_!?".
Definition more_chars : str := $"'" ++ name_chars.
(** an identifier *)
Definition is_ident (p : str) : Prop :=
  exists c t, p = c :: t /\ In c name_chars /\ Forall (fun d => In d more_chars) t.
(** a name between moustaches: [{|...|}] *)
Definition is_moustache (p : str) : Prop :=
  exists inner, p = $"{|" ++ inner ++ $"|}" /\ ~ exists a b, inner = a ++ $"|}" ++ b.
Definition valid_part (p : str) : Prop := is_ident p \/ is_moustache p.
(** a name that can stand at the beginning of a symbol *)
Definition valid_name (p : str) : Prop :=
  valid_part p /\ ~ In p [$"def"; $"thm"; $"injective"].
(** a symbol [p1.….pn.name] *)
Definition valid_symb (s : symb) : Prop :=
  match sy_path s with
  | [] => valid_name (sy_name s)
  | p :: ps => valid_name p /\ Forall valid_part ps /\ valid_part (sy_name s)
  end.

(** ** Terms and commands with valid names *)

Fixpoint good_term (t : pterm symb) : Prop :=
  let '(PTm h args) := t in
  (match h with
   | HAtom s => valid_symb s
   | HAbst x ty tm => valid_name x /\ match ty with Some ty => good_term ty | None => True end /\ good_term tm
   | HProd x ty tm => match x with Some x => valid_name x | None => True end /\ good_term ty /\ good_term tm
   end) /\
  (fix all args := match args with [] => True | a :: args => good_term a /\ all args end) args.

Definition good_opt (t : option (pterm symb)) : Prop := match t with Some t => good_term t | None => True end.
Definition good_arg (a : str * pterm symb) : Prop := valid_name (fst a) /\ good_term (snd a).
Definition good_var (v : str * option (pterm symb)) : Prop := valid_name (fst v) /\ good_opt (snd v).
Definition good_rule (r : prule_ (pterm symb)) : Prop :=
  Forall good_var (pr_ctx r) /\ good_term (pr_lhs r) /\ good_term (pr_rhs r).
(** a definition has a type or a term *)
Definition good_intro (it : intro_ (pterm symb) (pterm symb)) : Prop :=
  match it with
  | IDefinition ty t => good_opt ty /\ good_opt t /\ (ty <> None \/ t <> None)
  | ITheorem ty t => good_term ty /\ good_term t
  | IDeclaration _ ty => good_term ty
  end.
Definition good_command (c : pcommand (pterm symb)) : Prop :=
  match c with
  | PIntro x args it => valid_name x /\ Forall good_arg args /\ good_intro it
  | PRules rules => rules <> [] /\ Forall good_rule rules
  end.

(** ** Grammar of terms

    [gterm ts t]: the tokens [ts] form the term [t], where
    - term ::= app | x => term | x : app => term | x : app -> term | app -> term
    - app  ::= atom | app atom
    - atom ::= symbol | ( term )

    The application of [f a] to [b] is the same as [f] applied to [a] and [b]. *)
Definition name_tok (x : str) : token := TSymb (symb_new x).
Definition gpush (t u : pterm symb) : pterm symb := let '(PTm h args) := t in PTm h (args ++ [u]).

Inductive gterm : list token -> pterm symb -> Prop :=
| g_app ts t : gapp ts t -> gterm ts t
| g_abs x ts t : gterm ts t -> gterm (name_tok x :: TFatArrow :: ts) (PTm (HAbst x None t) [])
| g_abs_of x ts1 ty ts t : gapp ts1 ty -> gterm ts t ->
    gterm (name_tok x :: TColon :: ts1 ++ TFatArrow :: ts) (PTm (HAbst x (Some ty) t) [])
| g_prod_of x ts1 ty ts t : gapp ts1 ty -> gterm ts t ->
    gterm (name_tok x :: TColon :: ts1 ++ TArrow :: ts) (PTm (HProd (Some x) ty t) [])
| g_prod ts1 ty ts t : gapp ts1 ty -> gterm ts t ->
    gterm (ts1 ++ TArrow :: ts) (PTm (HProd None ty t) [])
with gapp : list token -> pterm symb -> Prop :=
| ga_one ts t : gatom ts t -> gapp ts t
| ga_more ts1 t ts2 u : gapp ts1 t -> gatom ts2 u -> gapp (ts1 ++ ts2) (gpush t u)
with gatom : list token -> pterm symb -> Prop :=
| gat_symb s : gatom [TSymb s] (PTm (HAtom s) [])
| gat_par ts t : gterm ts t -> gatom (TLPar :: ts ++ [TRPar]) t.

Scheme gterm_mind := Minimality for gterm Sort Prop
  with gapp_mind := Minimality for gapp Sort Prop
  with gatom_mind := Minimality for gatom Sort Prop.
Combined Scheme gsyn_mind from gterm_mind, gapp_mind, gatom_mind.

(** ** Grammar of commands *)

(** parameters [(x : A) (y : B)] *)
Inductive gargs : list token -> list (str * pterm symb) -> Prop :=
| gargs_nil : gargs [] []
| gargs_cons x ts ty ts' args : gterm ts ty -> gargs ts' args ->
    gargs (TLPar :: name_tok x :: TColon :: ts ++ TRPar :: ts') ((x, ty) :: args).

(** a variable of a rule: [x] or [x : A] *)
Inductive gvar : list token -> str * option (pterm symb) -> Prop :=
| gvar_untyped x : gvar [name_tok x] (x, None)
| gvar_typed x ts ty : gterm ts ty -> gvar (name_tok x :: TColon :: ts) (x, Some ty).

(** variables of a rule up to the closing bracket; a comma may follow the last one *)
Inductive gvars : list token -> list (str * option (pterm symb)) -> Prop :=
| gvars_nil : gvars [TRBrk] []
| gvars_last ts v : gvar ts v -> gvars (ts ++ [TRBrk]) [v]
| gvars_more ts v ts' vs : gvar ts v -> gvars ts' vs -> gvars (ts ++ TComma :: ts') (v :: vs).

(** one or more rules [[x, y : A] l --> r] up to the final dot *)
Inductive grules : list token -> list (prule_ (pterm symb)) -> Prop :=
| grules_last vts vs lts l rts r : gvars vts vs -> gterm lts l -> gterm rts r ->
    grules (TLBrk :: vts ++ lts ++ TLongArrow :: rts ++ [TDot]) [MkPRule vs l r]
| grules_more vts vs lts l rts r ts rules : gvars vts vs -> gterm lts l -> gterm rts r -> grules ts rules ->
    grules (TLBrk :: vts ++ lts ++ TLongArrow :: rts ++ ts) (MkPRule vs l r :: rules).

(** what follows name and parameters of an introduction, including the final dot *)
Inductive gintro : list token -> list token -> intro_ (pterm symb) (pterm symb) -> Prop :=
| gi_decl ts ty : gterm ts ty -> gintro [] (TColon :: ts ++ [TDot]) (IDeclaration false ty)
| gi_inj ts ty : gterm ts ty -> gintro [TInj] (TColon :: ts ++ [TDot]) (IDeclaration true ty)
| gi_def_of ts ty : gterm ts ty -> gintro [TDef] (TColon :: ts ++ [TDot]) (IDefinition (Some ty) None)
| gi_def_eq ts t : gterm ts t -> gintro [TDef] (TColonEq :: ts ++ [TDot]) (IDefinition None (Some t))
| gi_def ts1 ty ts t : gterm ts1 ty -> gterm ts t ->
    gintro [TDef] (TColon :: ts1 ++ TColonEq :: ts ++ [TDot]) (IDefinition (Some ty) (Some t))
| gi_thm ts1 ty ts t : gterm ts1 ty -> gterm ts t ->
    gintro [TThm] (TColon :: ts1 ++ TColonEq :: ts ++ [TDot]) (ITheorem ty t).

Inductive gcommand : list token -> pcommand (pterm symb) -> Prop :=
| gc_intro pre x ats args ts it : gintro pre ts it -> gargs ats args ->
    gcommand (pre ++ name_tok x :: ats ++ ts) (PIntro x args it)
| gc_rules ts rules : grules ts rules -> gcommand ts (PRules rules).

(** pragmas [# ... .] before a command are ignored *)
Inductive gpragmas : list token -> Prop :=
| gp_nil : gpragmas []
| gp_cons ts ts' : Forall (fun t => t <> TDot /\ forall n, t <> TComment n) ts -> gpragmas ts' ->
    gpragmas (THash :: ts ++ TDot :: ts').

(** a sequence of commands *)
Inductive gfile : list token -> list (pcommand (pterm symb)) -> Prop :=
| gf_nil : gfile [] []
| gf_cons ps ts c ts' cs : gpragmas ps -> gcommand ts c -> gfile ts' cs -> gfile (ps ++ ts ++ ts') (c :: cs).

(** ** Scoping

    The environment lists the names of the binders around a term, innermost first; a non-dependent
    product binds a name that cannot be referred to. *)
Definition env := list (option str).

Fixpoint index_of (x : str) (e : env) : option nat :=
  match e with
  | [] => None
  | o :: e =>
      match o with
      | Some y => if str_eqb y x then Some 0 else option_map S (index_of x e)
      | None => option_map S (index_of x e)
      end
  end.

Definition scope_of (e : env) (s : symb) : atom :=
  match sy_path s with
  | [] =>
      match index_of (sy_name s) e with
      | Some i => AVar i
      | None => if str_eqb (sy_name s) ($"Type") then AType else AConst s
      end
  | _ :: _ => AConst s
  end.

Fixpoint scope_term (e : env) (t : pterm symb) : pterm atom :=
  let '(PTm h args) := t in
  PTm (match h with
       | HAtom s => HAtom (scope_of e s)
       | HAbst x ty t => HAbst x (option_map (scope_term e) ty) (scope_term (Some x :: e) t)
       | HProd x ty t => HProd x (scope_term e ty) (scope_term (x :: e) t)
       end) (map (scope_term e) args).

(** parameters: the type of each is in the scope of the previous ones *)
Fixpoint scope_args (e : env) (args : list (str * pterm symb)) : list (str * pterm atom) * env :=
  match args with
  | [] => ([], e)
  | (x, ty) :: args =>
      let '(args', e') := scope_args (Some x :: e) args in
      ((x, scope_term e ty) :: args', e')
  end.
Fixpoint scope_vars (e : env) (vars : list (str * option (pterm symb))) : list (str * option (pterm atom)) * env :=
  match vars with
  | [] => ([], e)
  | (x, ty) :: vars =>
      let '(vars', e') := scope_vars (Some x :: e) vars in
      ((x, option_map (scope_term e) ty) :: vars', e')
  end.

(** in a left-hand side, [_] is bound outside of the variables *)
Definition scope_rule (r : prule_ (pterm symb)) : prule_ (pterm atom) :=
  let '(vars, e) := scope_vars [] (pr_ctx r) in
  MkPRule vars (scope_term (e ++ [Some ($"_")]) (pr_lhs r)) (scope_term e (pr_rhs r)).

Definition scope_intro (e : env) (it : intro_ (pterm symb) (pterm symb)) : intro_ (pterm atom) (pterm atom) :=
  match it with
  | IDefinition ty t => IDefinition (option_map (scope_term e) ty) (option_map (scope_term e) t)
  | ITheorem ty t => ITheorem (scope_term e ty) (scope_term e t)
  | IDeclaration inj ty => IDeclaration inj (scope_term e ty)
  end.

Definition scope_command (c : pcommand (pterm symb)) : scoped :=
  match c with
  | PIntro x args it => let '(args, e) := scope_args [] args in PIntro x args (scope_intro e it)
  | PRules rules => PRules (map scope_rule rules)
  end.
