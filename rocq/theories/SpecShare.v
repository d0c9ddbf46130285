(** * Specification of sharing: what parsed terms and rules denote *)

From Verif Require Import Base ModelTerm ModelCommand ModelSyntax ModelSymbols ModelShare SpecTerm SpecConv Erase.

(** Constants of a term, from left to right. *)
Section Consts.
  Definition head_consts (consts : pterm atom -> list symb) (h : apph atom (pterm atom)) : list symb :=
    match h with
    | HAtom (AConst c) => [c]
    | HAtom _ => []
    | HAbst _ (Some ty) tm => consts ty ++ consts tm
    | HAbst _ None tm => consts tm
    | HProd _ ty tm => consts ty ++ consts tm
    end.
  Fixpoint consts (t : pterm atom) : list symb :=
    let '(PTm h args) := t in head_consts consts h ++ flat_map consts args.
End Consts.
Definition opt_consts (o : option (pterm atom)) : list symb := match o with Some t => consts t | None => [] end.
Definition intro_consts (it : intro_ (pterm atom) (pterm atom)) : list symb :=
  match it with
  | IDefinition ty tm => opt_consts ty ++ opt_consts tm
  | ITheorem ty tm => consts ty ++ consts tm
  | IDeclaration _ ty => consts ty
  end.
Definition rule_consts (r : prule_ (pterm atom)) : list symb :=
  flat_map (fun x => opt_consts (snd x)) (pr_ctx r) ++ consts (pr_lhs r) ++ consts (pr_rhs r).
Definition command_consts (cmd : scoped) : list symb :=
  match cmd with
  | PIntro _ args it => flat_map (fun x => consts (snd x)) args ++ intro_consts it
  | PRules rules => flat_map rule_consts rules
  end.

(** Names of the binders of a term, from left to right; an anonymous product binds "$". *)
Section Binders.
  Definition head_binders (binders : pterm atom -> list str) (h : apph atom (pterm atom)) : list str :=
    match h with
    | HAtom _ => []
    | HAbst x oty tm => x :: (match oty with Some ty => binders ty | None => [] end) ++ binders tm
    | HProd ox ty tm => (match ox with Some x => x | None => $"$" end) :: binders ty ++ binders tm
    end.
  Fixpoint binders (t : pterm atom) : list str :=
    let '(PTm h args) := t in head_binders binders h ++ flat_map binders args.
End Binders.
Fixpoint lbinders (t : lterm) : list str :=
  match t with
  | LType | LConst _ | LVar _ => []
  | LComb (Appl h args) => lbinders h ++ flat_map lbinders args
  | LComb (Prod x a b) => x :: lbinders a ++ lbinders b
  | LComb (Abst x oa b) => x :: (match oa with Some a => lbinders a | None => [] end) ++ lbinders b
  end.

(** The term that a parsed term denotes, if [R] says which symbol a constant denotes. *)
Section Denotes.
  Variable R : symb -> option nat.
  Inductive denotes : pterm atom -> tm -> Prop :=
  | den_app h args t ts :
    den_head h t -> Forall2 denotes args ts -> denotes (PTm h args) (apps t ts)
  with den_head : apph atom (pterm atom) -> tm -> Prop :=
  | den_const s c : R s = Some c -> den_head (HAtom (AConst s)) (Const c)
  | den_var v : den_head (HAtom (AVar v)) (Var v)
  | den_type : den_head (HAtom AType) Typ
  | den_prod x a b a' b' : denotes a a' -> denotes b b' -> den_head (HProd x a b) (Pi a' b')
  | den_lam x a b a' b' : denotes a a' -> denotes b b' -> den_head (HAbst x (Some a) b) (Lam a' b')
  | den_ulam x b b' : denotes b b' -> den_head (HAbst x None b) (ULam b').
End Denotes.

(** The term that a pattern denotes, if variable [joker] stands for all jokers. *)
Inductive pat_denotes (joker : nat) : pat -> tm -> Prop :=
| pden_symb c ps ts : Forall2 (pat_denotes joker) ps ts -> pat_denotes joker (PatSymb c ps) (apps (Const c) ts)
| pden_var m : m <> joker -> pat_denotes joker (PatVar m) (Var m)
| pden_joker : pat_denotes joker PatJoker (Var joker).

(** All free variables of a term are smaller than [k]. *)
Fixpoint vars_below (k : nat) (t : tm) : Prop :=
  match t with
  | Kind | Typ | Const _ => True
  | Var n => n < k
  | App t u => vars_below k t /\ vars_below k u
  | Lam a t => vars_below k a /\ vars_below (S k) t
  | ULam t => vars_below (S k) t
  | Pi a b => vars_below k a /\ vars_below (S k) b
  end.

(** Parameters as products and abstractions. *)
Fixpoint nest_prods (args : list (str * pterm atom)) (t : pterm atom) : pterm atom :=
  match args with [] => t | (x, a) :: args => PTm (HProd (Some x) a (nest_prods args t)) [] end.
Fixpoint nest_absts (args : list (str * pterm atom)) (t : pterm atom) : pterm atom :=
  match args with [] => t | (x, a) :: args => PTm (HAbst x (Some a) (nest_absts args t)) [] end.
Definition nest (args : list (str * pterm atom)) (it : intro_ (pterm atom) (pterm atom)) : intro_ (pterm atom) (pterm atom) :=
  match it with
  | IDefinition ty tm => IDefinition (option_map (nest_prods args) ty) (option_map (nest_absts args) tm)
  | ITheorem ty tm => ITheorem (nest_prods args ty) (nest_absts args tm)
  | IDeclaration inj ty => IDeclaration inj (nest_prods args ty)
  end.

(** ** Sharing with a symbol table *)
Section Resolve.
  Variable syms : symbols.

  (** the symbol that a constant denotes (C24) *)
  Definition resolve (s : symb) : option sym := symbols_get syms (sy_path s) (sy_name s).
  (** the error for the first constant that denotes no symbol *)
  Definition first_unresolved (l : list symb) (e : share_error) : Prop :=
    exists pre s post, l = pre ++ s :: post /\ Forall (fun s => resolve s <> None) pre /\ resolve s = None /\
      e = UndeclaredSymbol (symb_show s).

  Definition den_opt (o : option (pterm atom)) (o' : option lterm) : Prop :=
    match o, o' with Some t, Some u => denotes resolve t (erl u) | None, None => True | _, _ => False end.
  Definition den_intro (it : intro_ (pterm atom) (pterm atom)) (it' : intro) : Prop :=
    match it, it' with
    | IDefinition ty tm, IDefinition ty' tm' => den_opt ty ty' /\ den_opt tm tm'
    | ITheorem ty tm, ITheorem ty' tm' => denotes resolve ty (erl ty') /\ denotes resolve tm (erl tm')
    | IDeclaration inj ty, IDeclaration inj' ty' => inj = inj' /\ denotes resolve ty (erl ty')
    | _, _ => False
    end.
End Resolve.
