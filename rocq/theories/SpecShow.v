(** * Specification of what is printed

    A text shows the tree of a term: its constants by their names, its variables by their indices and the names of binders.
    It does not show how the term is stored, and applications without arguments.
    The same holds for patterns. *)

From Verif Require Import Base ModelTerm SpecSyntax.

Inductive tree : Type :=
| NKind
| NType
| NVar (n : nat)
| NConst (c : str)
| NMeta (n : nat)
| NJoker
| NApp (h : tree) (args : list tree)
| NProd (x : str) (a b : tree)
| NAbst (x : str) (a : option tree) (b : tree).

Section Tree.
  Variable name : sym -> str.
  Definition comb_tree {T} (f : T -> tree) (c : comb T) : tree :=
    match c with
    | Appl h [] => f h
    | Appl h args => NApp (f h) (map f args)
    | Prod x a b => NProd x (f a) (f b)
    | Abst x a b => NAbst x (option_map f a) (f b)
    end.
  Fixpoint ltree (t : lterm) : tree :=
    match t with
    | LType => NType
    | LConst c => NConst (name c)
    | LVar n => NVar n
    | LComb c => comb_tree ltree c
    end.
  Fixpoint stree (t : sterm) : tree :=
    match t with
    | SKind => NKind
    | SType => NType
    | SConst c => NConst (name c)
    | SVar n => NVar n
    | SLComb c => comb_tree ltree c
    | SSComb c => comb_tree stree c
    end.
  Definition app_tree (h : sym) (args : list tree) : tree :=
    match args with [] => NConst (name h) | _ :: _ => NApp (NConst (name h)) args end.
  Fixpoint ptree (p : pattern) : tree :=
    match p with
    | PSymb c ps => app_tree c (map ptree ps)
    | PMVar m => NMeta m
    | PJoker => NJoker
    end.
End Tree.

(** The variables from [k] on are increased by [m]. *)
Fixpoint lifted (m k : nat) (t : tree) : tree :=
  match t with
  | NVar n => NVar (if k <=? n then n + m else n)
  | NApp h args => NApp (lifted m k h) (map (lifted m k) args)
  | NProd x a b => NProd x (lifted m k a) (lifted m (S k) b)
  | NAbst x a b => NAbst x (option_map (lifted m k) a) (lifted m (S k) b)
  | t => t
  end.

(** The names in a tree can be written in a file ([$] is given to arrows),
    and no constant has the name of a sort or joker. *)
Definition plain_name (c : str) : Prop := valid_part c /\ ~ In c [$"Type"; $"Kind"; $"_"].
Definition binder (x : str) : Prop := valid_part x \/ x = $"$".
Fixpoint plain (t : tree) : Prop :=
  match t with
  | NConst c => plain_name c
  | NApp h args => plain h /\ fold_right (fun t P => plain t /\ P) True args
  | NProd x a b => binder x /\ plain a /\ plain b
  | NAbst x a b => binder x /\ match a with Some a => plain a | None => True end /\ plain b
  | _ => True
  end.

Definition toptree (name : sym -> str) (p : toppat) : tree := ptree name (PSymb (tp_symbol p) (tp_args p)).
