(** * Specification of the order of commands (C83) *)

From Verif Require Import Base ModelCommand SpecTerm SpecProcess SpecEmbed.

(** The symbol [c] occurs in the term, ... *)
Fixpoint occurs (c : nat) (t : tm) : Prop :=
  match t with
  | Const d => d = c
  | App t u | Lam t u | Pi t u => occurs c t \/ occurs c u
  | ULam t => occurs c t
  | Kind | Typ | Var _ => False
  end.
(** ... in the type or in the term of an introduction. *)
Definition occurs_opt (c : nat) (t : option tm) : Prop := match t with Some t => occurs c t | None => False end.
Definition occurs_intro (c : nat) (it : intro_ tm tm) : Prop :=
  match it with
  | IDefinition ty t => occurs_opt c ty \/ occurs_opt c t
  | ITheorem ty t => occurs c ty \/ occurs c t
  | IDeclaration _ ty => occurs c ty
  end.

(** [c] and [d] exchanged *)
Definition exchange (c d e : nat) : nat := if e =? c then d else if e =? d then c else e.

(** Two introductions that follow each other are exchanged; the second one does not refer to the first one.
    Symbols are numbered in the order in which they are introduced, so their numbers are exchanged, too. *)
Inductive exchanged : list vcmd -> list vcmd -> Prop :=
| ex_here A c it d jt B : ~ occurs_intro c jt -> exchanged (A ++ VIntro c it :: VIntro d jt :: B) (map (cm_vcmd (exchange c d)) (A ++ VIntro d jt :: VIntro c it :: B)).
