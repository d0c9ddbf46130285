(** * Specification of models: types as propositions in Kripke models of intuitionistic logic

    A type stands for a proposition: a product for an implication, and a symbol for a propositional variable, whatever
    its arguments are.  A model has worlds with a relation [le] (what is known in a world is known in later ones), and
    says which symbols hold in which worlds. *)

From Coq Require Import List.
From Verif Require Import Base ModelCommand SpecTerm SpecConv SpecProcess.
Import ListNotations.

Section Model.
  Variables (W : Type) (le : W -> W -> Prop) (v : nat -> W -> Prop).

  Definition kripke : Prop :=
    (forall w, le w w) /\ (forall w1 w2 w3, le w1 w2 -> le w2 w3 -> le w1 w3) /\ forall c w w', le w w' -> v c w -> v c w'.

  Fixpoint holds (t : tm) (w : W) : Prop :=
    match t with
    | Kind | Typ | Var _ => True
    | Const c => v c w
    | App t _ | Lam _ t | ULam t => holds t w
    | Pi a b => forall w', le w w' -> holds a w' -> holds b w'
    end.
  Definition valid (t : tm) : Prop := forall w, holds t w.

  (** The declared types hold, and both sides of definitions and of rewrite rules are equivalent.  Theorems are not considered. *)
  Definition models (cmd : vcmd) : Prop :=
    match cmd with
    | VIntro _ (IDeclaration _ A) | VIntro _ (IDefinition (Some A) None) => valid A
    | VIntro c (IDefinition _ (Some t)) => forall w, v c w <-> holds t w
    | VIntro _ (IDefinition None None) | VIntro _ (ITheorem _ _) => True
    | VRules rs => forall r, In r rs -> forall w, v (v_head r) w <-> holds (v_rhs r) w
    end.
End Model.

(** The command gives a term of type [A]. *)
Inductive proves : vcmd -> tm -> Prop :=
| pr_theorem c A t : proves (VIntro c (ITheorem A t)) A
| pr_definition c A t : proves (VIntro c (IDefinition (Some A) (Some t))) A.

(** commands that assume something: the symbol and its type *)
Inductive assumes : vcmd -> nat -> tm -> Prop :=
| as_declaration c rw A : assumes (VIntro c (IDeclaration rw A)) c A
| as_definition c A : assumes (VIntro c (IDefinition (Some A) None)) c A.

(** commands that define a symbol by a term *)
Inductive defines : vcmd -> nat -> Prop :=
| de_definition c A t : defines (VIntro c (IDefinition A (Some t))) c.

(** the symbol at the end of a type, or of the body of a function *)
Fixpoint tip (t : tm) : option nat :=
  match t with
  | Kind | Typ | Var _ => None
  | Const c => Some c
  | App t _ | Lam _ t | ULam t | Pi _ t => tip t
  end.
(** The symbol [c] is not at the end of a declared type, of a definition, or of the right-hand side of a rule, nor has it rules or a definition itself. *)
Definition avoids (c : nat) (cmd : vcmd) : Prop :=
  match cmd with
  | VIntro _ (IDeclaration _ A) | VIntro _ (IDefinition (Some A) None) => tip A <> Some c
  | VIntro d (IDefinition _ (Some t)) => d <> c /\ tip t <> Some c
  | VIntro _ (IDefinition None None) | VIntro _ (ITheorem _ _) => True
  | VRules rs => forall r, In r rs -> v_head r <> c /\ tip (v_rhs r) <> Some c
  end.

(** ((a -> b) -> a) -> a *)
Definition peirce (a b : nat) : tm := Pi (Pi (Pi (Const a) (Const b)) (Const a)) (Const a).
