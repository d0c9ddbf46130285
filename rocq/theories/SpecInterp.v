(** * Specification of interpretations: closed terms instead of symbols (C84) *)

From Verif Require Import Base ModelCommand SpecTerm SpecConv SpecRed SpecProcess SpecDerive.

(** The term with [s c] instead of [c]; the terms [s c] have no free variables. *)
Fixpoint put (s : nat -> tm) (t : tm) : tm :=
  match t with
  | Const c => s c
  | App t u => App (put s t) (put s u)
  | Lam a t => Lam (put s a) (put s t)
  | ULam t => ULam (put s t)
  | Pi a b => Pi (put s a) (put s b)
  | Kind | Typ | Var _ => t
  end.
Definition put_intro (s : nat -> tm) (it : intro_ tm tm) : intro_ tm tm := map_type (put s) (map_term (put s) it).
(** Every [s c] has no free variables, and has domains at abstractions whose type is not known otherwise. *)
Definition closed_terms (s : nat -> tm) : Prop := forall c, scoped 0 (s c) /\ annotations true (s c).

(** the introduction of a symbol with the term [t], ... *)
Inductive has_term : intro_ tm tm -> tm -> Prop :=
| ht_definition A t : has_term (IDefinition A (Some t)) t
| ht_theorem A t : has_term (ITheorem A t) t.
(** ... of a symbol with the type [A], ... *)
Inductive states : intro_ tm tm -> tm -> Prop :=
| st_declaration rw A : states (IDeclaration rw A) A
| st_definition A t : states (IDefinition (Some A) t) A
| st_theorem A t : states (ITheorem A t) A.
(** ... and of a symbol with the type [A] that does not compute *)
Inductive opaque : intro_ tm tm -> tm -> Prop :=
| op_declaration rw A : opaque (IDeclaration rw A) A
| op_later A : opaque (IDefinition (Some A) None) A
| op_theorem A t : opaque (ITheorem A t) A.

(** The second program results from the first one by putting [s c] for [c].  A symbol is introduced again, perhaps with another number;
    or it is replaced by its term; or, if it does not compute, by a symbol of the same type in the program [Q]. *)
Inductive interprets (s : nat -> tm) (Q : list vcmd) : list vcmd -> list vcmd -> Prop :=
| in_nil : interprets s Q [] []
| in_keep c d it vs vs' : s c = Const d -> interprets s Q vs vs' -> interprets s Q (VIntro c it :: vs) (VIntro d (put_intro s it) :: vs')
| in_unfold c it t vs vs' : has_term it t -> s c = put s t -> interprets s Q vs vs' -> interprets s Q (VIntro c it :: vs) vs'
| in_given c it A d it' vs vs' : opaque it A -> s c = Const d -> In (VIntro d it') Q -> states it' (put s A) -> interprets s Q vs vs' -> interprets s Q (VIntro c it :: vs) vs'.
