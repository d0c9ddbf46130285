(** * Specification: variables that occur in a term *)

From Verif Require Import Base SpecTerm.

(** A variable from [k] on occurs in the term. *)
Inductive mentions : nat -> tm -> Prop :=
| mentions_var k n : k <= n -> mentions k (Var n)
| mentions_fun k t u : mentions k t -> mentions k (App t u)
| mentions_arg k t u : mentions k u -> mentions k (App t u)
| mentions_domain k a t : mentions k a -> mentions k (Lam a t)
| mentions_body k a t : mentions (S k) t -> mentions k (Lam a t)
| mentions_ubody k t : mentions (S k) t -> mentions k (ULam t)
| mentions_left k a b : mentions k a -> mentions k (Pi a b)
| mentions_right k a b : mentions (S k) b -> mentions k (Pi a b).
