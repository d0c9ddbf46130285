(** * Specification of programs in another order (C85) *)

From Coq Require Import Sorting.Permutation.
From Verif Require Import Base ModelCommand SpecTerm SpecProcess SpecEmbed.

(** The second program consists of the commands of the first one, in any order.
    Symbols are numbered in the order in which they are introduced, so symbol [c] of the first program is symbol [f c] of the second one. *)
Definition reordered (vs vs' : list vcmd) : Prop := exists f, injective f /\ Permutation (map (cm_vcmd f) vs) vs'.
