(** * Specification of what evaluation may do to the heap: work that has been done is kept *)

From Verif Require Import Base ModelTerm ModelSubst.

(** A state that is not evaluated may be evaluated; everything else stays as it is. *)
Inductive later : cell -> cell -> Prop :=
| later_same c : later c c
| later_state st st' : later (CState st false false) (CState st' true false)
| later_thunk l t : later (CThunk (TTodo l)) (CThunk (TDone t)).

(** All locations of the first heap exist in the second one. *)
Definition keeps (h h' : list cell) : Prop := forall l c, nth_error h l = Some c -> exists c', nth_error h' l = Some c' /\ later c c'.

(** The state or the term at a location has been evaluated. *)
Definition state_done (h : list cell) (l : loc) : Prop := exists st, nth_error h l = Some (CState st true false).
Definition term_done (h : list cell) (l : loc) (t : sterm) : Prop := nth_error h l = Some (CThunk (TDone t)).
(** The state at a location is being evaluated, or the term. *)
Definition state_busy (h : list cell) (l : loc) : Prop := exists st w, nth_error h l = Some (CState st w true).
Definition term_busy (h : list cell) (l : loc) : Prop := nth_error h l = Some (CThunk TBusy).

(** Number of symbols, variables, binders and applications of a term *)
Fixpoint lsize (t : lterm) : nat :=
  match t with
  | LComb (Appl h args) => 1 + lsize h + fold_right (fun a n => lsize a + n) 0 args
  | LComb (Prod _ a b) => 1 + lsize a + lsize b
  | LComb (Abst _ (Some a) b) => 1 + lsize a + lsize b
  | LComb (Abst _ None b) => 1 + lsize b
  | _ => 1
  end.
