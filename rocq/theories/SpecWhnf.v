(** * Specification of weak head normal forms *)

From Coq Require Import List.
From Verif Require Import SpecTerm SpecConv.
Import ListNotations.

(** Every variable occurs at most once in the left-hand side. *)
Definition linear (r : srule) : Prop := NoDup (flat_map pat_vars (sr_args r)).

(** The rule literally applies to [c us]: some prefix of [us] is an instance of its patterns. *)
Definition applies (r : srule) (us : list tm) : Prop :=
  exists s vs ws, us = vs ++ ws /\ Forall2 (inst s) (sr_args r) vs.

(** No reduction at the head.  (Applications of sorts and products are ill-typed, but stuck.) *)
Inductive whnf_form (sg : sig) : tm -> Prop :=
| wf_kind us : whnf_form sg (apps Kind us)
| wf_type us : whnf_form sg (apps Typ us)
| wf_pi a b us : whnf_form sg (apps (Pi a b) us)
| wf_var n us : whnf_form sg (apps (Var n) us)
| wf_lam a b : whnf_form sg (Lam a b)
| wf_ulam b : whnf_form sg (ULam b)
| wf_const c us :
  (forall rs r, sg_rules sg c = Some rs -> In r rs -> usable r -> linear r -> ~ applies r us) ->
  whnf_form sg (apps (Const c) us).
