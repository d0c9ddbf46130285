(** * Specification of signatures with structurally recursive functions *)

From Coq Require Import List Arith.
From Verif Require Import SpecTerm SpecConv SpecRed SpecSN SpecType SpecProcess SpecDomain.
Import ListNotations.

(** ** What accepted programs add to a signature *)

(** Both sides of a rule have a common type in a context of types. *)
Definition common_type (sg : sig) (c : nat) (r : srule) : Prop :=
  Forall no_joker (sr_args r) /\
  exists D l A, length D = sr_vars r /\ type_ctx sg D /\ inst Var (PatSymb c (sr_args r)) l /\
    well_typed sg D l A /\ well_typed sg D (strip (sr_rhs r)) A.
(** This holds with variables in place of jokers. *)
Definition typed_rule (sg : sig) (c : nat) (r : srule) : Prop := exists r', named r r' /\ common_type sg c r'.
Definition srule_of (v : vrule) : srule := MkSRule (length (v_ctx v)) (v_args v) (v_rhs v).

(** Symbols get ascending numbers.  The type of a symbol is a type or kind with respect to the symbols before it,
    and so is its definition, if any, a term of its type.  Rules with arguments may be added at any point. *)
Inductive built : sig -> Prop :=
| bt_empty sg : (forall c, sg_type sg c = None) -> (forall c, sg_rules sg c = None) -> sg_eta sg = false -> built sg
| bt_declare sg c A rs sg' s :
  built sg -> (forall d, sg_type sg d <> None -> d < c) ->
  A <> Kind -> s = Typ \/ s = Kind -> well_typed sg [] (strip A) s ->
  rs = None \/ rs = Some [] -> extends sg c A rs sg' -> built sg'
| bt_define sg c A t sg' s :
  built sg -> (forall d, sg_type sg d <> None -> d < c) ->
  A <> Kind -> s = Typ \/ s = Kind -> well_typed sg [] (strip A) s ->
  scoped 0 t -> well_typed sg [] (strip t) (strip A) -> extends sg c A (Some [MkSRule 0 [] t]) sg' -> built sg'
| bt_rules sg rs sg' :
  built sg -> Forall (fun v => v_args v <> [] /\ typed_rule sg (v_head v) (srule_of v)) rs -> extends_rules sg rs sg' -> built sg'.

(** ** Structural recursion *)
Definition no_rule (sg : sig) (c : nat) : Prop := forall r, ~ rule_of sg c r.
(** a term whose head is a symbol without rules *)
Definition base (sg : sig) (t : tm) : Prop := exists c, head t = Const c /\ no_rule sg c.
(** products of such terms *)
Inductive first_order (sg : sig) : tm -> Prop :=
| fo_base t : base sg t -> first_order sg t
| fo_pi A B : base sg A -> first_order sg B -> first_order sg (Pi A B).
Fixpoint target (t : tm) : tm := match t with Pi _ B => target B | _ => t end.

(** Patterns of variables, jokers, and symbols without rules, the arguments of which are of base type *)
Inductive data (sg : sig) : pat -> Prop :=
| data_var m : data sg (PatVar m)
| data_joker : data sg PatJoker
| data_symb c A ps : no_rule sg c -> sg_type sg c = Some A -> first_order sg (strip A) -> Forall (data sg) ps -> data sg (PatSymb c ps).
(** [u] is a part of the [k]-th pattern, and not all of it. *)
Definition inner (ps : list pat) (k : nat) (u : tm) : Prop :=
  exists c qs q p, nth_error ps k = Some (PatSymb c qs) /\ In q qs /\ subpat p q /\ no_joker p /\ inst Var p u.

(** The symbols of a term are smaller than [f], except for calls of [f] whose [k]-th argument is in [X]. *)
Definition under (X : tm -> Prop) (u : tm) : Prop := exists v, u = lift 1 v /\ X v.
Inductive guarded (f k : nat) : (tm -> Prop) -> tm -> Prop :=
| gd_kind X : guarded f k X Kind
| gd_typ X : guarded f k X Typ
| gd_const X c : c < f -> guarded f k X (Const c)
| gd_var X n : guarded f k X (Var n)
| gd_app X t u : guarded f k X t -> guarded f k X u -> guarded f k X (App t u)
| gd_ulam X t : guarded f k (under X) t -> guarded f k X (ULam t)
| gd_pi X A B : guarded f k X A -> guarded f k (under X) B -> guarded f k X (Pi A B)
| gd_call X t u : partial f k X k t -> guarded f k X u -> X u -> guarded f k X (App t u)
(** [f] applied to a number of such terms *)
with partial (f k : nat) : (tm -> Prop) -> nat -> tm -> Prop :=
| pt_nil X : partial f k X 0 (Const f)
| pt_app X j t u : partial f k X j t -> guarded f k X u -> partial f k X (S j) (App t u).

(** A rule for [f] with [n] patterns of data as arguments, whose right-hand side calls [f] for parts of its [k]-th argument only *)
Definition structural_rule (sg : sig) (f n k : nat) (r : srule) : Prop :=
  (exists A, sg_type sg f = Some A /\ base sg (target (strip A))) /\
  length (sr_args r) = n /\ Forall (data sg) (sr_args r) /\ guarded f k (inner (sr_args r) k) (strip (sr_rhs r)).
(** The rules are linear and overlap only if that does not matter.  The rules of a symbol have no arguments, or else a number of arguments,
    and one of them by which the symbol is defined recursively. *)
Definition structural (sg : sig) : Prop :=
  left_linear sg /\ complete sg /\ exists n k : nat -> nat, forall c,
    (forall r, rule_of sg c r -> sr_args r = []) \/ forall r, rule_of sg c r -> structural_rule sg c (n c) (k c) r.
