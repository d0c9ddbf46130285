(** * Specification of signatures with recursive functions over inductive types

    In contrast to [structural], functions may return types, and symbols in patterns may have functions as arguments. *)

From Coq Require Import List Arith.
From Verif Require Import SpecTerm SpecConv SpecRed SpecSN SpecType SpecDomain SpecRec.
Import ListNotations.

Section Inductive_types.
  Variable sg : sig.
  (** the symbols of flat types *)
  Variable fl : nat -> bool.
  (** for every argument of a symbol in patterns: [None] if it is of flat type, or else the number of its arguments *)
  Variable rank : nat -> list (option nat).

  (** a term whose head is a symbol without rules *)
  Definition base_of (b : bool) (t : tm) : Prop := exists c, head t = Const c /\ no_rule sg c /\ fl c = b.
  (** functions with [m] arguments of flat types that return elements of inductive types *)
  Fixpoint fun_type (m : nat) (A : tm) : Prop :=
    match m, A with
    | 0, _ => base_of false A
    | S m, Pi Z B => base_of true Z /\ fun_type m B
    | _, _ => False
    end.
  (** the types of symbols in patterns; those of flat types have arguments of flat types only *)
  Inductive cons_type : bool -> list (option nat) -> tm -> Prop :=
  | ct_base b t : base_of b t -> cons_type b [] t
  | ct_flat b l A B : base_of true A -> cons_type b l B -> cons_type b (None :: l) (Pi A B)
  | ct_rec m l A B : fun_type m A -> cons_type false l B -> cons_type false (Some m :: l) (Pi A B).
  Definition constructor (c : nat) : Prop := no_rule sg c /\ exists A b, sg_type sg c = Some A /\ cons_type b (rank c) (strip A).

  (** patterns of variables, jokers, and constructors with all their arguments *)
  Inductive idata : pat -> Prop :=
  | id_var m : idata (PatVar m)
  | id_joker : idata PatJoker
  | id_symb c ps : constructor c -> length ps = length (rank c) -> Forall idata ps -> idata (PatSymb c ps).

  (** [x] stands for a part of the pattern, a function with [m] arguments that returns elements of an inductive type. *)
  Inductive below_at : pat -> nat -> nat -> Prop :=
  | ba_here c ps i x m : nth_error (rank c) i = Some (Some m) -> nth_error ps i = Some (PatVar x) -> below_at (PatSymb c ps) x m
  | ba_there c ps i q x m : nth_error (rank c) i = Some (Some 0) -> nth_error ps i = Some q -> below_at q x m -> below_at (PatSymb c ps) x m.
  (** The function may be called for [x] applied to [m] arguments. *)
  Definition calls (deep : bool) (ps : list pat) (k x m : nat) : Prop :=
    exists c qs, nth_error ps k = Some (PatSymb c qs) /\ if deep then below_at (PatSymb c qs) x m else In x (flat_map pat_vars qs) /\ m = 0.
  (** the type of the [k]-th argument *)
  Fixpoint dom (k : nat) (A : tm) : option tm :=
    match A with
    | Pi B C => match k with 0 => Some B | S k => dom k C end
    | _ => None
    end.

  (** Terms without beta redexes, whose symbols are smaller than [f], except for calls of [f]
      whose [k]-th argument is a variable applied to a number of arguments as given by [X] *)
  Definition shifted (X : nat -> nat -> Prop) (n m : nat) : Prop := match n with 0 => False | S n => X n m end.
  Inductive rhs_ok (f k : nat) : (nat -> nat -> Prop) -> tm -> Prop :=
  | ro_typ X : rhs_ok f k X Typ
  | ro_ulam X t : rhs_ok f k (shifted X) t -> rhs_ok f k X (ULam t)
  | ro_pi X A B : rhs_ok f k X A -> rhs_ok f k (shifted X) B -> rhs_ok f k X (Pi A B)
  | ro_ne X t : rhs_ne f k X t -> rhs_ok f k X t
  with rhs_ne (f k : nat) : (nat -> nat -> Prop) -> tm -> Prop :=
  | rn_const X c : c < f -> rhs_ne f k X (Const c)
  | rn_var X n : rhs_ne f k X (Var n)
  | rn_app X t u : rhs_ne f k X t -> rhs_ok f k X u -> rhs_ne f k X (App t u)
  | rn_call X t x us : rhs_part f k X k t -> rhs_ne f k X (apps (Var x) us) -> X x (length us) -> rhs_ne f k X (App t (apps (Var x) us))
  (** [f] applied to a number of such terms *)
  with rhs_part (f k : nat) : (nat -> nat -> Prop) -> nat -> tm -> Prop :=
  | rp_nil X : rhs_part f k X 0 (Const f)
  | rp_app X j t u : rhs_part f k X j t -> rhs_ok f k X u -> rhs_part f k X (S j) (App t u).

  (** A rule for [f] with [n] patterns, whose right-hand side calls [f] for parts of its [k]-th argument only.
      If [deep], the type of this argument is an inductive type. *)
  Definition inductive_rule (f n k : nat) (deep : bool) (r : srule) : Prop :=
    (deep = true -> exists A B, sg_type sg f = Some A /\ dom k (strip A) = Some B /\ base_of false B) /\
    length (sr_args r) = n /\ Forall idata (sr_args r) /\ rhs_ok f k (calls deep (sr_args r) k) (strip (sr_rhs r)).
End Inductive_types.

(** The rules are linear and overlap only if that does not matter.  The rules of a symbol have no arguments, or else a number of arguments,
    and one of them by which the symbol is defined recursively. *)
Definition inductive_sig (sg : sig) : Prop :=
  left_linear sg /\ complete sg /\
  exists fl rank, (forall c, rank c <> [] -> constructor sg fl rank c) /\
  exists (n k : nat -> nat) (deep : nat -> bool), forall c,
    (forall r, rule_of sg c r -> sr_args r = []) \/ forall r, rule_of sg c r -> inductive_rule sg fl rank c (n c) (k c) (deep c) r.
(** The recursive functions are of one of the two kinds. *)
Definition recursive_sig (sg : sig) : Prop := structural sg \/ inductive_sig sg.
