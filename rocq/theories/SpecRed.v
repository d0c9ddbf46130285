(** * Specification of reduction

    Conversion ignores the domains of abstractions, so reduction is defined on terms without them. *)

From Coq Require Import List Arith Lia Bool.
From Verif Require Import SpecTerm SpecConv SpecWhnf.
Import ListNotations.

(** [strip t] is [t] without the domains of its abstractions. *)
Fixpoint strip (t : tm) : tm :=
  match t with
  | App t u => App (strip t) (strip u)
  | Lam _ t => ULam (strip t)
  | ULam t => ULam (strip t)
  | Pi a b => Pi (strip a) (strip b)
  | t => t
  end.

(** One step: beta or a rewrite rule, anywhere in a term. *)
Section Red.
  Variable sg : sig.
  Inductive red : tm -> tm -> Prop :=
  | red_beta t u : red (App (ULam t) u) (subst1 u t)
  | red_rule c rs r s ts :
    sg_rules sg c = Some rs -> In r rs -> usable r -> Forall2 (inst s) (sr_args r) ts ->
    red (apps (Const c) ts) (sub s (strip (sr_rhs r)))
  | red_appl t t' u : red t t' -> red (App t u) (App t' u)
  | red_appr t u u' : red u u' -> red (App t u) (App t u')
  | red_ulam t t' : red t t' -> red (ULam t) (ULam t')
  | red_lama a a' t : red a a' -> red (Lam a t) (Lam a' t)
  | red_lamb a t t' : red t t' -> red (Lam a t) (Lam a t')
  | red_pil a a' b : red a a' -> red (Pi a b) (Pi a' b)
  | red_pir a b b' : red b b' -> red (Pi a b) (Pi a b').

  Inductive reds : tm -> tm -> Prop :=
  | reds_refl t : reds t t
  | reds_step t u v : red t u -> reds u v -> reds t v.
End Red.

(** An eta step, anywhere in a term *)
Inductive eta_red : tm -> tm -> Prop :=
| er_eta t : eta_red (ULam (App (lift 1 t) (Var 0))) t
| er_appl t t' u : eta_red t t' -> eta_red (App t u) (App t' u)
| er_appr t u u' : eta_red u u' -> eta_red (App t u) (App t u')
| er_ulam t t' : eta_red t t' -> eta_red (ULam t) (ULam t')
| er_lama a a' t : eta_red a a' -> eta_red (Lam a t) (Lam a' t)
| er_lamb a t t' : eta_red t t' -> eta_red (Lam a t) (Lam a t')
| er_pil a a' b : eta_red a a' -> eta_red (Pi a b) (Pi a' b)
| er_pir a b b' : eta_red b b' -> eta_red (Pi a b) (Pi a b').

(** Sequences of steps, with eta steps if eta is enabled *)
Inductive redxs (sg : sig) : tm -> tm -> Prop :=
| rx_refl t : redxs sg t t
| rx_red t u v : red sg t u -> redxs sg u v -> redxs sg t v
| rx_eta t u v : sg_eta sg = true -> eta_red t u -> redxs sg u v -> redxs sg t v.

(** Convertible terms have a common reduct. *)
Definition church_rosser (sg : sig) : Prop :=
  forall t u, conv sg t u -> exists v, redxs sg (strip t) v /\ redxs sg (strip u) v.

(** ** Orthogonal rules *)

(** [q] occurs in [p]. *)
Inductive subpat (q : pat) : pat -> Prop :=
| subpat_refl : subpat q q
| subpat_arg c ps p : In p ps -> subpat q p -> subpat q (PatSymb c ps).

(** No list of terms is an instance of both [ps] and a prefix of [qs]. *)
Definition disjoint (qs ps : list pat) : Prop :=
  length ps <= length qs ->
  forall s1 s2 ts, Forall2 (inst s1) (firstn (length ps) qs) ts -> Forall2 (inst s2) ps ts -> False.

(** All free variables of [t] are smaller than [k]. *)
Fixpoint scoped (k : nat) (t : tm) : Prop :=
  match t with
  | Kind | Typ | Const _ => True
  | Var n => n < k
  | App t u => scoped k t /\ scoped k u
  | Lam a t => scoped k a /\ scoped (S k) t
  | ULam t => scoped (S k) t
  | Pi a b => scoped k a /\ scoped (S k) b
  end.

(** [rule_of sg c r]: [r] is a usable rule for [c]. *)
Definition rule_of (sg : sig) (c : nat) (r : srule) : Prop :=
  exists rs, sg_rules sg c = Some rs /\ In r rs /\ usable r.

(** Where both rules apply, they give the same result. *)
Definition same_results (r1 r2 : srule) : Prop :=
  length (sr_args r1) = length (sr_args r2) /\
  forall s1 s2 ts, Forall2 (inst s1) (sr_args r1) ts -> Forall2 (inst s2) (sr_args r2) ts ->
    sub s1 (strip (sr_rhs r1)) = sub s2 (strip (sr_rhs r2)).

(** Every variable of a rule occurs once on its left-hand side, its right-hand side has no other
    variables, no left-hand side overlaps with a proper subterm of a left-hand side,
    and where the left-hand sides of distinct rules overlap, the rules give the same result.
    (Rules with this last property are called weakly orthogonal.) *)
Definition orthogonal (sg : sig) : Prop :=
  forall c1 r1, rule_of sg c1 r1 ->
    linear r1 /\ scoped (sr_vars r1) (sr_rhs r1) /\
    forall c2 r2, rule_of sg c2 r2 ->
      (forall p qs, In p (sr_args r1) -> subpat (PatSymb c2 qs) p -> disjoint qs (sr_args r2)) /\
      (c1 = c2 -> r1 <> r2 -> disjoint (sr_args r1) (sr_args r2) \/ same_results r1 r2).

(** Variables of rules occur once on the left-hand side, and right-hand sides have no other variables.
    All rules that are not orthogonal follow from those that are. *)
Definition complete (sg : sig) : Prop :=
  (forall c r, rule_of sg c r -> linear r /\ scoped (sr_vars r) (sr_rhs r)) /\
  exists core, sg_eta core = sg_eta sg /\ orthogonal core /\ (forall c r, rule_of core c r -> rule_of sg c r) /\
    forall c r, rule_of sg c r -> rule_of core c r \/
      forall s ts, Forall2 (inst s) (sr_args r) ts -> conv core (apps (Const c) ts) (sub s (sr_rhs r)).

(** If eta is enabled, the rules are definitions: they have no arguments, and they are orthogonal. *)
Definition eta_safe (sg : sig) : Prop :=
  sg_eta sg = true -> orthogonal sg /\ forall c r, rule_of sg c r -> sr_args r = [].

(** ** Head normal forms *)
Fixpoint head (t : tm) : tm := match t with App t _ => head t | _ => t end.
Fixpoint nargs (t : tm) : nat := match t with App t _ => S (nargs t) | _ => 0 end.
(** The heads of both terms are the same up to what is inside products and abstractions. *)
Definition same_head (t u : tm) : Prop :=
  match head t, head u with
  | Pi _ _, Pi _ _ => True
  | ULam _, ULam _ => True
  | h, k => h = k
  end.
(** [t] is not a beta redex, and no sequence of steps inside [t] changes its head or its number of
    arguments. *)
Definition head_normal (sg : sig) (t : tm) : Prop :=
  (forall b, head (strip t) = ULam b -> nargs t = 0) /\
  forall v, reds sg (strip t) v -> same_head (strip t) v /\ nargs v = nargs t.
