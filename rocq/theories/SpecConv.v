(** * Specification of conversion *)

From Coq Require Import List Arith Lia Bool.
From Verif Require Import SpecTerm.
Import ListNotations.

(** ** Signatures: types and rewrite rules of symbols *)

(** A first-order pattern: a symbol applied to patterns, a rule variable, or a joker [_]. *)
Inductive pat : Type :=
| PatSymb (c : nat) (args : list pat)
| PatVar (m : nat)
| PatJoker.

(** A rule [c p1 .. pn --> rhs] with [sr_vars] variables [0 .. sr_vars - 1]
    (bound in [rhs] as de Bruijn indices). *)
Record srule : Type := MkSRule { sr_vars : nat; sr_args : list pat; sr_rhs : tm }.

Record sig : Type := MkSig {
  sg_type : nat -> option tm;
  sg_rules : nat -> option (list srule);
  sg_eta : bool
}.

(** ** Instances of patterns *)
Inductive inst (s : nat -> tm) : pat -> tm -> Prop :=
| inst_var m : inst s (PatVar m) (s m)
| inst_joker t : inst s PatJoker t
| inst_symb c ps ts : Forall2 (inst s) ps ts -> inst s (PatSymb c ps) (apps (Const c) ts).

(** Occurrences of a rule variable in a pattern, from left to right. *)
Fixpoint pat_vars (p : pat) : list nat :=
  match p with
  | PatSymb _ ps => flat_map pat_vars ps
  | PatVar m => [m]
  | PatJoker => []
  end.

(** A rule is usable if exactly its declared variables occur in its left-hand side. *)
Definition usable (r : srule) : Prop :=
  forall m, m < sr_vars r <-> In m (flat_map pat_vars (sr_args r)).

(** ** Conversion: the least congruence containing beta, the rules,
    irrelevance of domain annotations, and eta if enabled *)
Section Conv.
  Variable sg : sig.

  Inductive conv : tm -> tm -> Prop :=
  | conv_refl t : conv t t
  | conv_sym t u : conv t u -> conv u t
  | conv_trans t u v : conv t u -> conv u v -> conv t v
  | conv_app t t' u u' : conv t t' -> conv u u' -> conv (App t u) (App t' u')
  | conv_ulam t t' : conv t t' -> conv (ULam t) (ULam t')
  | conv_pi a a' b b' : conv a a' -> conv b b' -> conv (Pi a b) (Pi a' b')
  | conv_annot a t : conv (Lam a t) (ULam t)
  | conv_beta t u : conv (App (ULam t) u) (subst1 u t)
  | conv_rule c rs r s ts :
    sg_rules sg c = Some rs -> In r rs -> usable r ->
    Forall2 (inst s) (sr_args r) ts ->
    conv (apps (Const c) ts) (sub s (sr_rhs r))
  | conv_eta t : sg_eta sg = true -> conv t (ULam (App (lift 1 t) (Var 0))).
End Conv.

(** The same without eta: the least congruence containing beta, the rules,
    and irrelevance of domain annotations. *)
Section ConvNoEta.
  Variable sg : sig.
  Inductive conv_no_eta : tm -> tm -> Prop :=
  | cne_refl t : conv_no_eta t t
  | cne_sym t u : conv_no_eta t u -> conv_no_eta u t
  | cne_trans t u v : conv_no_eta t u -> conv_no_eta u v -> conv_no_eta t v
  | cne_app t t' u u' : conv_no_eta t t' -> conv_no_eta u u' -> conv_no_eta (App t u) (App t' u')
  | cne_ulam t t' : conv_no_eta t t' -> conv_no_eta (ULam t) (ULam t')
  | cne_pi a a' b b' : conv_no_eta a a' -> conv_no_eta b b' -> conv_no_eta (Pi a b) (Pi a' b')
  | cne_annot a t : conv_no_eta (Lam a t) (ULam t)
  | cne_beta t u : conv_no_eta (App (ULam t) u) (subst1 u t)
  | cne_rule c rs r s ts :
    sg_rules sg c = Some rs -> In r rs -> usable r ->
    Forall2 (inst s) (sr_args r) ts ->
    conv_no_eta (apps (Const c) ts) (sub s (sr_rhs r)).
End ConvNoEta.
