(** * Specification of kernel errors: where a term is wrong, and why (C87)

    [inf_fault sg G t e]: there is no type of [t] to be found, because of [e];
    [chk_fault sg G t T e]: [t] cannot be compared with the type [T], because of [e];
    [chk_bad sg G t T]: [t] does not have the type [T].
    Each derivation ends at one place in the term; everything to the left of this place is well-typed. *)

From Verif Require Import Base ModelCommand ModelSubst SpecTerm SpecConv SpecRed SpecTyping SpecBidir SpecProcess.

(** The type is equal to a term that is no product.  For confluent rules without eta, it is equal to no product. *)
Definition no_product (sg : sig) (T : tm) : Prop :=
  (exists T', conv sg T T' /\ forall A B, T' <> Pi A B) /\
  (church_rosser sg -> sg_eta sg = false -> forall A B, ~ conv sg T (Pi A B)).
(** For confluent rules, the types are different. *)
Definition differ (sg : sig) (A B : tm) : Prop := A <> B /\ (church_rosser sg -> eta_safe sg -> ~ conv sg A B).
Definition abstraction (t : tm) : Prop := match t with Lam _ _ | ULam _ => True | _ => False end.

Inductive inf_fault (sg : sig) : list tm -> tm -> kerror -> Prop :=
| if_kind G : inf_fault sg G Kind KindNotTypable
| if_const G c : sg_type sg c = None -> inf_fault sg G (Const c) TypeNotFound
| if_var G n : nth_error G n = None -> inf_fault sg G (Var n) TypeNotFound
| if_domain_free G t : inf_fault sg G (ULam t) DomainFreeAbstraction
(** applications: the function, its type, or the argument *)
| if_fun G t u e : inf_fault sg G t e -> inf_fault sg G (App t u) e
| if_no_function G t u T : infers sg G t T -> no_product sg T -> inf_fault sg G (App t u) ProductExpected
| if_arg G t u T A B e : infers sg G t T -> conv sg T (Pi A B) -> chk_fault sg G u A e -> inf_fault sg G (App t u) e
| if_wrong_arg G t u T A B : infers sg G t T -> conv sg T (Pi A B) -> chk_bad sg G u A -> inf_fault sg G (App t u) Unconvertible
(** abstractions: the domain, its type, the body, or its type *)
| if_lam_dom G A t e : inf_fault sg G A e -> inf_fault sg G (Lam A t) e
| if_lam_type G A t K : infers sg G A K -> K <> Typ -> inf_fault sg G (Lam A t) BindNoType
| if_lam_body G A t e : infers sg G A Typ -> inf_fault sg (A :: G) t e -> inf_fault sg G (Lam A t) e
| if_lam_kind G A t : infers sg G A Typ -> infers sg (A :: G) t Kind -> inf_fault sg G (Lam A t) UnexpectedKind
(** products *)
| if_pi_dom G A B e : inf_fault sg G A e -> inf_fault sg G (Pi A B) e
| if_pi_type G A B K : infers sg G A K -> K <> Typ -> inf_fault sg G (Pi A B) BindNoType
| if_pi_body G A B e : infers sg G A Typ -> inf_fault sg (A :: G) B e -> inf_fault sg G (Pi A B) e
| if_pi_sort G A B s : infers sg G A Typ -> infers sg (A :: G) B s -> s <> Typ -> s <> Kind -> inf_fault sg G (Pi A B) SortExpected
with chk_fault (sg : sig) : list tm -> tm -> tm -> kerror -> Prop :=
| cf_no_function G t T : abstraction t -> no_product sg T -> chk_fault sg G t T ProductExpected
| cf_domain G A t T A' B e : conv sg T (Pi A' B) -> inf_fault sg G A e -> chk_fault sg G (Lam A t) T e
| cf_lam_body G A K t T A' B e : conv sg T (Pi A' B) -> infers sg G A K -> conv sg A A' -> chk_fault sg (A' :: G) t B e -> chk_fault sg G (Lam A t) T e
| cf_ulam_body G t T A B e : conv sg T (Pi A B) -> chk_fault sg (A :: G) t B e -> chk_fault sg G (ULam t) T e
| cf_infer G t T e : ~ abstraction t -> inf_fault sg G t e -> chk_fault sg G t T e
with chk_bad (sg : sig) : list tm -> tm -> tm -> Prop :=
| cb_domain G A K t T A' B : conv sg T (Pi A' B) -> infers sg G A K -> differ sg A A' -> chk_bad sg G (Lam A t) T
| cb_lam_body G A K t T A' B : conv sg T (Pi A' B) -> infers sg G A K -> conv sg A A' -> chk_bad sg (A' :: G) t B -> chk_bad sg G (Lam A t) T
| cb_ulam_body G t T A B : conv sg T (Pi A B) -> chk_bad sg (A :: G) t B -> chk_bad sg G (ULam t) T
| cb_type G t A T : ~ abstraction t -> infers sg G t A -> differ sg A T -> chk_bad sg G t T.

(** The term cannot be verified to have the type. *)
Definition refused (sg : sig) (G : list tm) (t T : tm) (e : kerror) : Prop :=
  chk_fault sg G t T e \/ (chk_bad sg G t T /\ e = Unconvertible).
(** The term is no type. *)
Definition no_type (sg : sig) (A : tm) (e : kerror) : Prop :=
  inf_fault sg [] A e \/ exists K, infers sg [] A K /\ K <> Typ /\ K <> Kind /\ e = SortExpected.

(** what is wrong with an introduction *)
Definition intro_fault (sg : sig) (it : intro_ tm tm) (e : kerror) : Prop :=
  match it with
  | IDeclaration _ A | IDefinition (Some A) None => no_type sg A e
  | IDefinition (Some A) (Some t) | ITheorem A t => inf_fault sg [] A e \/ exists K, infers sg [] A K /\ refused sg [] t A e
  | IDefinition None (Some t) => inf_fault sg [] t e \/ (infers sg [] t Kind /\ e = UnexpectedKind)
  | IDefinition None None => e = TypeAndTermEmpty
  end.
(** what is wrong with a rule: only rules without jokers are considered in which the types of all variables are given *)
Definition rule_fault (sg : sig) (r : vrule) (e : kerror) : Prop :=
  exists tys lhs, v_ctx r = map Some tys /\ forallb joker_free (v_args r) = true /\ inst Var (PatSymb (v_head r) (v_args r)) lhs /\
    (inf_fault sg (rev tys) lhs e \/ (infers sg (rev tys) lhs Kind /\ e = UnexpectedKind) \/
     exists T, infers sg (rev tys) lhs T /\ refused sg (rev tys) (v_rhs r) T e).
Definition command_fault (sg : sig) (v : vcmd) (e : kerror) : Prop :=
  match v with
  | VIntro _ it => intro_fault sg it e
  | VRules rs => exists r, In r rs /\ rule_fault sg r e
  end.

(** The errors that mean that a term has no type (or not the given type) at all; the other errors may also be due to missing annotations,
    or because a sort is expected and the type is only equal to a sort. *)
Definition type_error (e : kerror) : Prop := e = ProductExpected \/ e = Unconvertible \/ e = TypeNotFound \/ e = KindNotTypable.

Scheme inf_fault_mind := Induction for inf_fault Sort Prop
  with chk_fault_mind := Induction for chk_fault Sort Prop
  with chk_bad_mind := Induction for chk_bad Sort Prop.
Combined Scheme fault_ind from inf_fault_mind, chk_fault_mind, chk_bad_mind.

(** All symbols have types, and all variables are among the first [n] ones; the term [Kind] does not occur. *)
Fixpoint closed_in (sg : sig) (n : nat) (t : tm) : Prop :=
  match t with
  | Kind => False
  | Typ => True
  | Const c => sg_type sg c <> None
  | Var k => k < n
  | App t u => closed_in sg n t /\ closed_in sg n u
  | Lam a b | Pi a b => closed_in sg n a /\ closed_in sg (S n) b
  | ULam b => closed_in sg (S n) b
  end.
