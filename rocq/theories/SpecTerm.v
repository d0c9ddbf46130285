(** * Specification terms: the textbook lambda-Pi calculus with de Bruijn indices

    Nothing here refers to the model.  Substitutions are functions [nat -> tm]; all lemmas are
    stated up to pointwise equality, so that no axiom of extensionality is needed. *)

From Coq Require Import List Arith Lia.
Import ListNotations.

(** Terms with binary application.  [Lam a t] is an abstraction annotated with its domain,
    [ULam t] one without. *)
Inductive tm : Type :=
| Kind
| Typ
| Const (c : nat)
| Var (n : nat)
| App (t u : tm)
| Lam (a t : tm)
| ULam (t : tm)
| Pi (a b : tm).

Definition tm_eq_dec (t u : tm) : {t = u} + {t <> u}.
Proof. decide equality; apply Nat.eq_dec. Defined.

(** [apps t [u1; ..; un]] is [t u1 .. un]. *)
Fixpoint apps (t : tm) (us : list tm) : tm :=
  match us with
  | [] => t
  | u :: us => apps (App t u) us
  end.

(** ** Renaming *)
Definition up_ren (r : nat -> nat) (n : nat) : nat :=
  match n with 0 => 0 | S n => S (r n) end.

Fixpoint ren (r : nat -> nat) (t : tm) : tm :=
  match t with
  | Kind => Kind
  | Typ => Typ
  | Const c => Const c
  | Var n => Var (r n)
  | App t u => App (ren r t) (ren r u)
  | Lam a t => Lam (ren r a) (ren (up_ren r) t)
  | ULam t => ULam (ren (up_ren r) t)
  | Pi a b => Pi (ren r a) (ren (up_ren r) b)
  end.

(** lifting all free variables by [n] *)
Definition lift (n : nat) (t : tm) : tm := ren (fun x => x + n) t.

(** ** Substitution *)
Definition up (s : nat -> tm) (n : nat) : tm :=
  match n with 0 => Var 0 | S n => ren S (s n) end.

Fixpoint sub (s : nat -> tm) (t : tm) : tm :=
  match t with
  | Kind => Kind
  | Typ => Typ
  | Const c => Const c
  | Var n => s n
  | App t u => App (sub s t) (sub s u)
  | Lam a t => Lam (sub s a) (sub (up s) t)
  | ULam t => ULam (sub (up s) t)
  | Pi a b => Pi (sub s a) (sub (up s) b)
  end.

Definition scons (u : tm) (s : nat -> tm) (n : nat) : tm :=
  match n with 0 => u | S n => s n end.

(** [subst1 u t] replaces variable 0 of [t] by [u] and lowers the other variables. *)
Definition subst1 (u t : tm) : tm := sub (scons u Var) t.

(** Substitution of the first [length us] variables; the others are lowered. *)
Fixpoint slist (us : list tm) (n : nat) : tm :=
  match us, n with
  | [], n => Var n
  | u :: _, 0 => u
  | _ :: us, S n => slist us n
  end.

(** ** Lemmas *)
Lemma up_ren_ext r r' : (forall n, r n = r' n) -> forall n, up_ren r n = up_ren r' n.
Proof. intros H [|n]; cbn; auto. Qed.

Lemma ren_ext t : forall r r', (forall n, r n = r' n) -> ren r t = ren r' t.
Proof.
  induction t; cbn; intros r r' H; f_equal; auto using up_ren_ext.
Qed.

Lemma up_ext s s' : (forall n, s n = s' n) -> forall n, up s n = up s' n.
Proof. intros H [|n]; cbn; rewrite ?H; auto. Qed.

Lemma sub_ext t : forall s s', (forall n, s n = s' n) -> sub s t = sub s' t.
Proof.
  induction t; cbn; intros s s' H; f_equal; auto using up_ext.
Qed.

Lemma ren_ren t : forall r r', ren r (ren r' t) = ren (fun n => r (r' n)) t.
Proof.
  induction t; cbn; intros r r'; f_equal; auto;
    rewrite ?IHt, ?IHt2; apply ren_ext; intros [|m]; reflexivity.
Qed.

Lemma ren_as_sub t : forall r, ren r t = sub (fun n => Var (r n)) t.
Proof.
  induction t; cbn; intros r; f_equal; auto;
    rewrite ?IHt, ?IHt2; apply sub_ext; intros [|m]; reflexivity.
Qed.

Lemma sub_ren t : forall s r, sub s (ren r t) = sub (fun n => s (r n)) t.
Proof.
  induction t; cbn; intros s r; f_equal; auto;
    rewrite ?IHt, ?IHt2; apply sub_ext; intros [|m]; reflexivity.
Qed.

Lemma ren_sub t : forall r s, ren r (sub s t) = sub (fun n => ren r (s n)) t.
Proof.
  induction t; cbn; intros r s; f_equal; auto;
    rewrite ?IHt, ?IHt2; apply sub_ext; intros [|m]; cbn; auto;
    rewrite !ren_ren; apply ren_ext; reflexivity.
Qed.

Lemma sub_sub t : forall s s', sub s (sub s' t) = sub (fun n => sub s (s' n)) t.
Proof.
  induction t; cbn; intros s s'; f_equal; auto;
    rewrite ?IHt, ?IHt2; apply sub_ext; intros [|m]; cbn; auto;
    rewrite sub_ren, ren_sub; apply sub_ext; reflexivity.
Qed.

Lemma up_Var n : up Var n = Var n.
Proof. destruct n; reflexivity. Qed.

Lemma sub_id_ext t : forall s, (forall n, s n = Var n) -> sub s t = t.
Proof.
  induction t; cbn; intros s H; f_equal; auto;
    [apply IHt2 | apply IHt | apply IHt2]; intros [|m]; cbn; rewrite ?H; reflexivity.
Qed.

Lemma sub_id t : sub Var t = t.
Proof. apply sub_id_ext. reflexivity. Qed.

Lemma ren_id_ext t : forall r, (forall n, r n = n) -> ren r t = t.
Proof.
  intros r H. rewrite ren_as_sub. apply sub_id_ext. intros n. rewrite H. reflexivity.
Qed.

Lemma lift_0 t : lift 0 t = t.
Proof. apply ren_id_ext. intros n. lia. Qed.

Lemma lift_lift n m t : lift n (lift m t) = lift (n + m) t.
Proof. unfold lift. rewrite ren_ren. apply ren_ext. intros; lia. Qed.

Lemma apps_app t us vs : apps t (us ++ vs) = apps (apps t us) vs.
Proof. revert t. induction us; cbn; auto. Qed.

Lemma sub_apps s us : forall t, sub s (apps t us) = apps (sub s t) (map (sub s) us).
Proof. induction us as [|u us IH]; cbn; intros t; auto. rewrite IH. reflexivity. Qed.

Lemma ren_apps s us : forall t, ren s (apps t us) = apps (ren s t) (map (ren s) us).
Proof. induction us as [|u us IH]; cbn; intros t; auto. rewrite IH. reflexivity. Qed.

Lemma slist_lt us n t : nth_error us n = Some t -> slist us n = t.
Proof.
  revert n. induction us as [|u us IH]; intros [|n]; cbn; intros H; try discriminate; try congruence.
  auto.
Qed.

Lemma slist_ge us n : length us <= n -> slist us n = Var (n - length us).
Proof.
  revert n. induction us as [|u us IH]; intros n; cbn; intros H.
  - f_equal; lia.
  - destruct n as [|n]; [lia|]. cbn. rewrite IH by lia. reflexivity.
Qed.

Lemma subst1_slist u us t : subst1 u (sub (up (slist us)) t) = sub (slist (u :: us)) t.
Proof.
  unfold subst1. rewrite sub_sub. apply sub_ext. intros [|n]; cbn; auto.
  rewrite sub_ren. cbn. rewrite sub_id. reflexivity.
Qed.

Lemma sub_subst1 s u t : sub s (subst1 u t) = subst1 (sub s u) (sub (up s) t).
Proof.
  unfold subst1. rewrite !sub_sub. apply sub_ext. intros [|n]; cbn; auto.
  rewrite sub_ren. cbn. rewrite sub_id. reflexivity.
Qed.

Lemma ren_subst1 r u t : ren r (subst1 u t) = subst1 (ren r u) (ren (up_ren r) t).
Proof.
  rewrite !(ren_as_sub _ r), sub_subst1, ren_as_sub. unfold subst1. f_equal.
  apply sub_ext. intros [|n]; reflexivity.
Qed.
