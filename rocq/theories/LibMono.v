(** * Fuel monotonicity: a computation with more fuel returns the same, if the one with less returned *)

From Verif Require Import Base.

Definition le_m {S E A} (m1 m2 : SM S E A) : Prop :=
  forall s, m1 s = Fuel \/ m1 s = m2 s.

Lemma le_m_refl {S E A} (m : SM S E A) : le_m m m.
Proof. intros s; auto. Qed.

Lemma le_m_trans {S E A} (m1 m2 m3 : SM S E A) : le_m m1 m2 -> le_m m2 m3 -> le_m m1 m3.
Proof. intros H1 H2 s. destruct (H1 s) as [ | -> ]; auto. Qed.

Lemma le_m_nofuel {S E A} (m : SM S E A) : le_m nofuel m.
Proof. intros s; left; reflexivity. Qed.

Lemma le_m_bind {S E A B} (m1 m2 : SM S E A) (k1 k2 : A -> SM S E B) :
  le_m m1 m2 -> (forall a, le_m (k1 a) (k2 a)) -> le_m (bind m1 k1) (bind m2 k2).
Proof.
  intros Hm Hk s. unfold bind. destruct (Hm s) as [ -> | -> ]; auto.
  destruct (m2 s) as [[a s']| | |]; auto. apply Hk.
Qed.

Lemma le_m_mapM {S E A B} (f1 f2 : A -> SM S E B) l :
  (forall a, le_m (f1 a) (f2 a)) -> le_m (mapM f1 l) (mapM f2 l).
Proof.
  intros H. induction l as [|a l IH]; cbn.
  - apply le_m_refl.
  - apply le_m_bind; auto. intros b. apply le_m_bind; auto. intros. apply le_m_refl.
Qed.

Lemma le_m_ok {S E A} (m1 m2 : SM S E A) s r : le_m m1 m2 -> m1 s = r -> r <> Fuel -> m2 s = r.
Proof. intros H <- Hn. destruct (H s); congruence. Qed.
Arguments le_m_ok {S E A m1 m2 s r}.

(** Solves goals by following the structure of both computations; the tactic given handles leaves. *)
Ltac le_step :=
  match goal with
  | |- le_m ?m ?m => apply le_m_refl
  | |- le_m nofuel _ => apply le_m_nofuel
  | |- le_m (bind _ _) (bind _ _) => apply le_m_bind; [| intros ?]
  | |- le_m (mapM _ _) (mapM _ _) => apply le_m_mapM; intros ?
  | |- le_m (match ?x with _ => _ end) (match ?x with _ => _ end) => destruct x
  | |- le_m (let '_ := ?x in _) (let '_ := ?x in _) => destruct x
  end.
Ltac le_auto := repeat (first [assumption | le_step | solve [eauto]]).
