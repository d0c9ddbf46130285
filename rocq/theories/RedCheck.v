(** * A test for orthogonal rules *)

From Coq Require Import List Arith Lia Bool.
From Verif Require Import Base ModelTerm ModelGctx Erase SpecTerm SpecConv SpecConvFacts SpecWhnf SpecRed RedConfl.
Import ListNotations.

Section Zip.
  Context {A B : Type} (f : A -> B -> bool).
  Fixpoint exists2b (l : list A) (l' : list B) : bool :=
    match l, l' with
    | a :: l, b :: l' => f a b || exists2b l l'
    | _, _ => false
    end.
End Zip.

(** No term is an instance of both patterns. *)
Fixpoint clashb (p q : pat) : bool :=
  match p, q with
  | PatSymb c ps, PatSymb d qs => negb (c =? d) || negb (length ps =? length qs) || exists2b clashb ps qs
  | _, _ => false
  end.
Definition disjointb (qs ps : list pat) : bool := (length qs <? length ps) || exists2b clashb qs ps.

Fixpoint subpats (p : pat) : list (nat * list pat) :=
  match p with
  | PatSymb c ps => (c, ps) :: flat_map subpats ps
  | _ => []
  end.

Fixpoint scopedb (k : nat) (t : tm) : bool :=
  match t with
  | Kind | Typ | Const _ => true
  | Var n => n <? k
  | App t u => scopedb k t && scopedb k u
  | Lam a t => scopedb k a && scopedb (S k) t
  | ULam t => scopedb (S k) t
  | Pi a b => scopedb k a && scopedb (S k) b
  end.
Fixpoint nodupb (l : list nat) : bool :=
  match l with
  | [] => true
  | a :: l => negb (existsb (Nat.eqb a) l) && nodupb l
  end.

(** Rules with the same right-hand side without variables *)
Definition same_resultsb (r1 r2 : srule) : bool :=
  (length (sr_args r1) =? length (sr_args r2)) && scopedb 0 (strip (sr_rhs r1)) && (if tm_eq_dec (strip (sr_rhs r1)) (strip (sr_rhs r2)) then true else false).
Definition orthogonalb (rules : list (nat * srule)) : bool :=
  forallb (fun '(c1, r1) =>
    nodupb (flat_map pat_vars (sr_args r1)) && scopedb (sr_vars r1) (sr_rhs r1) &&
    forallb (fun '(c2, r2) =>
      forallb (fun '(c, qs) => negb (c =? c2) || disjointb qs (sr_args r2)) (flat_map subpats (sr_args r1)) &&
      (negb (c1 =? c2) || (if srule_eq_dec r1 r2 then true else false) || disjointb (sr_args r1) (sr_args r2) || same_resultsb r1 r2)) rules) rules.

Lemma scopedb_ok t : forall k, scopedb k t = true -> scoped k t.
Proof.
  induction t; intros k; cbn; auto; try (rewrite andb_true_iff; intros []; auto).
  apply Nat.ltb_lt.
Qed.
Lemma nodupb_ok l : nodupb l = true -> NoDup l.
Proof.
  induction l as [|a l IH]; cbn; [constructor|]. rewrite andb_true_iff, negb_true_iff. intros [H1 H2].
  constructor; [|auto]. intros Hin. assert (existsb (Nat.eqb a) l = true); [|congruence].
  apply existsb_exists. exists a. split; [assumption|apply Nat.eqb_refl].
Qed.
Lemma subpats_ok c qs p : subpat (PatSymb c qs) p -> In (c, qs) (subpats p).
Proof.
  remember (PatSymb c qs) as q eqn:E. induction 1 as [|c' ps p Hin Hs IH]; subst; cbn; [left; reflexivity|].
  right. apply in_flat_map. eauto.
Qed.

Lemma inst_symb_inv s c ps t : inst s (PatSymb c ps) t -> exists ts, t = apps (Const c) ts /\ Forall2 (inst s) ps ts.
Proof. intros H. inversion H; subst. eauto. Qed.
Lemma clashb_ok p : forall q s1 s2 t, clashb p q = true -> inst s1 p t -> inst s2 q t -> False.
Proof.
  induction p as [c ps IH|m|] using pat_ind'; intros [d qs|m'|] s1 s2 t; cbn [clashb]; try discriminate.
  intros H H1 H2. destruct (inst_symb_inv _ _ _ _ H1) as (ts1 & -> & Hi1). destruct (inst_symb_inv _ _ _ _ H2) as (ts2 & E & Hi2).
  destruct (apps_const_inj _ _ _ _ E) as [E1 E2]. subst.
  rewrite Nat.eqb_refl in H. cbn in H.
  assert (El : length ps = length qs).
  { clear - Hi1 Hi2. revert qs Hi2. induction Hi1; intros qs Hi2; inversion Hi2; subst; cbn; auto. }
  rewrite El, Nat.eqb_refl in H. cbn in H. clear H1 H2 E El. revert qs ts2 IH H Hi1 Hi2.
  induction ps as [|p ps IHps]; intros [|q qs] ts IH H Hi1 Hi2; cbn in H; try discriminate.
  inversion Hi1; subst. inversion Hi2; subst. inversion IH; subst. apply orb_true_iff in H. destruct H as [H|H]; eauto.
Qed.
Lemma disjointb_ok qs ps : disjointb qs ps = true -> disjoint qs ps.
Proof.
  unfold disjointb, disjoint. rewrite orb_true_iff. intros [H|H] Hle; [apply Nat.ltb_lt in H; lia|].
  intros s1 s2. revert qs Hle H. induction ps as [|p ps IH]; intros [|q qs] Hle H ts H1 H2; cbn in H; try discriminate.
  cbn in H1. inversion H1; subst. inversion H2; subst. apply orb_true_iff in H. destruct H as [H|H].
  - eapply clashb_ok; eassumption.
  - eapply IH; [|eassumption|eassumption|eassumption]. cbn in Hle. lia.
Qed.

Lemma same_resultsb_ok r1 r2 : same_resultsb r1 r2 = true -> same_results r1 r2.
Proof.
  unfold same_resultsb. rewrite !andb_true_iff. intros [[H1 H2] H3]. split; [apply Nat.eqb_eq; exact H1|]. intros s1 s2 ts _ _.
  destruct (tm_eq_dec (strip (sr_rhs r1)) (strip (sr_rhs r2))) as [<-|]; [|discriminate]. apply (sub_scoped _ 0); [apply scopedb_ok; exact H2|]. intros m Hm. lia.
Qed.
Lemma orthogonalb_ok sg rules :
  (forall c r, rule_of sg c r -> In (c, r) rules) -> orthogonalb rules = true -> orthogonal sg.
Proof.
  unfold orthogonalb. intros Hall H c1 r1 H1. rewrite forallb_forall in H. specialize (H _ (Hall _ _ H1)). cbn in H.
  apply andb_true_iff in H. destruct H as [H H3]. apply andb_true_iff in H. destruct H as [H4 H5].
  split; [apply nodupb_ok; exact H4|]. split; [apply scopedb_ok; exact H5|].
  intros c2 r2 H2. rewrite forallb_forall in H3. specialize (H3 _ (Hall _ _ H2)). cbn in H3.
  apply andb_true_iff in H3. destruct H3 as [H6 H7]. split.
  - intros p qs Hp Hs. rewrite forallb_forall in H6.
    assert (Hin : In (c2, qs) (flat_map subpats (sr_args r1))) by (apply in_flat_map; exists p; split; [assumption|apply subpats_ok; assumption]).
    specialize (H6 _ Hin). cbn in H6. rewrite Nat.eqb_refl in H6. apply disjointb_ok. exact H6.
  - intros -> Hne. rewrite Nat.eqb_refl in H7. destruct (srule_eq_dec r1 r2); [contradiction|]. cbn in H7. apply orb_true_iff in H7 as [H7|H7]; [left; apply disjointb_ok; exact H7|].
    right. apply same_resultsb_ok. exact H7.
Qed.

(** All rules of a context. *)
Definition gctx_rules (gc : gctx) : list (nat * srule) :=
  flat_map (fun '(c, rs) => map (fun r => (c, er_rule r)) rs) (g_rules gc).
Lemma slookup_in {A} (m : smap A) c a : slookup m c = Some a -> In (c, a) m.
Proof.
  induction m as [|[c' a'] m IH]; cbn; [discriminate|]. destruct (Nat.eqb_spec c c') as [<-|]; [intros [= ->]; auto|auto].
Qed.
Lemma gctx_orthogonal gc : orthogonalb (gctx_rules gc) = true -> orthogonal (er_gctx gc).
Proof.
  apply orthogonalb_ok. intros c r (rs & Hrs & Hin & _). cbn in Hrs. unfold get_rules in Hrs.
  destruct (slookup (g_rules gc) c) as [rs0|] eqn:E; [|discriminate]. injection Hrs as <-.
  apply slookup_in in E. apply in_map_iff in Hin. destruct Hin as (r0 & <- & Hin).
  unfold gctx_rules. apply in_flat_map. exists (c, rs0). split; [assumption|]. apply in_map_iff. eauto.
Qed.
