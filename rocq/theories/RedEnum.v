(** * A test for strongly normalising terms: enumeration of all steps *)

From Coq Require Import List Arith Lia Bool.
From Verif Require Import Base ModelTerm ModelGctx Erase SpecTerm SpecConv SpecConvFacts SpecWhnf SpecRed SpecSN RedConfl RedCheck RefMachine TotConv.
Import ListNotations.

Fixpoint pmatch (p : pat) (t : tm) {struct p} : option (list (nat * tm)) :=
  match p with
  | PatVar m => Some [(m, t)]
  | PatJoker => Some []
  | PatSymb c ps =>
    match spine t [] with
    | (Const c', ts) =>
      if (c =? c') && (length ps =? length ts)
      then (fix go ps ts :=
              match ps, ts with
              | p :: ps, t :: ts =>
                match pmatch p t, go ps ts with Some l, Some l' => Some (l ++ l') | _, _ => None end
              | _, _ => Some []
              end) ps ts
      else None
    | _ => None
    end
  end.
Fixpoint pmatches (ps : list pat) (ts : list tm) : option (list (nat * tm)) :=
  match ps, ts with
  | p :: ps, t :: ts => match pmatch p t, pmatches ps ts with Some l, Some l' => Some (l ++ l') | _, _ => None end
  | _, _ => Some []
  end.
Fixpoint assoc (l : list (nat * tm)) (m : nat) : tm :=
  match l with
  | [] => Var m
  | (n, t) :: l => if n =? m then t else assoc l m
  end.

Definition agrees (s : nat -> tm) (vs : list nat) (l : list (nat * tm)) : Prop :=
  (forall m v, In (m, v) l -> v = s m) /\ (forall m, In m vs -> In m (map fst l)).
Lemma assoc_agrees s vs l m : agrees s vs l -> In m vs -> assoc l m = s m.
Proof.
  intros [H1 H2] Hm. apply H2 in Hm. clear H2. induction l as [|[n t] l IH]; [destruct Hm|]. cbn.
  destruct (Nat.eqb_spec n m) as [->|Hne]; [apply H1; left; reflexivity|].
  apply IH; [intros; apply H1; right; assumption|]. destruct Hm as [E|Hm]; [cbn in E; congruence|exact Hm].
Qed.
Lemma agrees_app s vs vs' l l' : agrees s vs l -> agrees s vs' l' -> agrees s (vs ++ vs') (l ++ l').
Proof.
  intros [A1 A2] [B1 B2]. split.
  - intros m v H. apply in_app_or in H. destruct H; auto.
  - intros m H. rewrite map_app. apply in_or_app. apply in_app_or in H. destruct H; auto.
Qed.
Lemma spine_const c us : forall ts, spine (apps (Const c) ts) us = (Const c, ts ++ us).
Proof.
  intros ts. revert us. induction ts as [|t ts IH] using rev_ind; intros us; [reflexivity|].
  rewrite apps_snoc. cbn [spine]. rewrite IH, <- app_assoc. reflexivity.
Qed.
Lemma pmatch_inst s p : forall t, inst s p t -> exists l, pmatch p t = Some l /\ agrees s (pat_vars p) l.
Proof.
  induction p as [c ps IH|m|] using pat_ind'; intros t H; inversion H; subst.
  - cbn [pmatch]. rewrite spine_const, app_nil_r, Nat.eqb_refl.
    match goal with H : Forall2 _ _ _ |- _ => rewrite (Forall2_len _ _ _ H), Nat.eqb_refl; rename H into Hi end.
    cbn [andb pat_vars]. clear H. induction Hi as [|p t ps ts Hp Hps IHi]; [exists []; split; [reflexivity|split; intros ? *; intros []]|].
    inversion IH as [|? ? IHp IHps]; subst. destruct (IHp _ Hp) as (l & -> & A). destruct (IHi IHps) as (l' & -> & A').
    exists (l ++ l'). split; [reflexivity|]. apply agrees_app; assumption.
  - exists [(m, s m)]. split; [reflexivity|]. split; [intros k v [[= <- <-]|[]]; reflexivity|]. intros k [<-|[]]. left. reflexivity.
  - exists []. split; [reflexivity|]. split; intros ? *; intros [].
Qed.
Lemma pmatches_inst s ps ts : Forall2 (inst s) ps ts -> exists l, pmatches ps ts = Some l /\ agrees s (flat_map pat_vars ps) l.
Proof.
  induction 1 as [|p t ps ts Hp Hps IH]; [exists []; split; [reflexivity|split; intros ? *; intros []]|].
  destruct (pmatch_inst _ _ _ Hp) as (l & El & A). destruct IH as (l' & El' & A'). cbn. rewrite El, El'.
  exists (l ++ l'). split; [reflexivity|]. apply agrees_app; assumption.
Qed.

Section Steps.
  Variable sg : sig.
  Definition rule_step (ts : list tm) (r : srule) : list tm :=
    match pmatches (sr_args r) ts with
    | Some l => [sub (assoc l) (strip (sr_rhs r))]
    | None => []
    end.
  Definition rule_steps (t : tm) : list tm :=
    match spine t [] with
    | (Const c, ts) =>
      match sg_rules sg c with
      | Some rs => flat_map (rule_step ts) (filter (fun r => length (sr_args r) =? length ts) rs)
      | None => []
      end
    | _ => []
    end.
  (** at least the terms that [t] reduces to in one step *)
  Fixpoint steps (t : tm) : list tm :=
    rule_steps t ++
    match t with
    | App t u =>
      match t with ULam b => [subst1 u b] | _ => [] end ++
      map (fun t' => App t' u) (steps t) ++ map (App t) (steps u)
    | ULam t => map ULam (steps t)
    | Lam a t => map (fun a' => Lam a' t) (steps a) ++ map (Lam a) (steps t)
    | Pi a b => map (fun a' => Pi a' b) (steps a) ++ map (Pi a) (steps b)
    | _ => []
    end.
  Hypothesis Hscope : forall c rs r, sg_rules sg c = Some rs -> In r rs -> scoped (sr_vars r) (sr_rhs r).

  Lemma in_steps_rule t u : In u (rule_steps t) -> In u (steps t).
  Proof. intros H. destruct t; cbn [steps]; apply in_or_app; left; exact H. Qed.
  Lemma red_steps t u : red sg t u -> In u (steps t).
  Proof.
    induction 1 as [t u|c rs r s ts Hrs Hin Hu Hi| | | | | | |].
    - cbn [steps]. apply in_or_app. right. left. reflexivity.
    - apply in_steps_rule. unfold rule_steps. rewrite spine_const, app_nil_r, Hrs. apply in_flat_map. exists r. split.
      + apply filter_In. split; [exact Hin|]. rewrite (Forall2_len _ _ _ Hi). apply Nat.eqb_refl.
      + unfold rule_step. destruct (pmatches_inst _ _ _ Hi) as (l & -> & A). left.
        eapply sub_scoped; [apply scoped_strip; eapply Hscope; eassumption|]. intros m Hm.
        eapply assoc_agrees; [exact A|]. apply Hu. exact Hm.
    - cbn [steps]. apply in_or_app. right. apply in_or_app. right. apply in_or_app. left. apply (in_map (fun t' => App t' u)). exact IHred.
    - cbn [steps]. apply in_or_app. right. apply in_or_app. right. apply in_or_app. right. apply in_map. exact IHred.
    - cbn [steps]. apply in_or_app. right. apply in_map. exact IHred.
    - cbn [steps]. apply in_or_app. right. apply in_or_app. left. apply (in_map (fun a' => Lam a' t)). exact IHred.
    - cbn [steps]. apply in_or_app. right. apply in_or_app. right. apply in_map. exact IHred.
    - cbn [steps]. apply in_or_app. right. apply in_or_app. left. apply (in_map (fun a' => Pi a' b)). exact IHred.
    - cbn [steps]. apply in_or_app. right. apply in_or_app. right. apply in_map. exact IHred.
  Qed.
  Fixpoint snb (n : nat) (t : tm) : bool :=
    match n with
    | 0 => false
    | S n => forallb (snb n) (steps t)
    end.
  Lemma snb_sn n : forall t, snb n t = true -> sn sg t.
  Proof.
    induction n as [|n IH]; [discriminate|]. intros t H. constructor. intros u Hr. apply IH.
    cbn [snb] in H. rewrite forallb_forall in H. apply H. apply red_steps. exact Hr.
  Qed.
End Steps.

(** every rule is left-linear, and its right-hand side has no other variables *)
Definition linearb (rules : list (nat * srule)) : bool :=
  forallb (fun '(_, r) => nodupb (flat_map pat_vars (sr_args r)) && scopedb (sr_vars r) (sr_rhs r)) rules.
Lemma gctx_rules_in gc c rs r : sg_rules (er_gctx gc) c = Some rs -> In r rs -> In (c, r) (gctx_rules gc).
Proof.
  cbn. unfold get_rules, gctx_rules. destruct (slookup (g_rules gc) c) as [l|] eqn:E; [|discriminate]. intros [= <-] H.
  apply slookup_in in E. apply in_flat_map. exists (c, l). split; [exact E|]. apply (in_map (fun r => (c, r))) in H. rewrite map_map in H. exact H.
Qed.
Lemma gctx_linear gc : linearb (gctx_rules gc) = true ->
  forall c rs r, sg_rules (er_gctx gc) c = Some rs -> In r rs -> linear r /\ scoped (sr_vars r) (sr_rhs r).
Proof.
  unfold linearb. rewrite forallb_forall. intros H c rs r Hrs Hin.
  specialize (H _ (gctx_rules_in _ _ _ _ Hrs Hin)). apply andb_true_iff in H. destruct H as [H1 H2].
  split; [apply nodupb_ok; exact H1|apply scopedb_ok; exact H2].
Qed.
Lemma gctx_left_linear gc : linearb (gctx_rules gc) = true -> left_linear (er_gctx gc).
Proof. intros H c rs r H1 H2. apply (gctx_linear gc H c rs r H1 H2). Qed.
Lemma gctx_sn gc n t : linearb (gctx_rules gc) = true -> snb (er_gctx gc) n (strip t) = true ->
  strongly_normalising (er_gctx gc) t.
Proof. intros H H1. eapply snb_sn; [|exact H1]. intros. eapply (gctx_linear gc H); eassumption. Qed.
