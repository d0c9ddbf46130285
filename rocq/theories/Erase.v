(** * From model terms to specification terms

    [erl]/[ers] forget variable names, the long/short distinction and the grouping of arguments. *)

From Verif Require Import Base ModelTerm ModelGctx ModelSubst ModelReduce SpecTerm SpecConv RefMachine.

Definition er_comb {A} (f : A -> tm) (c : comb A) : tm :=
  match c with
  | Appl h args => apps (f h) (map f args)
  | Prod _ a b => Pi (f a) (f b)
  | Abst _ (Some a) t => Lam (f a) (f t)
  | Abst _ None t => ULam (f t)
  end.

Fixpoint erl (t : lterm) : tm :=
  match t with
  | LType => Typ
  | LConst c => Const c
  | LVar n => Var n
  | LComb c => er_comb erl c
  end.

Fixpoint ers (t : sterm) : tm :=
  match t with
  | SKind => Kind
  | SType => Typ
  | SConst c => Const c
  | SVar n => Var n
  | SLComb c => er_comb erl c
  | SSComb c => er_comb ers c
  end.

Fixpoint erp (p : pattern) : pat :=
  match p with
  | PSymb c ps => PatSymb c (map erp ps)
  | PMVar m => PatVar m
  | PJoker => PatJoker
  end.

Definition er_rule (r : rule) : srule :=
  MkSRule (length (r_ctx r)) (map erp (tp_args (r_lhs r))) (erl (r_rhs r)).

(** The signature that a global context denotes. *)
Definition er_gctx (gc : gctx) : sig :=
  MkSig (fun c => option_map erl (get_type gc c))
        (fun c => option_map (map er_rule) (get_rules gc c))
        (g_eta gc).

(** ** Induction principles *)
Definition comb_all {A} (P : A -> Prop) (c : comb A) : Prop :=
  match c with
  | Appl h args => P h /\ Forall P args
  | Prod _ a b => P a /\ P b
  | Abst _ oa t => match oa with Some a => P a | None => True end /\ P t
  end.

Section LInd.
  Variable P : lterm -> Prop.
  Hypothesis Htype : P LType.
  Hypothesis Hconst : forall c, P (LConst c).
  Hypothesis Hvar : forall n, P (LVar n).
  Hypothesis Hcomb : forall c, comb_all P c -> P (LComb c).
  Fixpoint lterm_ind' (t : lterm) : P t.
  Proof.
    destruct t as [|c|n|c]; [exact Htype|exact (Hconst c)|exact (Hvar n)|]. apply Hcomb.
    destruct c as [h args|id a b|id [a|] b]; cbn.
    - split; [apply lterm_ind'|]. induction args; constructor; [apply lterm_ind'|assumption].
    - split; apply lterm_ind'.
    - split; apply lterm_ind'.
    - split; [exact I|apply lterm_ind'].
  Qed.
End LInd.

Section SInd.
  Variable P : sterm -> Prop.
  Hypothesis Hkind : P SKind.
  Hypothesis Htype : P SType.
  Hypothesis Hconst : forall c, P (SConst c).
  Hypothesis Hvar : forall n, P (SVar n).
  Hypothesis Hlcomb : forall c, P (SLComb c).
  Hypothesis Hscomb : forall c, comb_all P c -> P (SSComb c).
  Fixpoint sterm_ind' (t : sterm) : P t.
  Proof.
    destruct t as [| |c|n|c|c];
      [exact Hkind|exact Htype|exact (Hconst c)|exact (Hvar n)|exact (Hlcomb c)|]. apply Hscomb.
    destruct c as [h args|id a b|id [a|] b]; cbn.
    - split; [apply sterm_ind'|]. induction args; constructor; [apply sterm_ind'|assumption].
    - split; apply sterm_ind'.
    - split; apply sterm_ind'.
    - split; [exact I|apply sterm_ind'].
  Qed.
End SInd.

Section PInd.
  Variable P : pattern -> Prop.
  Hypothesis Hsymb : forall c ps, Forall P ps -> P (PSymb c ps).
  Hypothesis Hvar : forall n, P (PMVar n).
  Hypothesis Hjoker : P PJoker.
  Fixpoint pattern_ind' (p : pattern) : P p.
  Proof.
    destruct p as [c ps|n|]; [|exact (Hvar n)|exact Hjoker]. apply Hsymb. induction ps; constructor; [apply pattern_ind'|assumption].
  Qed.
End PInd.

Lemma ers_sterm_of_lterm t : ers (sterm_of_lterm t) = erl t.
Proof. destruct t; reflexivity. Qed.

Lemma er_scomb_of_lcomb c : er_comb ers (scomb_of_lcomb c) = er_comb erl c.
Proof.
  destruct c as [h args|id a b|id [a|] b]; cbn; rewrite ?ers_sterm_of_lterm; auto.
  f_equal. rewrite map_map. apply map_ext. apply ers_sterm_of_lterm.
Qed.

Lemma get_comb_er t c : get_comb t = Some c -> ers t = er_comb ers c.
Proof.
  destruct t; cbn; try discriminate; intros [= <-]; auto. rewrite er_scomb_of_lcomb. reflexivity.
Qed.

(** ** Equality tests *)
Lemma list_eqb_spec {A} (f : A -> A -> bool) l : Forall (fun a => forall b, f a b = true <-> a = b) l ->
  forall l', list_eqb f l l' = true <-> l = l'.
Proof.
  induction 1 as [|a l Ha Hl IH]; intros [|b l']; cbn; split; intros H; try congruence.
  - apply andb_true_iff in H. destruct H as [H1 H2]. apply Ha in H1. apply IH in H2. congruence.
  - injection H as <- <-. apply andb_true_iff. split; [apply Ha|apply IH]; reflexivity.
Qed.
Lemma comb_eqb_spec {A} (f : A -> A -> bool) c : comb_all (fun a => forall b, f a b = true <-> a = b) c ->
  forall c', comb_eqb f c c' = true <-> c = c'.
Proof.
  destruct c as [h args|id a b|id [a|] b]; cbn; intros Hall [h' args'|id' a' b'|id' [a'|] b']; cbn;
    rewrite ?andb_true_iff, ?str_eqb_eq; try (split; [intuition discriminate|discriminate]).
  - destruct Hall as [Hh Ha]. rewrite Hh, (list_eqb_spec _ _ Ha). split; [intros [-> ->]|intros [= -> ->]]; auto.
  - destruct Hall as [Ha Hb]. rewrite Ha, Hb. split; [intros [[-> ->] ->]|intros [= -> -> ->]]; auto.
  - destruct Hall as [Ha Hb]. rewrite Ha, Hb. split; [intros [[-> ->] ->]|intros [= -> -> ->]]; auto.
  - destruct Hall as [_ Hb]. rewrite Hb. split; [intros [[-> _] ->]|intros [= -> ->]]; auto.
Qed.
Lemma lterm_eqb_eq t : forall u, lterm_eqb t u = true <-> t = u.
Proof.
  induction t as [|c|n|c IH] using lterm_ind'; intros [|c'|n'|c']; cbn; try (split; discriminate); try tauto.
  - rewrite Nat.eqb_eq. split; congruence.
  - rewrite Nat.eqb_eq. split; congruence.
  - rewrite (comb_eqb_spec _ _ IH). split; congruence.
Qed.
Lemma comb_all_intro {A} (P : A -> Prop) c : (forall a, P a) -> comb_all P c.
Proof.
  intros H. destruct c as [h args|id a b|id [a|] b]; cbn; auto. split; auto. apply Forall_forall. auto.
Qed.
Lemma sterm_eqb_eq t : forall u, sterm_eqb t u = true <-> t = u.
Proof.
  induction t as [| |c|n|c|c IH] using sterm_ind'; intros [| |c'|n'|c'|c']; cbn;
    try (split; discriminate); try tauto.
  - rewrite Nat.eqb_eq. split; congruence.
  - rewrite Nat.eqb_eq. split; congruence.
  - rewrite comb_eqb_spec; [split; congruence|]. apply comb_all_intro. apply lterm_eqb_eq.
  - rewrite (comb_eqb_spec _ _ IH). split; congruence.
Qed.

(** ** Erasure of heaps *)
Definition er_state (st : state) : rstate := RState (s_ctx st) (ers (s_term st)) (s_stack st).
Definition er_thunk (th : thunk) : rthunk :=
  match th with TTodo l => RTodo l | TBusy => RBusy | TDone t => RDone (ers t) end.
Definition er_cell (c : cell) : rcell :=
  match c with
  | CState st w b => RCState (er_state st) w b
  | CThunk th => RCThunk (er_thunk th)
  end.
Definition erh (s : mst) : heap := map er_cell (m_heap s).
