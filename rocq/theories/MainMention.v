(** * Substitution reports exactly what changes (C66) *)

From Verif Require Import Base ModelTerm ModelSubst SpecTerm SpecMention Erase.

Lemma mentions_apps k ts : forall t, mentions k (apps t ts) <-> mentions k t \/ Exists (mentions k) ts.
Proof.
  induction ts as [|u ts IH]; intros t; cbn [apps fold_left].
  - split; [auto|intros [H|H]; [exact H|inversion H]].
  - change (fold_left App ts (App t u)) with (apps (App t u) ts). rewrite IH, Exists_cons. split.
    + intros [H|H]; [|tauto]. inversion H; subst; tauto.
    + intros [H|[H|H]]; [left; apply mentions_fun; exact H|left; apply mentions_arg; exact H|tauto].
Qed.

Definition quiet {A} (m : M (A * bool)) (k : nat) (t : tm) : Prop :=
  (forall s a b s', m s = Ok ((a, b), s') -> (b = true <-> mentions k t)) /\
  (~ mentions k t -> forall s, exists a s', m s = Ok ((a, false), s') /\ m_heap s' = m_heap s).

Lemma fold_or_true l : forall b, fold_left (fun ch (p : sterm * bool) => snd p || ch) l b = true <-> b = true \/ Exists (fun p => snd p = true) l.
Proof.
  induction l as [|[t c] l IH]; cbn; intros b; [split; [auto|intros [H|H]; [exact H|inversion H]]|].
  rewrite IH, Exists_cons, orb_true_iff. cbn. tauto.
Qed.
Lemma quiet_args {T} (e : T -> tm) (go : T -> nat -> M (sterm * bool)) args k : Forall (fun t => forall k, quiet (go t k) k (e t)) args ->
  (forall s ps s', mapM (fun x => go x k) args s = Ok (ps, s') -> (Exists (fun p => snd p = true) ps <-> Exists (mentions k) (map e args))) /\
  (~ Exists (mentions k) (map e args) -> forall s, exists ps s', mapM (fun x => go x k) args s = Ok (ps, s') /\ m_heap s' = m_heap s).
Proof.
  induction 1 as [|a args Ha _ [IH1 IH2]]; cbn.
  - split; [intros s ps s' [= <- <-]; split; intros H; inversion H|intros _ s; do 2 eexists; split; reflexivity].
  - unfold bind, ret. destruct (Ha k) as [A1 A2]. split.
    + intros s ps s'. destruct (go a k s) as [[[a' ch] s1]| | |] eqn:E1; try discriminate.
      destruct (mapM _ args s1) as [[ps' s2]| | |] eqn:E2; try discriminate. intros [= <- <-]. rewrite !Exists_cons. cbn.
      rewrite (A1 _ _ _ _ E1), (IH1 _ _ _ E2). tauto.
    + rewrite Exists_cons. intros Hn s. destruct (A2 ltac:(tauto) s) as (a' & s1 & -> & H1). destruct (IH2 ltac:(tauto) s1) as (ps & s2 & -> & H2).
      do 2 eexists. split; [reflexivity|congruence].
Qed.
Lemma quiet_comb {T} (e : T -> tm) (go : T -> nat -> M (sterm * bool)) c : comb_all (fun t => forall k, quiet (go t k) k (e t)) c ->
  forall k, quiet (comb_apply_subst go c k) k (er_comb e c).
Proof.
  destruct c as [h args|id a b|id [a|] b]; cbn [comb_all comb_apply_subst er_comb]; intros [H1 H2] k.
  - destruct (H1 k) as [A1 A2]. destruct (quiet_args e go args k H2) as [B1 B2]. split.
    + unfold bind, ret. intros s x b s'. destruct (go h k s) as [[[h' ch] s1]| | |] eqn:E1; try discriminate.
      destruct (mapM _ args s1) as [[ps s2]| | |] eqn:E2; try discriminate. intros [= <- <- <-].
      rewrite fold_or_true, mentions_apps, (A1 _ _ _ _ E1), (B1 _ _ _ E2). tauto.
    + rewrite mentions_apps. unfold bind, ret. intros Hn s. destruct (A2 ltac:(tauto) s) as (h' & s1 & -> & S1). destruct (B2 ltac:(tauto) s1) as (ps & s2 & E & S2).
      rewrite E. pose proof (B1 _ _ _ E) as X. do 2 eexists. split; [f_equal; f_equal; f_equal|congruence].
      destruct (fold_left _ ps false) eqn:F; [|reflexivity]. apply fold_or_true in F. destruct F as [F|F]; [discriminate|tauto].
  - destruct (H1 k) as [A1 A2]. destruct (H2 (k + 1)) as [B1 B2]. rewrite Nat.add_1_r in *. split.
    + unfold bind, ret. intros s x c s'. destruct (go a k s) as [[[a' ch] s1]| | |] eqn:E1; try discriminate.
      destruct (go b (S k) s1) as [[[b' ch'] s2]| | |] eqn:E2; try discriminate. intros [= <- <- <-]. rewrite orb_true_iff, (A1 _ _ _ _ E1), (B1 _ _ _ _ E2).
      split; [intros [H|H]; [apply mentions_right|apply mentions_left]; exact H|intros H; inversion H; subst; tauto].
    + unfold bind, ret. intros Hn s. destruct (A2 (fun H => Hn (mentions_left _ _ _ H)) s) as (a' & s1 & -> & S1).
      destruct (B2 (fun H => Hn (mentions_right _ _ _ H)) s1) as (b' & s2 & -> & S2). do 2 eexists. split; [reflexivity|congruence].
  - destruct (H1 k) as [A1 A2]. destruct (H2 (k + 1)) as [B1 B2]. rewrite Nat.add_1_r in *. split.
    + unfold bind, ret. intros s x c s'. destruct (go b (S k) s) as [[[b' ch'] s1]| | |] eqn:E1; try discriminate.
      destruct (go a k s1) as [[[a' ch] s2]| | |] eqn:E2; try discriminate. intros [= <- <- <-]. rewrite orb_true_iff, (B1 _ _ _ _ E1), (A1 _ _ _ _ E2).
      split; [intros [H|H]; [apply mentions_domain|apply mentions_body]; exact H|intros H; inversion H; subst; tauto].
    + unfold bind, ret. intros Hn s. destruct (B2 (fun H => Hn (mentions_body _ _ _ H)) s) as (b' & s1 & -> & S1).
      destruct (A2 (fun H => Hn (mentions_domain _ _ _ H)) s1) as (a' & s2 & -> & S2). do 2 eexists. split; [reflexivity|congruence].
  - destruct (H2 (k + 1)) as [B1 B2]. rewrite Nat.add_1_r in *. split.
    + unfold bind, ret. intros s x c s'. destruct (go b (S k) s) as [[[b' ch'] s1]| | |] eqn:E1; try discriminate.
      intros [= <- <- <-]. rewrite (B1 _ _ _ _ E1). split; [apply mentions_ubody|intros H; inversion H; subst; assumption].
    + unfold bind, ret. intros Hn s. destruct (B2 (fun H => Hn (mentions_ubody _ _ H)) s) as (b' & s1 & -> & S1). do 2 eexists. split; [reflexivity|congruence].
Qed.
Lemma quiet_const {A} (a : A) k t : (forall k, ~ mentions k t) -> quiet (ret (a, false)) k t.
Proof.
  intros H. split.
  - intros s a' b s' [= <- <- <-]. split; [discriminate|intros Hm; destruct (H _ Hm)].
  - intros _ s. do 2 eexists. split; reflexivity.
Qed.
Lemma quiet_var (sb : M sterm) (a : sterm) k n : quiet (if k <=? n then t' <- sb ;; ret (t', true) else ret (a, false))%sm k (Var n).
Proof.
  destruct (Nat.leb_spec k n) as [L|L]; split.
  - unfold bind, ret. intros s a' b s'. destruct (sb s) as [[? ?]| | |]; try discriminate. intros [= <- <- <-]. split; [intros _; apply mentions_var; exact L|reflexivity].
  - intros H. destruct H. apply mentions_var. exact L.
  - intros s a' b s' [= <- <- <-]. split; [discriminate|intros H; inversion H; lia].
  - intros _ s. do 2 eexists. split; reflexivity.
Qed.
Lemma quiet_wrap {A B} (m : M (A * bool)) (f : A -> B) k t : quiet m k t -> quiet (' (a, ch) <- m ;; ret (f a, ch))%sm k t.
Proof.
  intros [H1 H2]. split.
  - unfold bind, ret. intros s a b s'. destruct (m s) as [[[a' ch] s1]| | |] eqn:E; try discriminate. intros [= <- <- <-]. exact (H1 _ _ _ _ E).
  - intros Hn s. unfold bind, ret. destruct (H2 Hn s) as (a & s1 & -> & S1). do 2 eexists. split; [reflexivity|exact S1].
Qed.
Ltac quiet_const := apply quiet_const; intros ? H; inversion H.
Lemma quiet_l sb t : forall k, quiet (apply_subst_l sb t k) k (erl t).
Proof.
  induction t as [|c|n|c IH] using lterm_ind'; intros k; cbn [apply_subst_l erl].
  - quiet_const.
  - quiet_const.
  - apply quiet_var.
  - apply quiet_wrap. apply quiet_comb. exact IH.
Qed.
Lemma quiet_s uniq sb t : forall k, quiet (apply_subst uniq sb t k) k (ers t).
Proof.
  induction t as [| |c|n|c|c IH] using sterm_ind'; intros k; cbn [apply_subst ers].
  - quiet_const.
  - quiet_const.
  - quiet_const.
  - apply quiet_var.
  - apply quiet_wrap. apply quiet_comb. apply comb_all_intro. intros t k'. apply quiet_l.
  - destruct (quiet_comb ers _ c IH k) as [H1 H2]. split.
    + unfold bind, ret, is_unique. intros s a b s'. destruct (comb_apply_subst _ c k _) as [[[c' ch] s1]| | |] eqn:E; try discriminate.
      pose proof (H1 _ _ _ _ E) as X. destruct (uniq _); [intros [= <- <- <-]; exact X|]. destruct ch; intros [= <- <- <-]; exact X.
    + unfold bind, ret, is_unique. intros Hn s. destruct (H2 Hn (MSt (m_heap s) (S (m_tick s)))) as (c' & s1 & E & S1). rewrite E. cbn in S1.
      destruct (uniq _); do 2 eexists; (split; [reflexivity|exact S1]).
Qed.

Lemma main_change uniq sb t k s t' b s' : apply_subst uniq sb t k s = Ok ((t', b), s') -> (b = true <-> mentions k (ers t)).
Proof. apply (quiet_s uniq sb t k). Qed.
Lemma main_no_change uniq sb t k s : ~ mentions k (ers t) -> exists t' s', apply_subst uniq sb t k s = Ok ((t', false), s') /\ m_heap s' = m_heap s.
Proof. intros H. apply (quiet_s uniq sb t k). exact H. Qed.
Lemma main_kept uniq sb c k s : uniq (m_tick s) = false -> ~ mentions k (ers (SSComb c)) ->
  exists s', apply_subst uniq sb (SSComb c) k s = Ok ((SSComb c, false), s') /\ m_heap s' = m_heap s.
Proof.
  intros Hu Hn. destruct (main_no_change uniq sb (SSComb c) k s Hn) as (t' & s' & E & S1). exists s'. split; [|exact S1]. rewrite E. f_equal. f_equal. f_equal.
  revert E. cbn [apply_subst]. unfold bind, ret, is_unique. rewrite Hu. destruct (comb_apply_subst _ c k _) as [[[c' [|]] s1]| | |]; try discriminate. intros [= <- <-]. reflexivity.
Qed.
