(** * Iteration of the strict and the lazy parser *)

From Verif Require Import Base ModelSyntax ModelCommand ModelLex ModelParse ParseAuto SpecParse.

Section Main.
Variable A : Type.
Variable scope : symb -> tctx A -> A.
Variable junk : str -> nat.

(** ** Strict *)
Lemma strict_next_fine p :
  fst (strict_next scope p) <> Panic /\ fst (strict_next scope p) <> Fuel.
Proof.
  destruct p as [toks ctx]. rewrite strict_next_run. destruct toks as [|tok toks]; [split; discriminate|].
  pose proof (srun_safe A scope (tok :: toks) pstate_default ctx (safe_default A ctx)) as H.
  destruct (srun A scope pstate_default ctx (tok :: toks)) as [r rest]. cbn [fst] in H.
  destruct r as [| | |c]; split; try discriminate. exfalso. apply (H c). reflexivity.
Qed.

Lemma strict_next_progress p r p' : strict_next scope p = (r, p') ->
  (r = Ok None /\ st_toks p = [] /\ p' = p) \/ length (st_toks p') < length (st_toks p).
Proof.
  destruct p as [toks ctx]. rewrite strict_next_run. destruct toks as [|tok toks].
  - intros [= <- <-]. left. auto.
  - intros H. right. pose proof (srun_shorter A scope (tok :: toks) pstate_default ctx) as Hs.
    destruct (srun A scope pstate_default ctx (tok :: toks)) as [r0 rest]. cbn [snd] in Hs.
    assert (length rest < length (tok :: toks)) by (apply Hs; discriminate).
    destruct r0; cbn in H; injection H as <- <-; exact H0.
Qed.

Lemma strict_yields p : exists l, yields (strict_next scope) p l /\ length l <= length (st_toks p).
Proof.
  remember (length (st_toks p)) as n eqn:En.
  revert p En. induction n as [n IH] using lt_wf_ind. intros p ->.
  destruct (strict_next scope p) as [r p'] eqn:E.
  pose proof (strict_next_fine p) as [F1 F2]. rewrite E in F1, F2. cbn in F1, F2.
  destruct (strict_next_progress p r p' E) as [(-> & H1 & ->)|H].
  - exists []. split; [|cbn; lia]. exists p. split; [constructor|]. rewrite E. reflexivity.
  - destruct (IH (length (st_toks p')) H p' eq_refl) as (l & (q & H1 & H2) & H3).
    destruct r as [[c|]|e| |]; try congruence.
    + exists (inl c :: l). split; [exists q; split; [econstructor; eassumption|exact H2]|cbn; lia].
    + exists []. split; [exists p; split; [constructor|rewrite E; reflexivity]|cbn; lia].
    + exists (inr e :: l). split; [exists q; split; [econstructor; eassumption|exact H2]|cbn; lia].
Qed.

(** ** Lazy *)
Definition safe_lazy (p : lazy A) : Prop := safe_pstate A (lz_state p) (lz_ctx p).

(** the iterator has come to an end: it returns [None], or it returns the same error over and over *)
Definition lazy_stuck (r : item A) (p : lazy A) : Prop :=
  lazy_next scope junk p = (r, p) /\ (r = Ok None \/ r = Err ExpectedInput).

Lemma lazy_lines_facts lines : forall open st ctx r p', safe_pstate A st ctx ->
  lazy_lines scope junk lines open st ctx = (r, p') ->
  r <> Panic /\ r <> Fuel /\ safe_lazy p' /\ (length (lz_lines p') < length lines \/ lazy_stuck r p').
Proof.
  induction lines as [|line lines IH]; intros open st ctx r p' H.
  - cbn [lazy_lines].
    assert (G : forall r, r = Ok None \/ r = Err ExpectedInput ->
              (match ps_cmd st with CInit => match open with 0 => Ok None | S _ => Err ExpectedInput end
                                 | _ => Err ExpectedInput end : item A) = r ->
              r <> Panic /\ r <> Fuel /\ safe_lazy (MkLazy [] open st ctx []) /\ lazy_stuck r (MkLazy [] open st ctx [])).
    { intros r0 H1 H2. split; [destruct H1 as [->| ->]; discriminate|].
      split; [destruct H1 as [->| ->]; discriminate|]. split; [exact H|]. split; [|exact H1].
      unfold lazy_next. cbn [lz_buf lz_lines lz_open lz_state lz_ctx lazy_lines]. rewrite <- H2. reflexivity. }
    intros Heq. injection Heq as Hr <-.
    assert (r = Ok None \/ r = Err ExpectedInput) as Hr'.
    { rewrite <- Hr. destruct (ps_cmd st); auto. destruct open; auto. }
    destruct (G r Hr' Hr) as (G1 & G2 & G3 & G4). auto.
  - cbn [lazy_lines]. destruct (comment open line) as [open' line'].
    assert (IH' : forall open st ctx, safe_pstate A st ctx -> lazy_lines scope junk lines open st ctx = (r, p') ->
      r <> Panic /\ r <> Fuel /\ safe_lazy p' /\ (length (lz_lines p') < length (line :: lines) \/ lazy_stuck r p')).
    { intros o s c Hs He. destruct (IH o s c r p' Hs He) as (I1 & I2 & I3 & I4). split; [exact I1|].
      split; [exact I2|]. split; [exact I3|]. destruct I4 as [I4|I4]; [left; cbn [length]; lia|right; exact I4]. }
    destruct (0 <? open'); [apply IH'; exact H|].
    rewrite feed_line_run by apply H.
    pose proof (lrun_safe A scope (lex junk line') st ctx [] 0 H) as Hs.
    destruct (lrun A scope st ctx [] 0 (lex junk line')) as [[r1 ctx1] buf1].
    destruct r1 as [[st1 open1]|e| |]; try contradiction.
    + destruct (rev buf1) as [|cmd buf2]; [apply IH'; exact Hs|].
      intros [= <- <-]. split; [discriminate|]. split; [discriminate|]. split; [exact Hs|].
      left. cbn [lz_lines length]. lia.
    + intros [= <- <-]. split; [discriminate|]. split; [discriminate|].
      split; [apply safe_default|]. left. cbn [lz_lines length]. lia.
Qed.

Lemma lazy_next_facts p r p' : safe_lazy p -> lazy_next scope junk p = (r, p') ->
  r <> Panic /\ r <> Fuel /\ safe_lazy p' /\
  (length (lz_lines p') < length (lz_lines p)
   \/ (lz_lines p' = lz_lines p /\ length (lz_buf p') < length (lz_buf p))
   \/ lazy_stuck r p').
Proof.
  intros H. unfold lazy_next. destruct (lz_buf p) as [|cmd buf] eqn:Eb.
  - intros E. destruct (lazy_lines_facts _ _ _ _ _ _ H E) as (H1 & H2 & H3 & [H4|H4]); auto 6.
  - intros [= <- <-]. split; [discriminate|]. split; [discriminate|]. split; [exact H|].
    right. left. cbn. split; [reflexivity|lia].
Qed.

Lemma lazy_reaches_safe p l p' : safe_lazy p -> reaches (lazy_next scope junk) p l p' -> safe_lazy p'.
Proof.
  intros H R. induction R as [s|s i s1 l s2 E R IH|s e s1 l s2 E R IH]; [exact H| |];
    (apply IH; eapply lazy_next_facts; eassumption).
Qed.

Lemma lazy_new_safe lines : safe_lazy (lazy_new lines).
Proof. apply safe_default. Qed.

Lemma lazy_fine lines l p : reaches (lazy_next scope junk) (lazy_new lines) l p ->
  fst (lazy_next scope junk p) <> Panic /\ fst (lazy_next scope junk p) <> Fuel.
Proof.
  intros H. apply lazy_reaches_safe in H; [|apply lazy_new_safe].
  destruct (lazy_next scope junk p) as [r p'] eqn:E. destruct (lazy_next_facts p r p' H E) as (H1 & H2 & _). auto.
Qed.

Lemma lazy_ends_or_repeats_aux n : forall m p, length (lz_lines p) <= n -> length (lz_buf p) <= m -> safe_lazy p ->
  (exists l, yields (lazy_next scope junk) p l)
  \/ (exists l p', reaches (lazy_next scope junk) p l p' /\ lazy_next scope junk p' = (Err ExpectedInput, p')).
Proof.
  induction n as [n IH] using lt_wf_ind.
  induction m as [m IHm] using lt_wf_ind. intros p Hn Hm Hs.
  destruct (lazy_next scope junk p) as [r p'] eqn:E.
  destruct (lazy_next_facts p r p' Hs E) as (H1 & H2 & H3 & H4).
  destruct r as [[c|]|e| |]; try congruence.
  - assert (Hp : (exists l, yields (lazy_next scope junk) p' l)
      \/ (exists l p'', reaches (lazy_next scope junk) p' l p'' /\ lazy_next scope junk p'' = (Err ExpectedInput, p''))).
    { destruct H4 as [H4|[[H4 H5]|[_ [H4|H4]]]]; try discriminate.
      - apply (IH (length (lz_lines p'))) with (m := length (lz_buf p')); auto. lia.
      - apply (IHm (length (lz_buf p'))); auto; [lia|rewrite H4; exact Hn]. }
    destruct Hp as [(l & q & Hq1 & Hq2)|(l & q & Hq1 & Hq2)].
    + left. exists (inl c :: l), q. split; [econstructor; eassumption|exact Hq2].
    + right. exists (inl c :: l), q. split; [econstructor; eassumption|exact Hq2].
  - left. exists [], p. split; [constructor|]. rewrite E. reflexivity.
  - destruct H4 as [H4|[[H4 H5]|[H4 [H5|H5]]]]; try discriminate.
    + destruct (IH (length (lz_lines p')) ltac:(lia) (length (lz_buf p')) p') as
        [(l & q & Hq1 & Hq2)|(l & q & Hq1 & Hq2)]; auto.
      * left. exists (inr e :: l), q. split; [econstructor; eassumption|exact Hq2].
      * right. exists (inr e :: l), q. split; [econstructor; eassumption|exact Hq2].
    + destruct (IHm (length (lz_buf p')) ltac:(lia) p') as
        [(l & q & Hq1 & Hq2)|(l & q & Hq1 & Hq2)]; auto; [rewrite H4; exact Hn| |].
      * left. exists (inr e :: l), q. split; [econstructor; eassumption|exact Hq2].
      * right. exists (inr e :: l), q. split; [econstructor; eassumption|exact Hq2].
    + right. injection H5 as ->. exists [inr ExpectedInput], p'. split; [|exact H4].
      eapply reaches_err; [exact E|constructor].
Qed.

Lemma lazy_ends_or_repeats lines :
  (exists l, yields (lazy_next scope junk) (lazy_new lines) l)
  \/ (exists l p', reaches (lazy_next scope junk) (lazy_new lines) l p' /\ lazy_next scope junk p' = (Err ExpectedInput, p')).
Proof.
  eapply lazy_ends_or_repeats_aux; [reflexivity|reflexivity|apply lazy_new_safe].
Qed.

(** ** Interruptions *)
Lemma feed_chunks_concat chunks : forall st ctx buf open, ok_pstate A st ->
  feed_chunks scope st ctx buf open chunks = feed_line scope st ctx buf open (concat chunks).
Proof.
  induction chunks as [|toks chunks IH]; intros st ctx buf open H; [reflexivity|].
  cbn [feed_chunks concat]. rewrite !feed_line_run by exact H. rewrite lrun_app.
  destruct (lrun A scope st ctx buf open toks) as [[r1 ctx1] buf1] eqn:E.
  destruct r1 as [[st1 open1]| | |]; try reflexivity.
  assert (ok_pstate A st1) as H1 by (eapply lrun_ok; eassumption).
  rewrite IH by exact H1. rewrite feed_line_run by exact H1. reflexivity.
Qed.
End Main.
