(** * The parser for lines accepts the texts of a grammar, read line by line *)

From Verif Require Import Base ModelSyntax ModelCommand ModelLex ModelParse ParseAuto SpecParse SpecSyntax ParseLex ParsePrint ParseScope MainLines.

Lemma no_comment_is t : no_comment t <-> is_comment t = false.
Proof.
  split.
  - intros H. destruct t; try reflexivity. exfalso. eapply H. reflexivity.
  - intros H k ->. discriminate.
Qed.
Lemma no_comments ts : Forall no_comment ts <-> Forall (fun t => is_comment t = false) ts.
Proof. split; apply Forall_impl; intros t; apply no_comment_is. Qed.

Section Reads.
Variable junk : str -> nat.
Notation reads := (reads junk).

Lemma reads_ends k l rest ts o lines toks : comment k l = (0, rest) -> ends_in (lex junk rest) ts o -> reads o lines toks ->
  reads k (l :: lines) (ts ++ toks).
Proof.
  intros Ec [(-> & E & Hf)|(j & -> & E & Hf)] H.
  - rewrite <- E. eapply reads_line; [exact Ec| |exact H]. rewrite E. apply no_comments. exact Hf.
  - eapply reads_line_open; [exact Ec|exact E| |exact H]. apply no_comments. exact Hf.
Qed.
(** the last line read *)
Lemma reads_cases k lines toks : reads k lines toks ->
  match lines with
  | [] => toks = match k with 0 => [] | S _ => [TComment k] end
  | l :: lines =>
    match comment k l with
    | (S o, _) => reads (S o) lines toks
    | (0, rest) => exists ts o toks', ends_in (lex junk rest) ts o /\ reads o lines toks' /\ toks = ts ++ toks'
    end
  end.
Proof.
  intros H. inversion H as [|k0|k0 l o rest ls toks0 Ec H'|k0 l rest ls toks0 Ec Hf H'|k0 l rest ts o ls toks0 Ec E Hf H']; subst; auto.
  - rewrite Ec. exact H'.
  - rewrite Ec. exists (lex junk rest), 0, toks0. split; [|auto]. left. split; [reflexivity|]. split; [reflexivity|]. apply no_comments. exact Hf.
  - rewrite Ec. exists ts, o, toks0. split; [|auto]. right. destruct o as [|j].
    + exfalso. apply (lex_no_comment0 junk rest). rewrite E. apply in_or_app. right. left. reflexivity.
    + exists j. split; [reflexivity|]. split; [exact E|]. apply no_comments. exact Hf.
Qed.

Lemma lex_ends s : exists ts o, ends_in (lex junk s) ts o.
Proof.
  destruct (existsb is_comment (lex junk s)) eqn:E.
  - apply existsb_exists in E as (t & Hi & Ht). apply in_split in Hi as (a & b & E). destruct t as [| | | | | | | | | | | | | | | |k|]; try discriminate.
    pose proof (lex_comment_last junk s a k b E) as ->. exists a, k. right. destruct k as [|j].
    + exfalso. apply (lex_no_comment0 junk s). rewrite E. apply in_or_app. right. left. reflexivity.
    + exists j. split; [reflexivity|]. split; [exact E|]. apply Forall_forall. intros t Hi.
      destruct (is_comment t) eqn:Et; [|reflexivity]. exfalso. destruct t as [| | | | | | | | | | | | | | | |k|]; try discriminate.
      apply in_split in Hi as (a1 & b1 & ->). rewrite <- app_assoc in E. cbn [app] in E.
      pose proof (lex_comment_last junk s _ _ _ E) as Eb. destruct b1; discriminate.
  - exists (lex junk s), 0. left. split; [reflexivity|]. split; [reflexivity|]. apply Forall_forall. intros t Hi.
    destruct (is_comment t) eqn:Et; [|reflexivity]. exfalso.
    assert (existsb is_comment (lex junk s) = true) by (apply existsb_exists; eauto). congruence.
Qed.
Lemma reads_total lines : forall k, exists toks, reads k lines toks.
Proof.
  induction lines as [|l lines IH]; intros k.
  - destruct k; eexists; constructor.
  - destruct (comment k l) as [[|o] rest] eqn:Ec.
    + destruct (lex_ends rest) as (ts & o & He). destruct (IH o) as [toks H]. eexists. eapply reads_ends; eauto.
    + destruct (IH (S o)) as [toks H]. eexists. eapply reads_comment; eauto.
Qed.
Lemma ends_det ts0 ts o ts' o' : ends_in ts0 ts o -> ends_in ts0 ts' o' -> ts = ts' /\ o = o'.
Proof.
  intros [(-> & -> & H)|(j & -> & -> & H)] [(-> & E & H')|(j' & -> & E & H')].
  - auto.
  - exfalso. rewrite E in H. apply Forall_app in H as [_ H]. inversion H. discriminate.
  - exfalso. rewrite <- E in H'. apply Forall_app in H' as [_ H']. inversion H'. discriminate.
  - apply app_inj_tail in E as [-> E]. injection E as ->. auto.
Qed.
Lemma reads_det k lines toks : reads k lines toks -> forall toks', reads k lines toks' -> toks = toks'.
Proof.
  revert k toks. induction lines as [|l lines IH]; intros k toks H toks' H'; apply reads_cases in H, H'.
  - congruence.
  - destruct (comment k l) as [[|o] rest].
    + destruct H as (ts & o & t1 & He & H & ->). destruct H' as (ts' & o' & t1' & He' & H' & ->).
      destruct (ends_det _ _ _ _ _ He He') as [<- <-]. f_equal. eapply IH; eauto.
    + eapply IH; eauto.
Qed.
Lemma comment_last_app ts toks : Forall (fun t => is_comment t = false) ts -> comment_last toks -> comment_last (ts ++ toks).
Proof.
  intros H. induction H as [|t ts Ht H IH]; intros Hc; [exact Hc|]. intros a k b E. destruct a as [|x a]; cbn in E; injection E as -> E.
  - discriminate.
  - eapply IH; [exact Hc|exact E].
Qed.
Lemma reads_comment_last k lines toks : reads k lines toks -> comment_last toks.
Proof.
  revert k toks. induction lines as [|l lines IH]; intros k toks H; apply reads_cases in H.
  - subst toks. intros a j b E. destruct k as [|k]; [destruct a; discriminate|].
    destruct a as [|t a]; cbn in E; [injection E as <- <-; auto|]. injection E as _ E. destruct a; discriminate.
  - destruct (comment k l) as [[|o] rest]; [|eapply IH; exact H].
    destruct H as (ts & o & t1 & He & H & ->). apply comment_last_app; [|eapply IH; exact H].
    destruct He as [(_ & _ & Hf)|(j & _ & _ & Hf)]; exact Hf.
Qed.

(** If names do not extend over lines, reading line by line is the same as reading the whole text. *)
Lemma reads_lexo text lines : splits text lines -> forall k, line_wise (lexo junk k text) -> reads k lines (lexo junk k text).
Proof.
  intros H. induction H as [|l Hn|l text lines Hn H IH]; intros k Hw.
  - unfold lexo. rewrite comment_nil. destruct k as [|k]; [rewrite lex_nil|]; constructor.
  - unfold lexo in *. destruct (comment k l) as [[|o] rest] eqn:Ec.
    + destruct (lex_ends rest) as (ts & o & He).
      assert (E : lex junk rest = ts ++ match o with 0 => [] | S _ => [TComment o] end).
      { destruct He as [(-> & -> & _)|(j & -> & -> & _)]; [rewrite app_nil_r|]; reflexivity. }
      rewrite E. eapply reads_ends; [exact Ec|exact He|]. destruct o; constructor.
    + eapply reads_comment; [exact Ec|]. constructor.
  - pose proof (lexo_line junk k l text Hn Hw) as Hl. destruct (comment k l) as [[|o] rest] eqn:Ec.
    + destruct Hl as (ts & k' & He & El). rewrite El in *. eapply reads_ends; [exact Ec|exact He|]. apply IH.
      intros t Ht. apply Hw. apply in_or_app. right. exact Ht.
    + rewrite Hl in *. eapply reads_comment; [exact Ec|]. apply IH. exact Hw.
Qed.
Lemma main_reads text lines toks : splits text lines -> line_wise (lex junk text) -> reads 0 lines toks <-> toks = lex junk text.
Proof.
  intros Hs Hw. rewrite <- (lexo_0 junk text) in *. pose proof (reads_lexo text lines Hs 0 Hw) as H. split.
  - intros H'. eapply reads_det; eauto.
  - intros ->. exact H.
Qed.
(** the choices in splitting a text do not matter *)
Lemma reads_empty_line k toks : reads k [[]] toks <-> reads k [] toks.
Proof.
  split; intros H; apply reads_cases in H.
  - rewrite comment_nil in H. destruct k as [|k]; cbn iota in H.
    + rewrite lex_nil in H. destruct H as (ts & o & t1 & He & H & ->). destruct He as [(-> & <- & _)|(j & _ & E & _)]; [exact H|].
      destruct ts; discriminate.
    + exact H.
  - subst toks. destruct k as [|k].
    + change (@nil token) with (lex junk [] ++ []). apply reads_line; [reflexivity| |constructor]. rewrite lex_nil. constructor.
    + eapply reads_comment; [reflexivity|]. constructor.
Qed.
Lemma splits_newline l text : ~ In newline l -> forall l' text', ~ In newline l' -> l ++ newline :: text = l' ++ newline :: text' -> l = l' /\ text = text'.
Proof.
  induction l as [|c l IH]; intros Hn [|c' l'] text' Hn' E; cbn in E; injection E; intros; subst.
  - auto.
  - exfalso. apply Hn'. left. reflexivity.
  - exfalso. apply Hn. left. reflexivity.
  - destruct (IH (fun H => Hn (or_intror H)) l' text' (fun H => Hn' (or_intror H)) ltac:(assumption)) as [-> ->]. auto.
Qed.
Lemma reads_splits text lines : splits text lines -> forall lines', splits text lines' -> forall k toks, reads k lines toks -> reads k lines' toks.
Proof.
  intros H. induction H as [|l Hn|l text lines Hn H IH]; intros lines' H' k toks Hr;
    inversion H' as [E|l' Hn' E|l' text' ls' Hn' H1 E]; subst.
  - exact Hr.
  - apply reads_empty_line. exact Hr.
  - destruct l'; discriminate.
  - apply reads_empty_line. exact Hr.
  - exact Hr.
  - exfalso. apply Hn. apply in_or_app. right. left. reflexivity.
  - destruct l; discriminate.
  - exfalso. apply Hn'. apply in_or_app. right. left. reflexivity.
  - apply splits_newline in E as [-> ->]; [|assumption|assumption]. apply reads_cases in Hr.
    destruct (comment k l) as [[|o] rest] eqn:Ec.
    + destruct Hr as (ts & o & t1 & He & Hr & ->). eapply reads_ends; [exact Ec|exact He|]. eapply IH; eauto.
    + eapply reads_comment; [exact Ec|]. eapply IH; eauto.
Qed.

(** ** The parser *)
Variable A : Type.
Variable scope : symb -> tctx A -> A.
Notation lrun := (lrun A scope).

Lemma lazy_reads lines : forall k toks, reads k lines toks -> forall st ctx, ok_pstate A st ->
  lazy_agrees junk A scope (MkLazy lines k st ctx []) (lrun st ctx [] 0 toks).
Proof.
  induction lines as [|l lines IH]; intros k toks H st ctx Hok; apply reads_cases in H.
  - subst toks. destruct k as [|k]; cbn; apply outcome_fin.
  - destruct (comment k l) as [[|o] rest] eqn:Ec.
    + destruct H as (ts & k' & toks' & He & H & ->).
      pose proof (lrun_ends A scope (lex junk rest) ts k' st ctx He) as E0.
      rewrite lrun_app. destruct (lrun st ctx [] 0 ts) as [[[[st1 o1]|e| |] ctx1] buf1] eqn:E; cbn [lazy_agrees]; try exact I.
      * assert (Hok1 : ok_pstate A st1) by (eapply lrun_ok; eassumption).
        assert (o1 = 0) as ->.
        { destruct He as [(_ & _ & Hf)|(j & _ & _ & Hf)]; eapply lrun_no_comment; eassumption. }
        rewrite lrun_buf. specialize (IH k' toks' H st1 ctx1 Hok1).
        destruct (lrun st1 ctx1 [] 0 toks') as [[[[st2 o2]|e| |] ctx2] buf2]; cbn [lazy_agrees] in *; try exact I.
        -- rewrite rev_app_distr. eapply lazy_line_ok; eassumption.
        -- destruct IH as (l1 & l2 & Eb & Ho). exists (rev buf1 ++ l1), l2. split.
           ++ rewrite rev_app_distr, Eb, app_assoc. reflexivity.
           ++ eapply lazy_line_ok; eassumption.
      * exists [], (rev buf1). split; [reflexivity|]. eapply lazy_line_err; eassumption.
    + specialize (IH (S o) toks H st ctx Hok).
      destruct (lrun st ctx [] 0 toks) as [[[[st2 o2]|e| |] ctx2] buf2]; cbn [lazy_agrees] in *; try exact I.
      * eapply lazy_line_open; eassumption.
      * destruct IH as (l1 & l2 & Eb & Ho). exists l1, l2. split; [exact Eb|]. eapply lazy_line_open; eassumption.
Qed.
End Reads.
