(** * Lemmas for C77: the program kofmt *)

From Verif Require Import Base ModelTerm ModelSyntax ModelCommand ModelLex ModelParse ModelFmt ModelMake ModelRead ModelUtf8 ModelKofmt
  SpecUtf8 SpecMake SpecRead SpecParse SpecSyntax SpecProgram SpecKofmt ParseLex ParsePrint ParseCmd ParseScope MainUtf8 MainMake MainParse MainFmt MainReads MainProgram MainRead.

(** ** Tokens *)
Lemma put_tokens_ok toks : forall sp out, put_tokens sp toks = (out, FOk) <-> print_tokens_ sp toks = Ok out.
Proof.
  induction toks as [|t toks IH]; intros sp out; cbn [put_tokens print_tokens_].
  - split; [intros [= <-]|intros [= <-]]; reflexivity.
  - unfold print_token. destruct (token_show t) as [w|] eqn:Et; [|split; discriminate].
    destruct (put_tokens (negb (no_space_after t)) toks) as [o e] eqn:E.
    destruct (print_tokens_ (negb (no_space_after t)) toks) as [o'| | |] eqn:E'.
    + assert (X : (o, e) = (o', FOk)) by (rewrite <- E; apply IH; exact E'). injection X as -> ->.
      rewrite <- !app_assoc. split; [intros [= <-]|intros [= <-]]; reflexivity.
    + split; [|discriminate]. intros [= _ ->]. apply IH in E. congruence.
    + split; [|discriminate]. intros [= _ ->]. apply IH in E. congruence.
    + split; [|discriminate]. intros [= _ ->]. apply IH in E. congruence.
Qed.
Lemma put_tokens_end toks : forall sp, snd (put_tokens sp toks) = FOk /\ ~ In TError toks \/ snd (put_tokens sp toks) = FPanic /\ In TError toks.
Proof.
  induction toks as [|t toks IH]; intros sp; cbn [put_tokens]; [left; auto|].
  destruct (token_show t) as [w|] eqn:Et.
  - assert (Hn : t <> TError) by (intros ->; discriminate).
    specialize (IH (negb (no_space_after t))). destruct (put_tokens _ toks) as [o e]. cbn [snd] in *.
    destruct IH as [[-> H]|[-> H]]; [left|right]; (split; [reflexivity|]); [intros [X|X]; [exact (Hn X)|exact (H X)]|right; exact H].
  - right. split; [reflexivity|]. left. destruct t; try discriminate. reflexivity.
Qed.

(** ** Commands *)
Lemma puts_cmd_eq {S Tm} (next : S -> res parse_error (option (pcommand Tm)) * S) show s c s' out o e :
  next s = (Ok (Some c), s') -> o = cmd_show show c ++ out -> puts next show s' out e -> puts next show s o e.
Proof. intros H -> H'. eapply puts_cmd; eassumption. Qed.
Lemma puts_outcome {S Tm} (next : S -> res parse_error (option (pcommand Tm)) * S) show s l r : outcome next s l r -> forall out e,
  puts next show s out e <-> out = flat_map (cmd_show show) l /\ e = match r with None => FOk | Some _ => FPanic end.
Proof.
  intros H. induction H as [s H|s err H|s i s1 l r H _ IH]; intros out e; split.
  - intros P. inversion P as [? H1|? c s' o1 e1 H1 H2|? e1 H1|? H1]; subst; try rewrite H1 in H; try discriminate. auto.
  - intros [-> ->]. apply puts_end. exact H.
  - intros P. inversion P as [? H1|? c s' o1 e1 H1 H2|? e1 H1|? H1]; subst; try rewrite H1 in H; try discriminate. auto.
  - intros [-> ->]. eapply puts_err. exact H.
  - intros P. inversion P as [? H1|? c s' o1 e1 H1 H2|? e1 H1|? H1]; subst; rewrite H in H1; try discriminate.
    injection H1 as <- <-. apply IH in H2 as [-> ->]. auto.
  - intros [-> ->]. cbn [flat_map]. eapply puts_cmd; [exact H|]. apply IH. auto.
Qed.

Section Read.
  Context {A : Type}.
  Variable scope : symb -> tctx A -> A.
  Variable junk : str -> nat.
  Notation lnext := (lazy_next scope junk).
  Notation rnext := (read_next scope junk).

  Lemma next_cmd p c p' rest : lnext p = (Ok (Some c), p') ->
    rnext (map Some (lz_lines p) ++ rest, unlined p) = (Ok (Some c), (map Some (lz_lines p') ++ rest, unlined p')).
  Proof.
    unfold lazy_next, read_next. cbn [unlined lz_buf lz_open lz_state lz_ctx].
    destruct (lz_buf p) as [|cmd buf]; [|intros [= <- <-]; reflexivity].
    destruct (lines_step scope junk (lz_lines p) rest (lz_open p) (lz_state p) (lz_ctx p)) as [(o1 & s1 & c1 & E1 & E2)|(r1 & p1 & E1 & Hn & E2)];
      rewrite E2, E1; intros H.
    - exfalso. pose proof (proj1 (lines_end scope junk o1 s1 c1)) as Z. rewrite H in Z. cbn in Z. destruct Z; discriminate.
    - injection H as -> ->. reflexivity.
  Qed.
  Lemma next_end p r p' rest : lnext p = (r, p') -> (forall c, r <> Ok (Some c)) ->
    (fst (rnext (map Some (lz_lines p) ++ rest, unlined p)) = r /\ r <> Ok None) \/
    (exists open st ctx, rnext (map Some (lz_lines p) ++ rest, unlined p) = read_next_ scope junk rest open st ctx /\
       fst (read_next_ scope junk [] open st ctx) = r).
  Proof.
    intros H Hr. unfold lazy_next in H. unfold read_next. cbn [unlined lz_buf lz_open lz_state lz_ctx].
    destruct (lz_buf p) as [|cmd buf]; [|injection H as <- <-; exfalso; eapply Hr; reflexivity].
    destruct (lines_step scope junk (lz_lines p) rest (lz_open p) (lz_state p) (lz_ctx p)) as [(o1 & s1 & c1 & E1 & E2)|(r1 & p1 & E1 & Hn & E2)];
      rewrite E2; rewrite E1 in H.
    - right. exists o1, s1, c1. split; [reflexivity|]. rewrite (proj2 (lines_end scope junk o1 s1 c1)), H. reflexivity.
    - left. injection H as <- <-. split; [reflexivity|exact Hn].
  Qed.
  Lemma outcome_read p l r : outcome lnext p l r -> outcome rnext (map Some (lz_lines p) ++ [], unlined p) l r.
  Proof.
    intros H. induction H as [p H|p e H|p c p' l r H _ IH].
    - destruct (lnext p) as [r p'] eqn:E. cbn in H. subst r. apply outcome_end.
      destruct (next_end _ _ _ [] E ltac:(discriminate)) as [[H _]|(o & st & ctx & H1 & H2)]; [exact H|]. rewrite H1. exact H2.
    - destruct (lnext p) as [r p'] eqn:E. cbn in H. subst r. apply outcome_err.
      destruct (next_end _ _ _ [] E ltac:(discriminate)) as [[H _]|(o & st & ctx & H1 & H2)]; [exact H|]. rewrite H1. exact H2.
    - eapply outcome_ok; [apply next_cmd; exact H|exact IH].
  Qed.
  Lemma puts_bad show p l r rest : outcome lnext p l r ->
    puts rnext show (map Some (lz_lines p) ++ None :: rest, unlined p) (flat_map (cmd_show show) l) FPanic.
  Proof.
    intros H. induction H as [p H|p e H|p c p' l r H _ IH].
    - destruct (lnext p) as [r p'] eqn:E. cbn in H. subst r. apply puts_panic.
      destruct (next_end _ _ _ (None :: rest) E ltac:(discriminate)) as [[_ H]|(o & st & ctx & H1 & H2)]; [exfalso; apply H; reflexivity|]. rewrite H1. reflexivity.
    - destruct (lnext p) as [r p'] eqn:E. cbn in H. subst r.
      destruct (next_end _ _ _ (None :: rest) E ltac:(discriminate)) as [[H _]|(o & st & ctx & H1 & H2)].
      + eapply puts_err. exact H.
      + apply puts_panic. rewrite H1. reflexivity.
    - cbn [flat_map]. eapply puts_cmd; [apply next_cmd; exact H|exact IH].
  Qed.
  Lemma puts_det {S Tm} (next : S -> res parse_error (option (pcommand Tm)) * S) show s out e : puts next show s out e ->
    forall out' e', puts next show s out' e' -> out' = out /\ e' = e.
  Proof.
    intros H. induction H as [s H|s c s' out e H _ IH|s err H|s H]; intros out' e' P;
      inversion P as [? H1|? c1 s1 o1 e1 H1 H2|? e1 H1|? H1]; subst; try rewrite H in H1; try rewrite H1 in H; try discriminate; auto.
    injection H1 as <- <-. destruct (IH _ _ H2) as [-> ->]. auto.
  Qed.

  (** all bytes can be read *)
  Lemma outcome_bytes bytes l r : utf8 bytes -> outcome lnext (lazy_new (text_lines bytes)) l r ->
    outcome rnext (read_lines bytes false, lazy_new []) l r.
  Proof.
    intros Hu H. rewrite (read_lines_good (length bytes)) by (lia || exact Hu). apply outcome_read in H. rewrite app_nil_r in H. exact H.
  Qed.
  Lemma puts_bytes_bad show b1 b2 fails l r : utf8 b1 -> whole_lines b1 -> bad_start b2 fails ->
    outcome lnext (lazy_new (text_lines b1)) l r ->
    puts rnext show (read_lines (b1 ++ b2) fails, lazy_new []) (flat_map (cmd_show show) l) FPanic.
  Proof.
    intros H1 H2 H3 H. rewrite (read_lines_app (length b1)) by (lia || assumption). destruct (read_lines_bad _ _ H3) as [rest ->].
    exact (puts_bad show _ _ _ rest H).
  Qed.
End Read.

(** ** Files *)
Lemma read_to_string_some i text : read_to_string i = Some text <-> is_text i text.
Proof.
  unfold is_text. destruct i as [|bytes [|]]; cbn [read_to_string].
  - split; [discriminate|intros [H _]; discriminate].
  - split; [discriminate|intros [H _]; discriminate].
  - destruct (valid_utf8 bytes) eqn:E.
    + apply valid_utf8_iff in E. split; [intros [= <-]; auto|intros [[= ->] _]; reflexivity].
    + split; [discriminate|]. intros [[= ->] H]. apply valid_utf8_iff in H. congruence.
Qed.
Lemma read_to_string_none i : read_to_string i = None <-> forall text, ~ is_text i text.
Proof.
  split.
  - intros H text Ht. apply read_to_string_some in Ht. congruence.
  - intros H. destruct (read_to_string i) as [text|] eqn:E; [|reflexivity]. apply read_to_string_some in E. exfalso. exact (H _ E).
Qed.

Section Files.
  Variable junk : str -> nat.
  Notation file := (fmt_file junk).

  Lemma file_lex text out e : utf8 text -> (file FLex (Opened text false) out e <-> put_tokens false (lex junk text) = (out, e)).
  Proof.
    intros Hu. assert (R : read_to_string (Opened text false) = Some text) by (apply read_to_string_some; split; auto). split.
    - intros H. inversion H; subst; congruence.
    - intros H. eapply ff_lex; eassumption.
  Qed.
  Lemma file_strict text out e : utf8 text -> (file (FParse false false) (Opened text false) out e <->
    puts (strict_next scope_symb) (term_show symb_show) (strict_new junk text) out e).
  Proof.
    intros Hu. assert (R : read_to_string (Opened text false) = Some text) by (apply read_to_string_some; split; auto). split.
    - intros H. inversion H; subst; congruence.
    - intros H. eapply ff_strict; eassumption.
  Qed.
  Lemma file_strict_scope text out e : utf8 text -> (file (FParse false true) (Opened text false) out e <->
    puts (strict_next scope_atom) (term_show atom_show) (strict_new junk text) out e).
  Proof.
    intros Hu. assert (R : read_to_string (Opened text false) = Some text) by (apply read_to_string_some; split; auto). split.
    - intros H. inversion H; subst; congruence.
    - intros H. eapply ff_strict_scope; eassumption.
  Qed.
  Lemma file_lazy bytes fails out e : file (FParse true false) (Opened bytes fails) out e <->
    puts (read_next scope_symb junk) (term_show symb_show) (read_lines bytes fails, lazy_new []) out e.
  Proof. split; [intros H; inversion H; subst; assumption|apply ff_lazy]. Qed.
  Lemma file_lazy_scope bytes fails out e : file (FParse true true) (Opened bytes fails) out e <->
    puts (read_next scope_atom junk) (term_show atom_show) (read_lines bytes fails, lazy_new []) out e.
  Proof. split; [intros H; inversion H; subst; assumption|apply ff_lazy_scope]. Qed.

  Lemma parsed_total by_lines text : exists cs r, parsed junk by_lines text cs r.
  Proof. destruct by_lines; [apply lazy_outcome|apply strict_outcome]. Qed.
  Lemma parsed_det by_lines text cs r cs' r' : parsed junk by_lines text cs r -> parsed junk by_lines text cs' r' -> cs' = cs /\ r' = r.
  Proof. destruct by_lines; cbn [parsed]; intros H H'; exact (outcome_det _ _ _ _ H _ _ H'). Qed.
  Lemma file_parsed by_lines scope text cs r out e : utf8 text -> parsed junk by_lines text cs r ->
    (file (FParse by_lines scope) (Opened text false) out e <-> out = shown scope cs /\ e = match r with None => FOk | Some _ => FPanic end).
  Proof.
    intros Hu H. destruct by_lines, scope; cbn [parsed shown] in *.
    - rewrite file_lazy_scope. apply puts_outcome. apply outcome_bytes; [exact Hu|]. apply main_scoping_lazy. exact H.
    - rewrite file_lazy. apply puts_outcome. apply outcome_bytes; assumption.
    - rewrite file_strict_scope by exact Hu. apply puts_outcome. apply main_scoping_strict. exact H.
    - rewrite file_strict by exact Hu. apply puts_outcome. exact H.
  Qed.
  Lemma file_cut scope b1 b2 fails cs r out e : utf8 b1 -> whole_lines b1 -> bad_start b2 fails -> parsed junk true b1 cs r ->
    (file (FParse true scope) (Opened (b1 ++ b2) fails) out e <-> out = shown scope cs /\ e = FPanic).
  Proof.
    intros H1 H2 H3 H. cbn [parsed] in H.
    assert (X : file (FParse true scope) (Opened (b1 ++ b2) fails) (shown scope cs) FPanic).
    { destruct scope; cbn [shown].
      - apply file_lazy_scope. eapply puts_bytes_bad; [assumption..|]. apply main_scoping_lazy. exact H.
      - apply file_lazy. eapply puts_bytes_bad; eassumption. }
    split; [|intros [-> ->]; exact X]. intros Y.
    destruct scope; [apply file_lazy_scope in X, Y|apply file_lazy in X, Y]; exact (puts_det _ _ _ _ _ X _ _ Y).
  Qed.
  Lemma file_io mode i out e : (forall text, ~ is_text i text) -> mode = FLex \/ (exists scope, mode = FParse false scope) ->
    (file mode i out e <-> out = [] /\ e = FIo).
  Proof.
    intros H Hm. apply read_to_string_none in H. destruct Hm as [->|[scope ->]].
    - split; [intros X; inversion X; subst; try congruence; auto|intros [-> ->]; apply ff_lex_io; exact H].
    - split; [intros X; inversion X; subst; try congruence; auto|intros [-> ->]; apply ff_strict_io; exact H].
  Qed.
  Lemma file_closed scope out e : file (FParse true scope) Closed out e <-> out = [] /\ e = FIo.
  Proof. split; [intros X; inversion X; auto|intros [-> ->]; constructor]. Qed.

  Lemma text_dec i : (exists text, is_text i text) \/ (forall text, ~ is_text i text).
  Proof.
    destruct (read_to_string i) as [text|] eqn:E; [left; exists text; apply read_to_string_some; exact E|right; apply read_to_string_none; exact E].
  Qed.
  Lemma file_unique mode i : exists out e, forall out' e', file mode i out' e' <-> out' = out /\ e' = e.
  Proof.
    destruct (text_dec i) as [[text [-> Hu]]|Hn].
    - destruct mode as [|by_lines scope].
      + destruct (put_tokens false (lex junk text)) as [out e] eqn:E. exists out, e. intros out' e'. rewrite file_lex by exact Hu. rewrite E.
        split; [intros [= -> ->]; auto|intros [-> ->]; reflexivity].
      + destruct (parsed_total by_lines text) as (cs & r & H). eexists _, _. intros out' e'. apply file_parsed; eassumption.
    - destruct mode as [|[|] scope].
      + exists (@nil ascii), FIo. intros. apply file_io; auto.
      + destruct i as [|bytes fails]; [exists (@nil ascii), FIo; intros; apply file_closed|].
        destruct (main_bytes_cases bytes fails) as [[Hu ->]|(b1 & b2 & -> & H1 & H2 & H3)]; [exfalso; apply (Hn bytes); split; auto|].
        destruct (parsed_total true b1) as (cs & r & H). eexists _, _. intros. eapply file_cut; eassumption.
      + exists (@nil ascii), FIo. intros. apply file_io; eauto.
  Qed.
  Lemma file_readable mode i out : file mode i out FOk -> exists text, is_text i text.
  Proof.
    intros H. destruct (text_dec i) as [Ht|Hn]; [exact Ht|exfalso]. destruct mode as [|[|] scope].
    - apply file_io in H; [|exact Hn|auto]. destruct H; discriminate.
    - destruct i as [|bytes fails]; [apply file_closed in H as [_ H]; discriminate|].
      destruct (main_bytes_cases bytes fails) as [[Hu ->]|(b1 & b2 & -> & H1 & H2 & H3)]; [apply (Hn bytes); split; auto|].
      destruct (parsed_total true b1) as (cs & r & Hp). eapply file_cut in H; [|eassumption..]. destruct H; discriminate.
    - apply file_io in H; [|exact Hn|eauto]. destruct H; discriminate.
  Qed.

  (** ** The program *)
  Notation one := (fmt_one junk).
  Lemma one_unique quiet mode i : exists out e, forall out' e', one quiet mode i out' e' <-> out' = out /\ e' = e.
  Proof.
    unfold fmt_one. destruct (file_unique mode i) as (out & e & H). destruct quiet; [|exists out, e; exact H].
    destruct mode as [|by_lines scope].
    - destruct (read_to_string i) as [text|] eqn:E.
      + exists (@nil ascii), FOk. intros out' e'. split; [intros X; inversion X; subst; auto; congruence|intros [-> ->]; eapply fq_lex; exact E].
      + exists (@nil ascii), FIo. intros out' e'. split; [intros X; inversion X; subst; auto; congruence|intros [-> ->]; apply fq_lex_io; exact E].
    - exists (@nil ascii), e. intros out' e'. split.
      + intros X. inversion X as [| |bl sc j o1 e1 X1]; subst. apply H in X1 as [-> ->]. auto.
      + intros [-> ->]. eapply fq_parse. apply H. auto.
  Qed.
  Lemma main_kofmt_unique quiet mode inputs : exists out e, forall out' e', kofmt junk quiet mode inputs out' e' <-> out' = out /\ e' = e.
  Proof.
    induction inputs as [|i inputs (out & e & IH)].
    - exists (@nil ascii), FOk. intros. split; [intros H; inversion H; auto|intros [-> ->]; constructor].
    - destruct (one_unique quiet mode i) as (out1 & e1 & H1).
      assert (D : e1 = FOk \/ e1 <> FOk) by (destruct e1; [left; reflexivity|right; discriminate..]).
      destruct D as [->|D].
      + exists (out1 ++ out), e. intros out' e'. split.
        * intros H. inversion H as [|? ? ? ? A B|? ? ? o2 ? A B]; subst.
          -- apply H1 in A as [_ ->]. contradiction.
          -- apply H1 in A as [-> _]. apply IH in B as [-> ->]. auto.
        * intros [-> ->]. apply kf_next; [apply H1; auto|apply IH; auto].
      + exists out1, e1. intros out' e'. split.
        * intros H. inversion H as [|? ? ? ? A B|? ? ? o2 ? A B]; subst.
          -- apply H1 in A. exact A.
          -- apply H1 in A as [_ A]. congruence.
        * intros [-> ->]. apply kf_stop; [apply H1; auto|exact D].
  Qed.
  Lemma main_kofmt_files quiet mode inputs out : kofmt junk quiet mode inputs out FOk <->
    exists outs, Forall2 (fun i o => one quiet mode i o FOk) inputs outs /\ out = concat outs.
  Proof.
    revert out. induction inputs as [|i inputs IH]; intros out; split.
    - intros H. inversion H; subst. exists []. split; [constructor|reflexivity].
    - intros (outs & H & ->). inversion H; subst. constructor.
    - intros H. inversion H as [|? ? ? ? A B|? ? o1 o2 ? A B]; subst; [contradiction|]. apply IH in B as (outs & B & ->).
      exists (o1 :: outs). split; [constructor; assumption|reflexivity].
    - intros (outs & H & ->). inversion H as [|? o1 ? outs' A B]; subst. cbn [concat]. apply kf_next; [exact A|]. apply IH. eauto.
  Qed.

  (** one file without [--quiet] that ends well *)
  Lemma main_file_lex i out : file FLex i out FOk <->
    exists text, is_text i text /\ ~ In TError (lex junk text) /\ print_tokens (lex junk text) = Ok out.
  Proof.
    split.
    - intros H. destruct (file_readable _ _ _ H) as (text & -> & Hu). exists text. apply file_lex in H; [|exact Hu].
      split; [split; auto|]. split; [|apply put_tokens_ok; exact H]. destruct (put_tokens_end (lex junk text) false) as [[_ X]|[X _]]; [exact X|].
      rewrite H in X. discriminate.
    - intros (text & [-> Hu] & _ & H). apply file_lex; [exact Hu|]. apply put_tokens_ok. exact H.
  Qed.
  Lemma main_file_strict scope i out : file (FParse false scope) i out FOk <->
    exists text cs, is_text i text /\ gfile (lex junk text) cs /\ out = shown scope cs.
  Proof.
    split.
    - intros H. destruct (file_readable _ _ _ H) as (text & -> & Hu). destruct (parsed_total false text) as (cs & r & Hp).
      eapply file_parsed in H; [|eassumption..]. destruct H as [-> He]. destruct r; [discriminate|].
      exists text, cs. split; [split; auto|]. split; [|reflexivity]. apply main_grammar_file; [apply lex_no_comment0|]. apply outcome_yields. exact Hp.
    - intros (text & cs & [-> Hu] & Hg & ->). apply main_grammar_file in Hg; [|apply lex_no_comment0]. apply outcome_yields in Hg.
      apply (file_parsed false scope text cs None); auto.
  Qed.
  Lemma main_file_lazy scope i out : file (FParse true scope) i out FOk <->
    exists text toks cs, is_text i text /\ read_as junk text toks /\ gsource toks cs /\ out = shown scope cs.
  Proof.
    split.
    - intros H. destruct (file_readable _ _ _ H) as (text & -> & Hu). destruct (parsed_total true text) as (cs & r & Hp).
      eapply file_parsed in H; [|eassumption..]. destruct H as [-> He]. destruct r; [discriminate|].
      cbn [parsed] in Hp. apply main_source in Hp as (toks & H1 & H2).
      exists text, toks, cs. split; [split; auto|]. split; [|auto]. exists (text_lines text). split; [apply text_splits|exact H1].
    - intros (text & toks & cs & [-> Hu] & (lines & Hs & Hr) & Hg & ->).
      apply (file_parsed true scope text cs None); [exact Hu| |auto]. cbn [parsed]. apply main_source. exists toks. split; [|exact Hg].
      exact (reads_splits junk _ _ Hs _ (text_splits text) _ _ Hr).
  Qed.
End Files.

(** ** Formatting again *)
Lemma print_utf8 toks : Forall token_utf8 toks -> forall sp out, print_tokens_ sp toks = Ok out -> utf8 out.
Proof.
  induction 1 as [|t toks Ht _ IH]; intros sp out; cbn [print_tokens_]; [intros [= <-]; constructor|].
  unfold print_token. destruct (token_show t) as [w|] eqn:Et; [|discriminate].
  destruct (print_tokens_ (negb (no_space_after t)) toks) as [o| | |] eqn:E; try discriminate. intros [= <-].
  assert (L : utf8 [LF]) by (apply utf8_ascii; vm_compute; lia).
  apply utf8_app; [|exact (IH _ _ E)]. apply utf8_app; [destruct (sp && _); [apply utf8_ascii; vm_compute; lia|constructor]|].
  apply utf8_app; [eapply main_token_show; eassumption|]. destruct t; first [exact L|constructor].
Qed.
Lemma print_dot ts t2 : forall sp out1 out2, print_tokens_ sp (ts ++ [TDot]) = Ok out1 -> print_tokens_ false t2 = Ok out2 ->
  print_tokens_ sp (ts ++ TDot :: t2) = Ok (out1 ++ out2).
Proof.
  induction ts as [|t ts IH]; intros sp out1 out2 H1 H2; cbn [app print_tokens_] in *.
  - cbn [print_token token_show no_space_before no_space_after negb] in *. unfold print_token in *. cbn [token_show no_space_after negb] in *.
    rewrite H2. injection H1 as <-. rewrite app_nil_r. reflexivity.
  - unfold print_token in *. destruct (token_show t) as [w|]; [|discriminate].
    destruct (print_tokens_ (negb (no_space_after t)) (ts ++ [TDot])) as [o| | |] eqn:E; try discriminate. injection H1 as <-.
    rewrite (IH _ _ _ E H2). rewrite <- !app_assoc. reflexivity.
Qed.
Lemma print_concat tokss outs : Forall2 (fun toks out => print_tokens toks = Ok out) tokss outs -> Forall dot_last tokss ->
  print_tokens (concat tokss) = Ok (concat outs).
Proof.
  unfold print_tokens. induction 1 as [|toks out tokss outs H _ IH]; intros Hd; [reflexivity|]. inversion Hd as [|? ? Hd1 Hd2]; subst. cbn [concat].
  specialize (IH Hd2). destruct Hd1 as [->|[ts ->]]; [injection H as <-; exact IH|]. rewrite <- app_assoc. apply print_dot; assumption.
Qed.
Lemma main_kofmt_again junk inputs texts : whole_chars junk -> Forall2 is_text inputs texts -> Forall (formattable junk) texts ->
  exists out, kofmt junk false FLex inputs out FOk /\ lex junk out = flat_map (lex junk) texts /\
    kofmt junk false FLex [Opened out false] out FOk.
Proof.
  intros Hj Ht Hf.
  assert (X : exists outs, Forall2 (fun i o => fmt_file junk FLex i o FOk) inputs outs /\
    Forall2 (fun toks out => print_tokens toks = Ok out) (map (lex junk) texts) outs).
  { induction Ht as [|i text inputs texts H _ IH]; [exists []; split; constructor|].
    inversion Hf as [|? ? [F1 F2] F3]; subst. destruct (IH F3) as (outs & I1 & I2).
    destruct (main_fmt_total junk text F1) as [out E]. exists (out :: outs). split; constructor; auto.
    apply main_file_lex. exists text. split; [exact H|]. split; [|exact E]. intros He. exact (proj1 (F1 _ He) eq_refl). }
  destruct X as (outs & H1 & H2).
  assert (Hd : Forall dot_last (map (lex junk) texts)).
  { apply Forall_map. apply Forall_forall. intros t Hi. rewrite Forall_forall in Hf. exact (proj2 (Hf _ Hi)). }
  assert (Hp := print_concat _ _ H2 Hd).
  assert (Ha : forall t, In t (concat (map (lex junk) texts)) -> exists text, In text texts /\ In t (lex junk text)).
  { intros t Hi. apply in_concat in Hi as (toks & Hi & Ht'). apply in_map_iff in Hi as (text & <- & Hi). eauto. }
  assert (Hv : Forall valid_tok (concat (map (lex junk) texts))).
  { apply Forall_forall. intros t Hi. destruct (Ha _ Hi) as (text & Hi1 & Hi2). rewrite Forall_forall in Hf.
    destruct (proj1 (Hf _ Hi1) _ Hi2) as [N1 N2]. pose proof (proj1 (Forall_forall _ _) (lex_lexed junk text) t Hi2) as H3.
    destruct t; cbn in *; auto. exact (N2 open eq_refl). }
  assert (Hu : Forall token_utf8 (concat (map (lex junk) texts))).
  { apply Forall_forall. intros t Hi. destruct (Ha _ Hi) as (text & Hi1 & Hi2).
    assert (U : utf8 text).
    { clear - Ht Hi1. induction Ht as [|i tx inputs texts [_ H] _ IH]; [destruct Hi1|]. destruct Hi1 as [<-|Hi1]; auto. }
    pose proof (proj2 (main_lex_code junk Hj text U)) as F. rewrite Forall_forall in F. exact (F _ Hi2). }
  assert (E := relex junk _ Hv _ _ Hp). rewrite <- flat_map_concat_map in E.
  exists (concat outs). split; [apply main_kofmt_files; exists outs; split; [exact H1|reflexivity]|]. split; [exact E|].
  apply main_kofmt_files. exists [concat outs]. split; [|cbn; rewrite app_nil_r; reflexivity]. constructor; [|constructor].
  apply main_file_lex. exists (concat outs). split; [split; [reflexivity|exact (print_utf8 _ Hu _ _ Hp)]|]. rewrite E, flat_map_concat_map. split; [|exact Hp].
  intros Hi. destruct (Ha _ Hi) as (text & Hi1 & Hi2). rewrite Forall_forall in Hf. exact (proj1 (proj1 (Hf _ Hi1) _ Hi2) eq_refl).
Qed.

(** ** Quiet *)
Lemma quiet_nothing junk mode inputs out e : kofmt junk true mode inputs out e -> out = [].
Proof.
  induction 1 as [|i rest out e H He|i rest out out' e H _ ->]; [reflexivity|inversion H; reflexivity|]. rewrite app_nil_r. inversion H; reflexivity.
Qed.
Lemma main_quiet_parse junk by_lines scope inputs e :
  kofmt junk true (FParse by_lines scope) inputs [] e <-> exists out, kofmt junk false (FParse by_lines scope) inputs out e.
Proof.
  split.
  - intros H. remember (@nil ascii) as z. clear Heqz. induction H as [|i rest out e H He|i rest out out' e H _ [out'' IH]].
    + exists []. constructor.
    + inversion H as [| |bl sc j o1 e1 X]; subst. exists o1. apply kf_stop; assumption.
    + inversion H as [| |bl sc j o1 e1 X]; subst. exists (o1 ++ out''). apply kf_next; assumption.
  - intros [out H]. induction H as [|i rest out e H He|i rest out out' e H _ IH].
    + constructor.
    + apply kf_stop; [|exact He]. eapply fq_parse. exact H.
    + change (@nil ascii) with ([] ++ @nil ascii). apply kf_next; [eapply fq_parse; exact H|exact IH].
Qed.
Lemma main_quiet_lex junk inputs : kofmt junk true FLex inputs [] FOk <-> Forall (fun i => exists text, is_text i text) inputs.
Proof.
  rewrite main_kofmt_files. split.
  - intros (outs & H & _). induction H as [|i o inputs outs H _ IH]; constructor; [|exact IH]. inversion H; subst. eexists. apply read_to_string_some. eassumption.
  - intros H. exists (map (fun _ => []) inputs). split; [|induction inputs; [reflexivity|cbn; apply IHinputs; inversion H; assumption]].
    induction H as [|i inputs [text Ht] _ IH]; constructor; [|exact IH]. eapply fq_lex. apply read_to_string_some. exact Ht.
Qed.

(** ** The program on one file *)
Lemma kofmt_one junk quiet mode i out e : kofmt junk quiet mode [i] out e <-> fmt_one junk quiet mode i out e.
Proof.
  split.
  - intros H. inversion H as [|? ? ? ? A B|? ? o1 o2 ? A B]; subst; [exact A|]. inversion B; subst. rewrite app_nil_r. exact A.
  - intros H. assert (D : e = FOk \/ e <> FOk) by (destruct e; [left; reflexivity|right; discriminate..]).
    destruct D as [->|D]; [|apply kf_stop; assumption]. rewrite <- (app_nil_r out). apply kf_next; [exact H|constructor].
Qed.
Lemma main_kofmt_one junk mode i out e : kofmt junk false mode [i] out e <-> fmt_file junk mode i out e.
Proof. apply kofmt_one. Qed.
Lemma main_kofmt_each junk quiet mode inputs out : kofmt junk quiet mode inputs out FOk <->
  exists outs, Forall2 (fun i o => kofmt junk quiet mode [i] o FOk) inputs outs /\ out = concat outs.
Proof.
  rewrite main_kofmt_files. split; intros (outs & H & ->); exists outs; (split; [|reflexivity]);
    (induction H as [|i o inputs outs H _ IH]; constructor; [apply kofmt_one; exact H|exact IH]).
Qed.
Lemma main_kofmt_first junk quiet mode inputs out e : e <> FOk -> (kofmt junk quiet mode inputs out e <->
  exists before i after out1 out2, inputs = before ++ i :: after /\ out = out1 ++ out2 /\
    kofmt junk quiet mode before out1 FOk /\ kofmt junk quiet mode [i] out2 e).
Proof.
  intros He. split.
  - induction 1 as [|i rest out e H _|i rest out out' e H _ IH]; [contradiction| |].
    + exists [], i, rest, [], out. split; [reflexivity|]. split; [reflexivity|]. split; [constructor|apply kofmt_one; exact H].
    + destruct (IH He) as (before & j & after & o1 & o2 & -> & -> & H1 & H2). exists (i :: before), j, after, (out ++ o1), o2.
      split; [reflexivity|]. split; [apply app_assoc|]. split; [apply kf_next; assumption|exact H2].
  - intros (before & i & after & o1 & o2 & -> & -> & H1 & H2). remember FOk as k eqn:Ek in H1. induction H1 as [|j rest out k H1 Hk|j rest out out' k H1 _ IH].
    + apply kf_stop; [apply kofmt_one; exact H2|exact He].
    + contradiction.
    + subst k. rewrite <- app_assoc. cbn [app]. apply kf_next; [exact H1|]. apply IH. reflexivity.
Qed.
Lemma main_kofmt_error junk by_lines scope text cs err : utf8 text -> parsed junk by_lines text cs (Some err) ->
  kofmt junk false (FParse by_lines scope) [Opened text false] (shown scope cs) FPanic.
Proof. intros Hu H. apply main_kofmt_one. apply (file_parsed junk by_lines scope text cs (Some err)); auto. Qed.
Lemma main_kofmt_io junk mode i : (forall text, ~ is_text i text) -> i = Closed \/ mode = FLex \/ (exists scope, mode = FParse false scope) ->
  kofmt junk false mode [i] [] FIo.
Proof.
  intros Hn [->|Hm]; apply main_kofmt_one.
  - destruct mode as [|[|] scope].
    + apply file_io; auto.
    + apply file_closed. auto.
    + apply file_io; eauto.
  - apply file_io; auto.
Qed.
Lemma main_kofmt_cut junk scope b1 b2 fails cs r : utf8 b1 -> whole_lines b1 -> bad_start b2 fails -> parsed junk true b1 cs r ->
  kofmt junk false (FParse true scope) [Opened (b1 ++ b2) fails] (shown scope cs) FPanic.
Proof. intros H1 H2 H3 H4. apply main_kofmt_one. eapply file_cut; eauto. Qed.
Lemma put_tokens_not_io toks : forall sp out, put_tokens sp toks <> (out, FIo).
Proof.
  intros sp out E. destruct (put_tokens_end toks sp) as [[X _]|[X _]]; rewrite E in X; discriminate.
Qed.
Lemma puts_not_io {S Tm} (next : S -> res parse_error (option (pcommand Tm)) * S) show s out : ~ puts next show s out FIo.
Proof. intros H. remember FIo as e eqn:E. induction H; try discriminate. auto. Qed.
Lemma main_kofmt_io_only junk quiet mode inputs out : kofmt junk quiet mode inputs out FIo ->
  exists i, In i inputs /\ forall text, ~ is_text i text.
Proof.
  intros H. apply main_kofmt_first in H; [|discriminate]. destruct H as (before & i & after & o1 & o2 & -> & _ & _ & H).
  exists i. split; [apply in_or_app; right; left; reflexivity|]. apply kofmt_one in H.
  assert (F : forall o, fmt_file junk mode i o FIo -> forall text, ~ is_text i text).
  { intros o X. inversion X; subst; try (apply read_to_string_none; assumption);
      try (exfalso; eapply puts_not_io; eassumption); try (exfalso; eapply put_tokens_not_io; eassumption).
    intros text [Z _]. discriminate. }
  unfold fmt_one in H. destruct quiet; [|eapply F; exact H]. inversion H; subst; [apply read_to_string_none; assumption|]. eapply F. eassumption.
Qed.
