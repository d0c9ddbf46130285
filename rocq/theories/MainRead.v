(** * Lemmas for C76: reading of files *)

From Verif Require Import Base ModelTerm ModelSyntax ModelSymbols ModelLex ModelParse ModelMake ModelPath ModelProcess ModelMain ModelRead ModelUtf8
  SpecUtf8 SpecMake SpecTyping SpecRead SpecParse SpecProcess SpecProgram MainUtf8 MainMake MainParse MainProcess MainRun MainChannel MainProgram.

(** ** UTF-8 *)
Lemma in_range_iff a b c : in_range a b c = true <-> byte_in a b c.
Proof.
  unfold in_range, byte_in. destruct (a <=? nat_of_ascii c) eqn:E.
  - apply Nat.leb_le in E. rewrite Nat.leb_le. split; [intros; lia|intros [_ H]; exact H].
  - apply Nat.leb_gt in E. split; [discriminate|intros H; lia].
Qed.
Lemma in_range_not a b c : in_range a b c = false <-> ~ byte_in a b c.
Proof. rewrite <- in_range_iff. destruct (in_range a b c); split; intros H; try congruence; intros X; congruence. Qed.

Lemma three_spec a b c : three_ok a b = true -> cont_ok c = true -> utf8_char [a; b; c].
Proof.
  unfold three_ok, cont_ok. intros H Hc. apply in_range_iff in Hc.
  destruct (in_range 224 224 a) eqn:E1; [apply in_range_iff in E1, H; unfold byte_in in E1; apply uc_3_low; [lia|assumption..]|].
  destruct (in_range 237 237 a) eqn:E2; [apply in_range_iff in E2, H; unfold byte_in in E2; apply uc_3_surrogate; [lia|assumption..]|].
  destruct (in_range 225 239 a) eqn:E3; [|discriminate]. apply in_range_iff in E3, H. apply in_range_not in E2.
  apply uc_3; [assumption|unfold byte_in in E2; lia|assumption..].
Qed.
Lemma four_spec a b c d : four_ok a b = true -> cont_ok c = true -> cont_ok d = true -> utf8_char [a; b; c; d].
Proof.
  unfold four_ok, cont_ok. intros H Hc Hd. apply in_range_iff in Hc, Hd.
  destruct (in_range 240 240 a) eqn:E1; [apply in_range_iff in E1, H; unfold byte_in in E1; apply uc_4_low; [lia|assumption..]|].
  destruct (in_range 244 244 a) eqn:E2; [apply in_range_iff in E2, H; unfold byte_in in E2; apply uc_4_high; [lia|assumption..]|].
  destruct (in_range 241 243 a) eqn:E3; [|discriminate]. apply in_range_iff in E3, H. apply uc_4; assumption.
Qed.
Lemma valid_sound n : forall s, length s <= n -> valid_utf8 s = true -> utf8 s.
Proof.
  induction n as [|n IH]; intros s Hl H.
  - destruct s; [constructor|cbn in Hl; lia].
  - destruct s as [|a s1]; [constructor|]. cbn [length] in Hl. cbn [valid_utf8] in H.
    destruct (in_range 0 127 a) eqn:E1.
    { apply in_range_iff in E1. change (a :: s1) with ([a] ++ s1). constructor; [constructor; exact E1|apply IH; [lia|exact H]]. }
    destruct s1 as [|b s2]; [discriminate|]. cbn [length] in Hl.
    destruct (in_range 194 223 a) eqn:E2.
    { destruct (cont_ok b) eqn:Eb; [|discriminate]. apply in_range_iff in E2. apply in_range_iff in Eb.
      change (a :: b :: s2) with ([a; b] ++ s2). constructor; [constructor; assumption|apply IH; [lia|exact H]]. }
    destruct s2 as [|c s3]; [discriminate|]. cbn [length] in Hl.
    destruct (three_ok a b) eqn:E3.
    { destruct (cont_ok c) eqn:Ec; [|discriminate]. change (a :: b :: c :: s3) with ([a; b; c] ++ s3).
      constructor; [apply three_spec; assumption|apply IH; [lia|exact H]]. }
    destruct s3 as [|d s4]; [discriminate|]. cbn [length] in Hl.
    destruct (four_ok a b) eqn:E4; [|discriminate]. destruct (cont_ok c) eqn:Ec; [|discriminate]. destruct (cont_ok d) eqn:Ed; [|discriminate].
    change (a :: b :: c :: d :: s4) with ([a; b; c; d] ++ s4). constructor; [apply four_spec; assumption|apply IH; [lia|exact H]].
Qed.
Lemma range_yes a b c : byte_in a b c -> in_range a b c = true.
Proof. apply in_range_iff. Qed.
Lemma range_no a b c : nat_of_ascii c < a \/ b < nat_of_ascii c -> in_range a b c = false.
Proof. intros H. apply in_range_not. unfold byte_in. lia. Qed.
Lemma valid_char ch s : utf8_char ch -> valid_utf8 s = true -> valid_utf8 (ch ++ s) = true.
Proof.
  intros H Hs. destruct H; unfold cont_byte, byte_in in *; cbn [app valid_utf8]; unfold three_ok, four_ok, cont_ok;
    repeat first [ rewrite range_no by lia | rewrite range_yes by (unfold byte_in; lia) ]; exact Hs.
Qed.
Lemma valid_utf8_iff s : valid_utf8 s = true <-> utf8 s.
Proof.
  split; [apply (valid_sound (length s)); lia|]. induction 1 as [|ch s Hc _ IH]; [reflexivity|]. apply valid_char; assumption.
Qed.
Lemma utf8_lf a b : utf8 (a ++ LF :: b) <-> utf8 a /\ utf8 b.
Proof.
  assert (L : nat_of_ascii LF < 128) by (vm_compute; lia).
  split; [apply utf8_at; exact L|]. intros [Ha Hb]. apply utf8_app; [exact Ha|]. change (LF :: b) with ([LF] ++ b).
  apply utf8_app; [apply utf8_ascii; exact L|exact Hb].
Qed.
Lemma check_line_some l : utf8 l -> check_line l = Some l.
Proof. intros H. unfold check_line. apply valid_utf8_iff in H. rewrite H. reflexivity. Qed.
Lemma check_line_none l : ~ utf8 l -> check_line l = None.
Proof. intros H. unfold check_line. destruct (valid_utf8 l) eqn:E; [|reflexivity]. apply valid_utf8_iff in E. contradiction. Qed.
Lemma utf8_dec s : utf8 s \/ ~ utf8 s.
Proof. destruct (valid_utf8 s) eqn:E; [left; apply valid_utf8_iff; exact E|right; rewrite <- valid_utf8_iff; congruence]. Qed.

(** ** Lines *)
Lemma read_pieces_cons l ls fails : ls <> [] -> read_pieces (l :: ls) fails = option_map strip_cr (check_line l) :: read_pieces ls fails.
Proof. intros H. destruct ls; [congruence|reflexivity]. Qed.
Lemma cr_lines_cons l ls : ls <> [] -> cr_lines (l :: ls) = strip_cr l :: cr_lines ls.
Proof. intros H. destruct ls; [congruence|reflexivity]. Qed.
Lemma read_lines_lf l s fails : ~ In LF l -> read_lines (l ++ LF :: s) fails = option_map strip_cr (check_line l) :: read_lines s fails.
Proof.
  intros H. unfold read_lines. change LF with "010"%char in *. rewrite pieces_head by exact H. apply read_pieces_cons. apply split_nonempty.
Qed.
Lemma text_lines_lf l s : ~ In LF l -> text_lines (l ++ LF :: s) = strip_cr l :: text_lines s.
Proof.
  intros H. unfold text_lines. change LF with "010"%char in *. rewrite pieces_head by exact H. apply cr_lines_cons. apply split_nonempty.
Qed.
Lemma lf_cases s : ~ In LF s \/ exists l s', s = l ++ LF :: s' /\ ~ In LF l.
Proof.
  pose proof (split_pieces LF s) as H. destruct H as [p Hn|p s ps Hn H]; [left; exact Hn|right; eauto].
Qed.
Lemma read_lines_good n : forall bytes, length bytes <= n -> utf8 bytes -> read_lines bytes false = map Some (text_lines bytes).
Proof.
  induction n as [|n IH]; intros bytes Hl H.
  - destruct bytes; [reflexivity|cbn in Hl; lia].
  - destruct (lf_cases bytes) as [Hn|(l & s & -> & Hn)].
    + unfold read_lines, text_lines. change LF with "010"%char in Hn. rewrite pieces_single by exact Hn. cbn [read_pieces cr_lines].
      destruct bytes; [reflexivity|]. rewrite check_line_some by exact H. reflexivity.
    + apply utf8_lf in H as [H1 H2]. rewrite read_lines_lf, text_lines_lf by exact Hn. rewrite check_line_some by exact H1. cbn [map option_map].
      f_equal. apply IH; [|exact H2]. rewrite app_length in Hl. cbn in Hl. lia.
Qed.
(** the bytes are UTF-8, or they begin with some complete lines, followed by a line that cannot be read *)
Lemma read_cases n : forall bytes fails, length bytes <= n ->
  (utf8 bytes /\ fails = false) \/ exists b1 b2, bytes = b1 ++ b2 /\ utf8 b1 /\ whole_lines b1 /\ bad_start b2 fails.
Proof.
  induction n as [|n IH]; intros bytes fails Hl.
  - destruct bytes; [|cbn in Hl; lia]. destruct fails; [right|left; split; [constructor|reflexivity]].
    exists [], []. split; [reflexivity|]. split; [constructor|]. split; [left; reflexivity|]. apply bs_fails. intros [].
  - destruct (lf_cases bytes) as [Hn|(l & s & -> & Hn)].
    + destruct fails.
      * right. exists [], bytes. split; [reflexivity|]. split; [constructor|]. split; [left; reflexivity|]. apply bs_fails. exact Hn.
      * destruct (utf8_dec bytes) as [H|H]; [left; auto|right]. exists [], bytes. split; [reflexivity|]. split; [constructor|].
        split; [left; reflexivity|]. apply bs_last; assumption.
    + destruct (utf8_dec l) as [H|H].
      * destruct (IH s fails) as [[H1 H2]|(b1 & b2 & -> & H1 & H2 & H3)]; [rewrite app_length in Hl; cbn in Hl; lia|left|right].
        -- split; [apply utf8_lf; auto|exact H2].
        -- exists (l ++ LF :: b1), b2. split; [rewrite <- app_assoc; reflexivity|]. split; [apply utf8_lf; auto|]. split; [|exact H3].
           right. destruct H2 as [->|[s' ->]]; [exists l; reflexivity|exists (l ++ LF :: s'); rewrite <- app_assoc; reflexivity].
      * right. exists [], (l ++ LF :: s). split; [reflexivity|]. split; [constructor|]. split; [left; reflexivity|]. apply bs_line; assumption.
Qed.
Lemma read_lines_bad b2 fails : bad_start b2 fails -> exists rest, read_lines b2 fails = None :: rest.
Proof.
  intros H. destruct H as [l rest fails Hn Hu|l fails Hn Hu|l Hn].
  - rewrite read_lines_lf by exact Hn. rewrite check_line_none by exact Hu. eexists. reflexivity.
  - unfold read_lines. change LF with "010"%char in Hn. rewrite pieces_single by exact Hn. cbn [read_pieces]. destruct fails; [eexists; reflexivity|].
    destruct l; [exfalso; apply Hu; constructor|]. rewrite check_line_none by exact Hu. eexists. reflexivity.
  - unfold read_lines. change LF with "010"%char in Hn. rewrite pieces_single by exact Hn. cbn [read_pieces]. eexists. reflexivity.
Qed.
Lemma whole_rest l s : ~ In LF l -> whole_lines (l ++ LF :: s) -> whole_lines s.
Proof.
  intros Hn [H|[s' H]]; [destruct l; discriminate|]. destruct s as [|a s _] using rev_ind; [left; reflexivity|].
  right. exists s. assert (E : (l ++ LF :: s) ++ [a] = s' ++ [LF]) by (rewrite <- app_assoc; exact H). apply app_inj_tail in E as [_ ->]. reflexivity.
Qed.
Lemma read_lines_app n : forall b1 b2 fails, length b1 <= n -> utf8 b1 -> whole_lines b1 ->
  read_lines (b1 ++ b2) fails = map Some (text_lines b1) ++ read_lines b2 fails.
Proof.
  induction n as [|n IH]; intros b1 b2 fails Hl Hu Hw.
  - destruct b1; [reflexivity|cbn in Hl; lia].
  - destruct (lf_cases b1) as [Hn|(l & s & -> & Hn)].
    + destruct Hw as [->|[s' ->]]; [reflexivity|]. exfalso. apply Hn. apply in_or_app. right. left. reflexivity.
    + apply utf8_lf in Hu as [H1 H2]. rewrite <- app_assoc. cbn [app]. rewrite read_lines_lf, text_lines_lf by exact Hn.
      rewrite check_line_some by exact H1. cbn [option_map map app]. f_equal. apply IH; [|exact H2|exact (whole_rest _ _ Hn Hw)].
      rewrite app_length in Hl. cbn in Hl. lia.
Qed.

(** ** The parser *)
Definition unlined {A} (p : lazy A) : lazy A := MkLazy [] (lz_open p) (lz_state p) (lz_ctx p) (lz_buf p).
Section Lines.
  Context {A : Type}.
  Variable scope : symb -> tctx A -> A.
  Variable junk : str -> nat.
  Notation llines := (lazy_lines scope junk).
  Notation rlines := (read_next_ scope junk).

  Lemma lines_step good rest : forall open st ctx,
    (exists open' st' ctx', llines good open st ctx = llines [] open' st' ctx' /\
       rlines (map Some good ++ rest) open st ctx = rlines rest open' st' ctx') \/
    (exists r p', llines good open st ctx = (r, p') /\ r <> Ok None /\
       rlines (map Some good ++ rest) open st ctx = (r, (map Some (lz_lines p') ++ rest, unlined p'))).
  Proof.
    induction good as [|line good IH]; intros open st ctx; [left; eauto|].
    cbn [lazy_lines map app read_next_]. destruct (comment open line) as [open1 line1]. destruct (0 <? open1); [apply IH|].
    destruct (feed_line scope st ctx [] 0 (lex junk line1)) as [[r ctx1] buf]. destruct r as [[st1 open2]|e| |].
    - destruct (rev buf) as [|cmd buf']; [apply IH|]. right. eexists _, _. split; [reflexivity|]. split; [discriminate|reflexivity].
    - right. eexists _, _. split; [reflexivity|]. split; [discriminate|reflexivity].
    - right. eexists _, _. split; [reflexivity|]. split; [discriminate|reflexivity].
    - right. eexists _, _. split; [reflexivity|]. split; [discriminate|reflexivity].
  Qed.
  Lemma lines_end open st ctx : (fst (llines [] open st ctx) = Ok None \/ fst (llines [] open st ctx) = Err ExpectedInput) /\
    fst (rlines [] open st ctx) = fst (llines [] open st ctx).
  Proof. cbn. destruct (ps_cmd st); destruct open; auto. Qed.
End Lines.

Section Parser.
  Variable junk : str -> nat.
  Notation lnext := (lazy_next scope_atom junk).
  Notation rnext := (read_next scope_atom junk).

  (** all lines can be read *)
  Lemma results_good p items : results lnext p items -> results rnext (map Some (lz_lines p), unlined p) items.
  Proof.
    assert (X : forall p r p', lnext p = (r, p') -> (forall c, r <> Ok (Some c)) -> fst (rnext (map Some (lz_lines p), unlined p)) = r).
    { clear. intros p r p' H Hr. unfold lazy_next in H. unfold read_next. cbn [unlined lz_buf lz_open lz_state lz_ctx].
      destruct (lz_buf p) as [|cmd buf]; [|injection H as <- <-; exfalso; eapply Hr; reflexivity].
      destruct (lines_step scope_atom junk (lz_lines p) [] (lz_open p) (lz_state p) (lz_ctx p)) as [(o1 & s1 & c1 & E1 & E2)|(r1 & p1 & E1 & Hn & E2)];
        rewrite app_nil_r in E2; rewrite E2; rewrite E1 in H.
      - rewrite (proj2 (lines_end scope_atom junk o1 s1 c1)), H. reflexivity.
      - injection H as <- <-. reflexivity. }
    intros H. induction H as [p H|p c p' items H _ IH|p e H|p H|p H].
    - destruct (lnext p) as [r p'] eqn:E. cbn in H. apply results_end. eapply X in E; [exact (eq_trans E H)|intros c Z; rewrite H in Z; discriminate].
    - eapply results_ok; [|exact IH]. unfold lazy_next in H. unfold read_next. cbn [unlined lz_buf lz_open lz_state lz_ctx].
      destruct (lz_buf p) as [|cmd buf]; [|injection H as <- <-; reflexivity].
      destruct (lines_step scope_atom junk (lz_lines p) [] (lz_open p) (lz_state p) (lz_ctx p)) as [(o1 & s1 & c1 & E1 & E2)|(r1 & p1 & E1 & Hn & E2)];
        rewrite app_nil_r in E2; rewrite E2; rewrite E1 in H.
      + exfalso. pose proof (proj1 (lines_end scope_atom junk o1 s1 c1)) as Z. rewrite H in Z. cbn in Z. destruct Z; discriminate.
      + injection H as -> ->. rewrite app_nil_r. reflexivity.
    - destruct (lnext p) as [r p'] eqn:E. cbn in H. apply results_err. eapply X in E; [exact (eq_trans E H)|intros c Z; rewrite H in Z; discriminate].
    - destruct (lnext p) as [r p'] eqn:E. cbn in H. apply results_panic. eapply X in E; [exact (eq_trans E H)|intros c Z; rewrite H in Z; discriminate].
    - destruct (lnext p) as [r p'] eqn:E. cbn in H. apply results_fuel. eapply X in E; [exact (eq_trans E H)|intros c Z; rewrite H in Z; discriminate].
  Qed.
  (** some line cannot be read *)
  Definition cut_short (items0 items : list (res parse_error scoped)) : Prop :=
    (exists cmds, (items0 = map Ok cmds \/ items0 = map Ok cmds ++ [Err ExpectedInput]) /\ items = map Ok cmds ++ [Panic]) \/
    (exists cmds e, items0 = map Ok cmds ++ [e] /\ is_ok e = false /\ items = items0).
  Lemma cut_short_cons c items0 items : cut_short items0 items -> cut_short (Ok c :: items0) (Ok c :: items).
  Proof.
    intros [(cmds & H & ->)|(cmds & e & -> & He & ->)].
    - left. exists (c :: cmds). split; [|reflexivity]. destruct H as [->| ->]; auto.
    - right. exists (c :: cmds), e. auto.
  Qed.
  Lemma results_bad p items0 rest : results lnext p items0 ->
    exists items, results rnext (map Some (lz_lines p) ++ None :: rest, unlined p) items /\ cut_short items0 items.
  Proof.
    assert (X : forall p r p', lnext p = (r, p') -> (forall c, r <> Ok (Some c)) ->
      (fst (rnext (map Some (lz_lines p) ++ None :: rest, unlined p)) = Panic /\ (r = Ok None \/ r = Err ExpectedInput)) \/
      (fst (rnext (map Some (lz_lines p) ++ None :: rest, unlined p)) = r /\ r <> Ok None)).
    { clear. intros p r p' H Hr. unfold lazy_next in H. unfold read_next. cbn [unlined lz_buf lz_open lz_state lz_ctx].
      destruct (lz_buf p) as [|cmd buf]; [|injection H as <- <-; exfalso; eapply Hr; reflexivity].
      destruct (lines_step scope_atom junk (lz_lines p) (None :: rest) (lz_open p) (lz_state p) (lz_ctx p)) as [(o1 & s1 & c1 & E1 & E2)|(r1 & p1 & E1 & Hn & E2)];
        rewrite E2; rewrite E1 in H.
      - left. split; [reflexivity|]. pose proof (proj1 (lines_end scope_atom junk o1 s1 c1)) as Z. rewrite H in Z. exact Z.
      - right. injection H as <- <-. split; [reflexivity|exact Hn]. }
    intros H. induction H as [p H|p c p' items0 H _ (items & IH & Hc)|p e H|p H|p H].
    - destruct (lnext p) as [r p'] eqn:E. cbn in H. subst r. exists [Panic]. destruct (X _ _ _ E ltac:(intros c; discriminate)) as [[X1 _]|[_ X1]]; [|exfalso; apply X1; reflexivity].
      split; [apply results_panic; exact X1|]. left. exists []. auto.
    - exists (Ok c :: items). split; [|apply cut_short_cons; exact Hc]. eapply results_ok; [|exact IH].
      unfold lazy_next in H. unfold read_next. cbn [unlined lz_buf lz_open lz_state lz_ctx].
      destruct (lz_buf p) as [|cmd buf]; [|injection H as <- <-; reflexivity].
      destruct (lines_step scope_atom junk (lz_lines p) (None :: rest) (lz_open p) (lz_state p) (lz_ctx p)) as [(o1 & s1 & c1 & E1 & E2)|(r1 & p1 & E1 & Hn & E2)];
        rewrite E2; rewrite E1 in H.
      + exfalso. pose proof (proj1 (lines_end scope_atom junk o1 s1 c1)) as Z. rewrite H in Z. cbn in Z. destruct Z; discriminate.
      + injection H as -> ->. reflexivity.
    - destruct (lnext p) as [r p'] eqn:E. cbn in H. subst r. destruct (X _ _ _ E ltac:(intros c; discriminate)) as [[X1 X2]|[X1 _]].
      + exists [Panic]. split; [apply results_panic; exact X1|]. left. exists []. split; [|reflexivity]. right.
        destruct X2 as [X2|X2]; [discriminate|]. injection X2 as ->. reflexivity.
      + exists [Err e]. split; [apply results_err; exact X1|]. right. exists [], (Err e). auto.
    - destruct (lnext p) as [r p'] eqn:E. cbn in H. subst r. exists [Panic]. destruct (X _ _ _ E ltac:(intros c; discriminate)) as [[X1 X2]|[X1 _]].
      + destruct X2; discriminate.
      + split; [apply results_panic; exact X1|]. right. exists [], Panic. auto.
    - destruct (lnext p) as [r p'] eqn:E. cbn in H. subst r. exists [Fuel]. destruct (X _ _ _ E ltac:(intros c; discriminate)) as [[X1 X2]|[X1 _]].
      + destruct X2; discriminate.
      + split; [apply results_fuel; exact X1|]. right. exists [], Fuel. auto.
  Qed.

  (** parsing of a text always has results, which are commands and possibly an error at the end *)
  Lemma lazy_results p : (exists l r, outcome lnext p l r) -> exists items, results lnext p items /\ (forall it, In it items -> it <> Panic /\ it <> Fuel).
  Proof.
    intros (l & r & H). induction H as [s H|s e H|s i s1 l r H _ (items & IH1 & IH2)].
    - exists []. split; [apply results_end; exact H|intros it []].
    - exists [Err e]. split; [apply results_err; exact H|]. intros it [<-|[]]. split; discriminate.
    - exists (Ok i :: items). split; [eapply results_ok; eassumption|]. intros it [<-|Hi]; [split; discriminate|auto].
  Qed.
  Lemma parse_total text : exists items, parse_text junk text items /\ (forall it, In it items -> it <> Panic /\ it <> Fuel).
  Proof. apply lazy_results. apply lazy_outcome. Qed.

  Lemma bytes_good bytes items : utf8 bytes -> (parse_bytes junk bytes false items <-> parse_text junk bytes items).
  Proof.
    intros H. unfold parse_bytes, parse_text. rewrite (read_lines_good (length bytes)) by (lia || exact H).
    assert (X : forall l, results lnext (lazy_new (text_lines bytes)) l -> results rnext (map Some (text_lines bytes), lazy_new []) l).
    { intros l Hl. apply results_good in Hl. exact Hl. }
    split; [|apply X]. intros Hr. destruct (parse_total bytes) as (items' & Hp & _). rewrite (results_det _ _ _ (X _ Hp) _ Hr). exact Hp.
  Qed.
  Lemma bytes_bad b1 b2 fails items0 : utf8 b1 -> whole_lines b1 -> bad_start b2 fails -> parse_text junk b1 items0 ->
    exists items, parse_bytes junk (b1 ++ b2) fails items /\ cut_short items0 items.
  Proof.
    intros Hu Hw Hb H. unfold parse_bytes. rewrite (read_lines_app (length b1)) by (lia || assumption).
    destruct (read_lines_bad _ _ Hb) as [rest ->]. exact (results_bad _ _ rest H).
  Qed.
  Lemma bytes_det bytes fails items items' : parse_bytes junk bytes fails items -> parse_bytes junk bytes fails items' -> items' = items.
  Proof. intros H H'. exact (results_det _ _ _ H _ H'). Qed.
  Lemma bytes_total bytes fails : exists items, parse_bytes junk bytes fails items.
  Proof.
    destruct (read_cases (length bytes) bytes fails) as [[H1 ->]|(b1 & b2 & -> & H1 & H2 & H3)]; [lia| |].
    - destruct (parse_total bytes) as (items & H & _). exists items. apply bytes_good; assumption.
    - destruct (parse_total b1) as (items0 & H & _). destruct (bytes_bad _ _ _ _ H1 H2 H3 H) as (items & Hi & _). eauto.
  Qed.
  (** all results are commands only if the bytes are a text *)
  Lemma bytes_ok bytes fails cmds : parse_bytes junk bytes fails (map Ok cmds) -> utf8 bytes /\ fails = false.
  Proof.
    intros H. destruct (read_cases (length bytes) bytes fails) as [Hg|(b1 & b2 & -> & H1 & H2 & H3)]; [lia|exact Hg|exfalso].
    destruct (parse_total b1) as (items0 & H0 & _). destruct (bytes_bad _ _ _ _ H1 H2 H3 H0) as (items & Hi & Hc).
    assert (E := bytes_det _ _ _ _ H Hi).
    assert (X : forall cmds' (e : res parse_error scoped), is_ok e = false -> map Ok cmds <> map Ok cmds' ++ [e]).
    { clear. intros cmds' e He E. assert (Hi : In e (map Ok cmds)) by (rewrite E; apply in_or_app; right; left; reflexivity).
      apply in_map_iff in Hi as (c & <- & _). discriminate. }
    destruct Hc as [(cmds' & _ & E')|(cmds' & e & E' & He & E'')].
    - rewrite E' in E. exact (X cmds' Panic eq_refl (eq_sym E)).
    - rewrite E'', E' in E. exact (X cmds' e He (eq_sym E)).
  Qed.
End Parser.

(** ** Programs *)
Section Programs.
  Variable junk : str -> nat.
  Variable K : kernel.
  Variable o : opts.
  Notation run_files := (run_files parse_error K o).
  Notation seq := (infer_checks_seq parse_error K o _ (run_item parse_error o)).
  Notation steps := (par_steps parse_error K o _ (run_item parse_error o)).
  Notation step := (par_step parse_error K o _ (run_item parse_error o)).

  Lemma infer_checks_read_iff items st st' r : r <> Panic ->
    (infer_checks_read K o items st st' r <-> infer_checks parse_error K o _ (run_item parse_error o) items st st' r).
  Proof. intros H. unfold infer_checks_read. split; [intros [X|(_ & X & _)]; [exact X|contradiction]|auto]. Qed.
  Lemma run_read_iff files : forall st r, r <> Panic -> (run_read K o files st r <-> run_files files st r).
  Proof.
    induction files as [|[p items] files IH]; intros st r Hr; (split; intros H).
    - inversion H; subst. constructor.
    - inversion H; subst. constructor.
    - inversion H as [|e i fs s|path i fs s st' r' H1 H2|path i fs s st' r' H1 H2]; subst.
      + constructor.
      + eapply run_err; [apply infer_checks_read_iff; eassumption|exact H2].
      + eapply run_ok; [apply infer_checks_read_iff; [discriminate|eassumption]|apply IH; assumption].
    - inversion H as [|e i fs s|path i fs s st' r' H1 H2|path i fs s st' r' H1 H2]; subst.
      + constructor.
      + eapply rr_err; [apply infer_checks_read_iff; eassumption|exact H2].
      + eapply rr_ok; [apply infer_checks_read_iff; [discriminate|eassumption]|apply IH; assumption].
  Qed.

  Lemma until_panic_none items : ~ In Panic items -> until_panic items = (items, false).
  Proof.
    induction items as [|[c|e| |] items IH]; intros H; cbn [until_panic]; try reflexivity;
      try (rewrite IH by (intros X; apply H; right; exact X); reflexivity).
    exfalso. apply H. left. reflexivity.
  Qed.
  Lemma until_panic_false items items' : until_panic items = (items', false) -> items' = items.
  Proof.
    revert items'. induction items as [|[c|e| |] items IH]; intros items'; cbn [until_panic]; [intros [= <-]; reflexivity| | |discriminate|];
      (destruct (until_panic items) as [l b]; intros [= <- ->]; f_equal; apply IH; reflexivity).
  Qed.
  Lemma produce_read_same files : Forall (fun f => ~ In Panic (snd f)) files -> forall cap, produce_read files cap = produce parse_error files cap.
  Proof.
    induction 1 as [|[p items] files H _ IH]; intros cap; [reflexivity|]. cbn [snd] in H. destruct p as [path|e| |]; [|reflexivity..].
    cbn [produce_read produce]. rewrite until_panic_none by exact H. destruct cap as [n|]; [|rewrite IH; reflexivity].
    destruct (n <? _); [reflexivity|]. rewrite IH. reflexivity.
  Qed.
  Lemma produce_read_ok files : forall cap evs u, produce_read files cap = (evs, Ok u, false) -> produce parse_error files cap = (evs, Ok u, false).
  Proof.
    induction files as [|[p items] files IH]; intros cap evs u; [auto|]. destruct p as [path|e| |]; [|cbn; discriminate..].
    cbn [produce_read produce]. destruct (until_panic items) as [items' b] eqn:E. destruct b.
    - destruct cap as [n|]; [destruct (n <? _)|]; discriminate.
    - apply until_panic_false in E as ->. destruct cap as [n|].
      + destruct (n <? _); [discriminate|]. destruct (produce_read files _) as [[evs' r] b] eqn:E. intros [= <- -> ->]. rewrite (IH _ _ _ E). reflexivity.
      + destruct (produce_read files _) as [[evs' r] b] eqn:E. intros [= <- -> ->]. rewrite (IH _ _ _ E). reflexivity.
  Qed.
  Lemma channel_read_ok files : channel_read K o files (Ok tt) -> main_channel parse_error K o files (Ok tt).
  Proof.
    intros (cap & evs & r1 & failed & E & H). destruct r1 as [u|e| |]; try discriminate. destruct H as [H Hf].
    destruct failed; [destruct (Hf eq_refl); discriminate|]. exists cap, evs, (Ok u), false. split; [apply produce_read_ok; exact E|auto].
  Qed.

  (** *** Inputs that are texts *)
  Lemma opens_same input text file : has_text_if_open input text -> (opens_bytes junk input file <-> opens junk text file).
  Proof.
    destruct text as [path contents]. intros [(bytes & -> & E & Hu)|[-> E]]; cbn [fst snd] in E |- *; subst contents; (split; intros H; inversion H; subst).
    - constructor; assumption.
    - econstructor; [eassumption|]. apply bytes_good in H5; assumption.
    - constructor; assumption.
    - econstructor; [eassumption|]. apply bytes_good; assumption.
    - constructor; assumption.
    - econstructor; eassumption.
    - constructor; assumption.
    - econstructor; eassumption.
  Qed.
  Lemma opens_all_same inputs texts : Forall2 has_text_if_open inputs texts -> forall files,
    Forall2 (opens_bytes junk) inputs files <-> Forall2 (opens junk) texts files.
  Proof.
    induction 1 as [|i t inputs texts H _ IH]; intros files; (split; intros Hf; inversion Hf; subst; constructor; try (eapply opens_same; eassumption); apply IH; assumption).
  Qed.
  Lemma opens_no_panic text file : opens junk text file -> ~ In Panic (snd file).
  Proof.
    intros H. destruct H as [path c H|path m H|path text m stdin items H1 H2]; cbn [snd]; [intros []..|].
    destruct (parse_total junk text) as (items' & Hp & Hn). rewrite (results_det _ _ _ Hp _ H2). intros Hi. exact (proj1 (Hn _ Hi) eq_refl).
  Qed.
  Lemma main_bytes_same channel inputs texts r : Forall2 has_text_if_open inputs texts -> r <> Panic ->
    (kocheck_bytes junk K o channel inputs r <-> kocheck junk K o channel texts r).
  Proof.
    intros Ht Hr. unfold kocheck_bytes, kocheck.
    assert (X : forall files, Forall2 (opens junk) texts files -> (channel_read K o files r <-> main_channel parse_error K o files r)).
    { intros files Hf. assert (Hp : Forall (fun f => ~ In Panic (snd f)) files).
      { clear - Hf. induction Hf as [|t f ts fs H _ IH]; constructor; [eapply opens_no_panic; exact H|exact IH]. }
      unfold channel_read, main_channel. setoid_rewrite (produce_read_same _ Hp). reflexivity. }
    split; intros (files & Hf & H); exists files.
    - apply (opens_all_same _ _ Ht) in Hf. split; [exact Hf|]. destruct channel; [apply X; assumption|]. apply run_read_iff; assumption.
    - split; [apply (opens_all_same _ _ Ht); exact Hf|]. destruct channel; [apply X; assumption|]. apply run_read_iff; assumption.
  Qed.

  (** *** Accepted inputs *)
  Lemma opens_accepted inputs files : Forall2 (opens_bytes junk) inputs files -> forall evs, files_events parse_error files = Some evs ->
    exists texts, Forall2 has_text inputs texts.
  Proof.
    intros H. induction H as [|i f inputs files H _ IH]; intros evs; cbn [files_events]; [exists []; constructor|].
    destruct H as [path i Hp|path m Hp|path bytes fails m stdin items Hp Hi]; try discriminate.
    destruct (file_commands parse_error items) as [evs1|] eqn:E1; [|discriminate].
    destruct (files_events parse_error files) as [evs2|]; [|discriminate]. intros _. destruct (IH _ eq_refl) as [texts Ht].
    apply file_commands_ok in E1 as (cmds & -> & _). apply bytes_ok in Hi as [Hu ->].
    exists ((path, Some bytes) :: texts). constructor; [|exact Ht]. exists bytes. auto.
  Qed.
  Lemma has_text_weak inputs texts : Forall2 has_text inputs texts -> Forall2 has_text_if_open inputs texts.
  Proof. induction 1; constructor; [left|]; assumption. Qed.
  Lemma main_bytes_accepted channel inputs : kocheck_bytes junk K o channel inputs (Ok tt) <->
    exists texts, Forall2 has_text inputs texts /\ kocheck junk K o channel texts (Ok tt).
  Proof.
    split.
    - intros H. assert (X : exists texts, Forall2 has_text inputs texts).
      { destruct H as (files & Hf & H). assert (Hr : run parse_error K o files (Ok tt)).
        { destruct channel; [apply main_stream; apply channel_read_ok; exact H|]. apply run_read_iff; [discriminate|exact H]. }
        apply run_events in Hr as (evs & E & _). eapply opens_accepted; eassumption. }
      destruct X as [texts Ht]. exists texts. split; [exact Ht|]. eapply main_bytes_same; [apply has_text_weak; exact Ht|discriminate|exact H].
    - intros (texts & Ht & H). eapply main_bytes_same; [apply has_text_weak; exact Ht|discriminate|exact H].
  Qed.

  (** *** A file that cannot be read to its end, after files that are accepted *)
  Lemma step_more p q x : step p q -> step (Par _ _ (p_items _ _ p ++ x) (p_st _ _ p) (p_tasks _ _ p) (p_errs _ _ p))
    (Par _ _ (p_items _ _ q ++ x) (p_st _ _ q) (p_tasks _ _ q) (p_errs _ _ q)).
  Proof. intros H. destruct H; cbn [p_items p_st p_tasks p_errs app]; econstructor; eassumption. Qed.
  Lemma steps_more p q x : steps p q -> steps (Par _ _ (p_items _ _ p ++ x) (p_st _ _ p) (p_tasks _ _ p) (p_errs _ _ p))
    (Par _ _ (p_items _ _ q ++ x) (p_st _ _ q) (p_tasks _ _ q) (p_errs _ _ q)).
  Proof. induction 1 as [p|p q r H _ IH]; [constructor|]. eapply steps_step; [apply step_more; exact H|exact IH]. Qed.
  Lemma checks_panic items st st' : infer_checks parse_error K o _ (run_item parse_error o) items st st' (Ok tt) ->
    infer_checks_read K o (items ++ [Panic]) st st' Panic.
  Proof.
    unfold infer_checks_read, infer_checks. destruct (o_jobs o) eqn:Ej.
    - intros (p & Hs & Hst & H1 & H2 & H3). right. split; [reflexivity|]. split; [reflexivity|].
      exists (Par _ _ (p_items _ _ p ++ [Panic]) (p_st _ _ p) (p_tasks _ _ p) (p_errs _ _ p)). split; [exact (steps_more _ _ [Panic] Hs)|].
      split; [exact Hst|]. left. rewrite H1. exists Panic, []. split; [reflexivity|]. exact I.
    - intros [rest H]. left. exists []. rewrite seq_app, H. reflexivity.
  Qed.
  Lemma run_panic m cmds more pre : forall st, run_files (pre ++ [(Ok m, cmds)]) st (Ok tt) ->
    run_read K o (pre ++ (Ok m, cmds ++ [Panic]) :: more) st Panic.
  Proof.
    induction pre as [|[p items] pre IH]; intros st H; cbn [app] in *.
    - inversion H as [|e i fs s|path i fs s st' r' H1 H2|path i fs s st' r' H1 H2]; subst; [discriminate|].
      eapply rr_err; [apply checks_panic; exact H1|reflexivity].
    - inversion H as [|e i fs s|path i fs s st' r' H1 H2|path i fs s st' r' H1 H2]; subst; [discriminate|].
      eapply rr_ok; [apply infer_checks_read_iff; [discriminate|exact H1]|]. apply IH. exact H2.
  Qed.
  Lemma run_panic_only m cmds more pre : o_jobs o = false -> forall st r, run_files (pre ++ [(Ok m, cmds)]) st (Ok tt) ->
    run_read K o (pre ++ (Ok m, cmds ++ [Panic]) :: more) st r -> r = Panic.
  Proof.
    intros Ej. induction pre as [|[p items] pre IH]; intros st r H Hr; cbn [app] in *;
      (inversion H as [|e i fs s|path i fs s st' r' H1 H2|path i fs s st' r' H1 H2]; subst; [discriminate|]);
      unfold infer_checks in H1; rewrite Ej in H1; destruct H1 as [rest1 H1].
    - assert (E : seq (cmds ++ [Panic]) (PSt (set_path (ps_syms st) m) (ps_next st) (ps_gc st)) = (st', [], Panic)) by (rewrite seq_app, H1; reflexivity).
      inversion Hr as [|e i fs s|path i fs s st2 r' R1 R2|path i fs s st2 r' R1 R2]; subst;
        (destruct R1 as [R1|(X & _)]; [|congruence]); unfold infer_checks in R1; rewrite Ej in R1; destruct R1 as [rest R1]; congruence.
    - inversion Hr as [|e i fs s|path' i fs s st2 r' R1 R2|path' i fs s st2 r' R1 R2]; subst;
        (destruct R1 as [R1|(X & _)]; [|congruence]); unfold infer_checks in R1; rewrite Ej in R1; destruct R1 as [rest R1]; rewrite H1 in R1.
      + injection R1 as _ _ <-. discriminate.
      + injection R1 as <- _. eapply IH; eassumption.
  Qed.
  Lemma until_panic_end cmds : until_panic (map Ok cmds ++ [Panic]) = (map Ok cmds, true).
  Proof. induction cmds as [|c cmds IH]; [reflexivity|]. cbn [map app until_panic]. rewrite IH. reflexivity. Qed.
  Lemma files_events_app pre : forall files evs, files_events parse_error (pre ++ files) = Some evs ->
    Forall (fun f => exists path cmds, f = (Ok path, map Ok cmds)) pre.
  Proof.
    induction pre as [|[p items] pre IH]; intros files evs; [constructor|]. cbn [app files_events]. destruct p as [path|e| |]; try discriminate.
    destruct (file_commands parse_error items) as [evs1|] eqn:E1; [|discriminate].
    destruct (files_events parse_error (pre ++ files)) as [evs2|] eqn:E2; [|discriminate]. intros _.
    apply file_commands_ok in E1 as (cmds & -> & _). constructor; [eauto|]. eapply IH. exact E2.
  Qed.
  Lemma not_panic_ok (cmds : list scoped) : ~ In (@Panic parse_error scoped) (map Ok cmds).
  Proof. intros H. apply in_map_iff in H as (c & H & _). discriminate. Qed.
  Lemma produce_panic m cmds more pre : Forall (fun f : file parse_error => exists path cmds, f = (Ok path, map Ok cmds)) pre ->
    exists evs, produce_read (pre ++ (Ok m, map Ok cmds ++ [Panic]) :: more) None = (evs, Panic, false).
  Proof.
    induction 1 as [|f pre (path & cs & ->) _ [evs IH]]; cbn [app produce_read].
    - rewrite until_panic_end. eauto.
    - rewrite until_panic_none by apply not_panic_ok. rewrite IH. eauto.
  Qed.

  Lemma open_last inputs texts path b1 : Forall2 has_text inputs texts -> forall files, Forall2 (opens junk) (texts ++ [(path, Some b1)]) files ->
    exists pre f, files = pre ++ [f] /\ Forall2 (opens_bytes junk) inputs pre /\ opens junk (path, Some b1) f.
  Proof.
    intros Ht files H. apply Forall2_app_inv_l in H as (pre & l & H1 & H2 & ->). inversion H2 as [|? f ? l' H3 H4]; subst. inversion H4; subst.
    exists pre, f. split; [reflexivity|]. split; [|exact H3]. apply (opens_all_same _ _ (has_text_weak _ _ Ht)). exact H1.
  Qed.
  Lemma bytes_after b1 b2 fails cmds : utf8 b1 -> whole_lines b1 -> bad_start b2 fails -> parse_text junk b1 (map Ok cmds) ->
    parse_bytes junk (b1 ++ b2) fails (map Ok cmds ++ [Panic]).
  Proof.
    intros H1 H2 H3 H4. destruct (bytes_bad _ _ _ _ _ H1 H2 H3 H4) as (items & Hi & Hc).
    assert (X : forall cmds' (e : res parse_error scoped), is_ok e = false -> map Ok cmds <> map Ok cmds' ++ [e]).
    { clear. intros cmds' e He E. assert (Hi : In e (map Ok cmds)) by (rewrite E; apply in_or_app; right; left; reflexivity).
      apply in_map_iff in Hi as (c & <- & _). discriminate. }
    destruct Hc as [(cmds' & [E|E] & ->)|(cmds' & e & E & He & _)].
    - rewrite E. exact Hi.
    - exfalso. exact (X cmds' (Err ExpectedInput) eq_refl E).
    - exfalso. exact (X _ _ He E).
  Qed.
  Definition after_texts inputs texts path b1 b2 fails : Prop :=
    Forall2 has_text inputs texts /\ utf8 b1 /\ whole_lines b1 /\ bad_start b2 fails /\ kocheck junk K o false (texts ++ [(path, Some b1)]) (Ok tt).
  Lemma open_more more : exists files, Forall2 (opens_bytes junk) more files.
  Proof.
    induction more as [|[path i] more [files IH]]; [exists []; constructor|].
    destruct (path_read path) as [[m stdin]|] eqn:Ep; [|eexists; constructor; [apply ob_no_module; exact Ep|exact IH]].
    destruct i as [|bytes fails]; [eexists; constructor; [eapply ob_fails; exact Ep|exact IH]|].
    destruct (bytes_total junk bytes fails) as [items Hi]. eexists; constructor; [eapply ob_bytes; eassumption|exact IH].
  Qed.
  Lemma main_bytes_panic inputs texts path b1 b2 fails more channel : after_texts inputs texts path b1 b2 fails ->
    kocheck_bytes junk K o channel (inputs ++ (path, Opened (b1 ++ b2) fails) :: more) Panic.
  Proof.
    intros (Ht & H1 & H2 & H3 & files & Hf & Hr). destruct (open_last _ _ _ _ Ht _ Hf) as (pre & f & -> & Hp & Hl).
    destruct (open_more more) as [mfiles Hm].
    pose proof Hr as He. apply run_events in He as (evs & He & _).
    inversion Hl as [? ? E|? ? E|? ? m stdin items Em Hi]; subst.
    { exfalso. clear - Hr. unfold run in Hr. generalize dependent (pst_new o). induction pre as [|[p i] pre IH]; intros st H; inversion H; subst; try discriminate; eauto. }
    assert (X : exists cmds, items = map Ok cmds).
    { clear - He. revert evs He. induction pre as [|[[p|e| |] i] pre IH]; intros evs; cbn [app files_events]; try discriminate.
      - destruct (file_commands parse_error items) as [evs1|] eqn:E1; [|discriminate]. intros _. apply file_commands_ok in E1 as (cmds & -> & _). eauto.
      - destruct (file_commands parse_error i); [|discriminate]. destruct (files_events parse_error (pre ++ _)) eqn:E; [|discriminate]. intros _. eapply IH. reflexivity. }
    destruct X as [cmds ->].
    exists (pre ++ (Ok m, map Ok cmds ++ [Panic]) :: mfiles). split.
    - apply Forall2_app; [exact Hp|]. constructor; [|exact Hm]. eapply ob_bytes; [exact Em|]. apply bytes_after; assumption.
    - destruct channel.
      + destruct (produce_panic m cmds mfiles pre (files_events_app _ _ _ He)) as [evs' E]. exists None, evs', Panic, false. auto.
      + apply run_panic. exact Hr.
  Qed.
  Lemma opens_det input f f' : opens_bytes junk input f -> opens_bytes junk input f' -> f' = f.
  Proof.
    intros H H'. destruct H; inversion H'; subst; try congruence.
    match goal with A : path_read path = Some (m, stdin), B : path_read path = Some _ |- _ => rewrite A in B; injection B as <- _ end.
    f_equal. eapply bytes_det; eassumption.
  Qed.
  Lemma opens_all_det inputs : forall files files', Forall2 (opens_bytes junk) inputs files -> Forall2 (opens_bytes junk) inputs files' -> files' = files.
  Proof.
    induction inputs as [|i inputs IH]; intros files files' H H'; inversion H; inversion H'; subst; [reflexivity|].
    f_equal; [eapply opens_det; eassumption|apply IH; assumption].
  Qed.
  Lemma main_bytes_panic_only inputs texts path b1 b2 fails more r : o_jobs o = false -> after_texts inputs texts path b1 b2 fails ->
    kocheck_bytes junk K o false (inputs ++ (path, Opened (b1 ++ b2) fails) :: more) r -> r = Panic.
  Proof.
    intros Ej (Ht & H1 & H2 & H3 & files & Hf & Hr) (files' & Hf' & H'). destruct (open_last _ _ _ _ Ht _ Hf) as (pre & f & -> & Hp & Hl).
    apply Forall2_app_inv_l in Hf' as (pre' & l & P1 & P2 & ->). rewrite (opens_all_det _ _ _ Hp P1) in *. inversion P2 as [|? f' ? mfiles P3 P4]; subst.
    pose proof Hr as He. apply run_events in He as (evs & He & _).
    inversion Hl as [? ? E|? ? E|? ? m stdin items Em Hi]; subst.
    { exfalso. clear - Hr. unfold run in Hr. generalize dependent (pst_new o). induction pre as [|[p i] pre IH]; intros st H; inversion H; subst; try discriminate; eauto. }
    assert (X : exists cmds, items = map Ok cmds).
    { clear - He. revert evs He. induction pre as [|[[p|e| |] i] pre IH]; intros evs; cbn [app files_events]; try discriminate.
      - destruct (file_commands parse_error items) as [evs1|] eqn:E1; [|discriminate]. intros _. apply file_commands_ok in E1 as (cmds & -> & _). eauto.
      - destruct (file_commands parse_error i); [|discriminate]. destruct (files_events parse_error (pre ++ _)) eqn:E; [|discriminate]. intros _. eapply IH. reflexivity. }
    destruct X as [cmds ->].
    assert (E : f' = (Ok m, map Ok cmds ++ [Panic])).
    { eapply opens_det; [|exact P3]. eapply ob_bytes; [exact Em|]. apply bytes_after; assumption. }
    subst f'. eapply run_panic_only; eassumption.
  Qed.
End Programs.

Lemma main_bytes_cut junk b1 b2 fails items0 items : utf8 b1 -> whole_lines b1 -> bad_start b2 fails ->
  parse_text junk b1 items0 -> parse_bytes junk (b1 ++ b2) fails items ->
  (exists cmds, (items0 = map Ok cmds \/ items0 = map Ok cmds ++ [Err ExpectedInput]) /\ items = map Ok cmds ++ [Panic]) \/
  (exists cmds e, items0 = map Ok cmds ++ [Err e] /\ items = items0).
Proof.
  intros H1 H2 H3 H4 H5. destruct (bytes_bad _ _ _ _ _ H1 H2 H3 H4) as (items' & Hi & Hc). rewrite (bytes_det _ _ _ _ _ Hi H5).
  destruct Hc as [Hc|(cmds & e & E & He & ->)]; [left; exact Hc|right].
  destruct (parse_total junk b1) as (items1 & Hp & Hn). assert (X := results_det _ _ _ Hp _ H4).
  assert (Hin : In e items1) by (rewrite <- X, E; apply in_or_app; right; left; reflexivity).
  destruct (Hn _ Hin) as [N1 N2]. destruct e as [c|e| |]; [discriminate| |contradiction..]. eauto.
Qed.
Lemma main_bytes_cases bytes fails :
  (utf8 bytes /\ fails = false) \/ exists b1 b2, bytes = b1 ++ b2 /\ utf8 b1 /\ whole_lines b1 /\ bad_start b2 fails.
Proof. apply (read_cases (length bytes)). lia. Qed.
Lemma main_bytes_sound junk O n eta jobs channel inputs :
  kocheck_bytes junk (real_kernel O n) (Opts eta None jobs) channel inputs (Ok tt) ->
  exists texts srcs vs sg, Forall2 has_text inputs texts /\
    Forall2 (source_of junk) texts srcs /\ elaborates srcs vs /\ verified_all (empty_sig eta) vs sg.
Proof.
  intros H. apply main_bytes_accepted in H as (texts & Ht & H). apply main_kocheck_sound in H as (srcs & vs & sg & H). eauto 6.
Qed.
