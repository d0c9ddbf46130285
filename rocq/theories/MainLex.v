(** * The lexer and its specification *)

From Verif Require Import Base ModelSyntax ModelLex ModelParse SpecParse SpecSyntax SpecLex ParseLex ParsePrint.

(** ** Characters *)
Lemma white_iff c : white c = true <-> In c white_chars.
Proof. rewrite <- inb_iff. destruct c as [[] [] [] [] [] [] [] []]; vm_compute; split; congruence. Qed.
Lemma whites_iff t : forallb white t = true <-> Forall (fun d => In d white_chars) t.
Proof. rewrite forallb_forall, Forall_forall. split; intros H x Hx; apply white_iff; auto. Qed.
Lemma white_not_head c : white c = true -> ident_head c = false.
Proof. destruct c as [[] [] [] [] [] [] [] []]; vm_compute; congruence. Qed.
Lemma ended_iff s : ended s <-> no_tail s.
Proof.
  unfold ended, no_tail. split.
  - intros H. destruct s as [|c s]; [exact I|]. destruct (ident_tail c) eqn:E; [|reflexivity].
    apply tail_iff in E. destruct (H c s eq_refl E).
  - intros H c s' -> Hc. apply tail_iff in Hc. congruence.
Qed.

(** a prefix of characters satisfying [f] is not longer than the longest one *)
Lemma prefix_max f (t r a b : str) : t ++ r = a ++ b -> forallb f t = true ->
  match b with [] => True | c :: _ => f c = false end -> length t <= length a.
Proof.
  revert a. induction t as [|c t IH]; intros a H Ht Hb; [cbn; lia|].
  cbn in Ht. apply andb_prop in Ht as [Hc Ht]. destruct a as [|d a].
  - cbn in H. subst b. congruence.
  - injection H as _ H. cbn [length]. apply IH in H; [lia|exact Ht|exact Hb].
Qed.
Lemma max_prefix f (s a b : str) : s = a ++ b -> forallb f a = true ->
  (forall a' b', s = a' ++ b' -> forallb f a' = true -> length a' <= length a) ->
  match b with [] => True | c :: _ => f c = false end.
Proof.
  intros -> Ha H. destruct b as [|c b]; [exact I|]. destruct (f c) eqn:E; [|reflexivity].
  specialize (H (a ++ [c]) b). rewrite <- app_assoc in H. specialize (H eq_refl).
  rewrite forallb_app, Ha in H. cbn in H. rewrite E in H. specialize (H eq_refl). rewrite app_length in H. cbn in H. lia.
Qed.

(** ** Patterns *)
Definition signs : list (str * kind) :=
  map (fun p => (fst p, KToken (snd p))) puncts ++ [($"{|", KMoustache); ($"(;", KComment)].

Lemma keyword_iff w t : keyword w = Some t <-> In (w, t) [($"def", TDef); ($"thm", TThm); ($"injective", TInj)].
Proof.
  unfold keyword. split.
  - destruct (str_eqb w ($"def")) eqn:E1; [|destruct (str_eqb w ($"thm")) eqn:E2; [|destruct (str_eqb w ($"injective")) eqn:E3]];
      intros [= <-]; cbn [In].
    + apply str_eqb_eq in E1 as ->. auto.
    + apply str_eqb_eq in E2 as ->. auto.
    + apply str_eqb_eq in E3 as ->. auto.
  - intros [[= <- <-]|[[= <- <-]|[[= <- <-]|[]]]]; reflexivity.
Qed.

Lemma fixed_split w t : In (w, t) fixed_tokens <-> keyword w = Some t \/ In (w, t) puncts.
Proof.
  rewrite keyword_iff. unfold fixed_tokens, puncts. cbn [In]. tauto.
Qed.

Lemma pattern_iff w k : pattern w k <->
  (k = KWhite /\ w <> [] /\ forallb white w = true) \/
  (exists c t, w = c :: t /\ ident_head c = true /\ forallb ident_tail t = true /\
     (k = KName \/ exists tk, k = KToken tk /\ keyword w = Some tk)) \/
  In (w, k) signs.
Proof.
  split.
  - intros [w0 t H|w0 H| | |w0 H1 H2].
    + apply fixed_split in H as [H|H].
      * right. left. apply keyword_iff in H as H'.
        destruct H' as [[= <- <-]|[[= <- <-]|[[= <- <-]|[]]]]; eexists _, _; (split; [reflexivity|]); repeat (split; [reflexivity|]);
          right; eexists; split; reflexivity.
      * right. right. apply in_or_app. left. apply in_map_iff. exists (w0, t). auto.
    + right. left. apply ident_iff in H as (c & t & -> & H1 & H2). exists c, t. auto.
    + right. right. apply in_or_app. right. cbn. auto.
    + right. right. apply in_or_app. right. cbn. auto.
    + left. apply whites_iff in H2. auto.
  - intros [(-> & H1 & H2)|[(c & t & -> & H1 & H2 & [->|(tk & -> & H3)])|H]].
    + constructor; [exact H1|]. apply whites_iff. exact H2.
    + constructor. apply ident_iff. eauto.
    + constructor. apply fixed_split. auto.
    + unfold signs in H. apply in_app_or in H as [H|H].
      * apply in_map_iff in H as ([w' t] & [= <- <-] & H). constructor. apply fixed_split. auto.
      * destruct H as [[= <- <-]|[[= <- <-]|[]]]; constructor.
Qed.

(** the first character of a pattern decides of which sort it is *)
Lemma pattern_white c (s : str) w k r : white c = true -> c :: s = w ++ r -> pattern w k ->
  k = KWhite /\ w <> [] /\ forallb white w = true.
Proof.
  intros Hc E H. apply pattern_iff in H as [H|[(d & t & -> & H1 & _)|H]].
  - exact H.
  - injection E as <- _. rewrite (white_not_head _ Hc) in H1. discriminate.
  - exfalso. revert H. unfold signs. cbn [puncts map app fst snd In].
    intros H. repeat (destruct H as [H|H]; [injection H as <- <-; injection E as -> _; discriminate Hc|]). exact H.
Qed.
Lemma pattern_name c (s : str) w k r : ident_head c = true -> c :: s = w ++ r -> pattern w k ->
  exists t, w = c :: t /\ forallb ident_tail t = true /\ (k = KName \/ exists tk, k = KToken tk /\ keyword w = Some tk).
Proof.
  intros Hc E H. apply pattern_iff in H as [(-> & H1 & H2)|[(d & t & -> & H1 & H2 & H3)|H]].
  - exfalso. destruct w as [|d w]; [congruence|]. injection E as <- _. cbn in H2. apply andb_prop in H2 as [H2 _].
    rewrite (white_not_head _ H2) in Hc. discriminate.
  - injection E as <- E. exists t. auto.
  - exfalso. revert H. unfold signs. cbn [puncts map app fst snd In].
    intros H. repeat (destruct H as [H|H]; [injection H as <- <-; injection E as -> _; discriminate Hc|]). exact H.
Qed.
Lemma pattern_sign c (s : str) w k r : white c = false -> ident_head c = false -> c :: s = w ++ r -> pattern w k ->
  In (w, k) signs.
Proof.
  intros H1 H2 E H. apply pattern_iff in H as [(-> & H3 & H4)|[(d & t & -> & H3 & _)|H]]; [| |exact H].
  - exfalso. destruct w as [|d w]; [congruence|]. injection E as <- _. cbn in H4. apply andb_prop in H4 as [H4 _]. congruence.
  - exfalso. injection E as <- _. congruence.
Qed.
Lemma pattern_cons w k : pattern w k -> exists c t, w = c :: t.
Proof.
  intros H. apply pattern_iff in H as [(_ & H & _)|[(c & t & -> & _)|H]].
  - destruct w; [congruence|eauto].
  - eauto.
  - revert H. unfold signs. cbn [puncts map app fst snd In].
    intros H. repeat (destruct H as [H|H]; [injection H as <- <-; eexists _, _; reflexivity|]). destruct H.
Qed.

(** ** Moustaches *)
Lemma find_close_none s : find_close s = None <-> ~ closed s.
Proof.
  split.
  - intros H (a & b & ->). revert H. induction a as [|c a IH].
    + change (find_close ([] ++ $"|}" ++ b)) with (Some ([] : str, b)). discriminate.
    + cbn [app find_close]. destruct (strip_prefix _ _); [discriminate|].
      destruct (find_close (a ++ $"|}" ++ b)) as [[? ?]|]; [discriminate|]. auto.
  - intros H. destruct (find_close s) as [[a b]|] eqn:E; [|reflexivity].
    destruct H. apply find_close_spec in E. exists a, b. exact E.
Qed.

(** ** Symbols *)
Lemma next_part_none s : next_part s = None <-> ~ goes_on s.
Proof.
  split.
  - intros H [(c & s' & -> & Hc)|(s' & ->)]; unfold next_part in H.
    + apply head_iff in Hc. rewrite Hc in H. destruct (span ident_tail s'). discriminate.
    + cbn [app list_ascii_of_string] in H. change (ident_head "{") with false in H. cbn iota in H.
      change (strip_prefix _ ("{"%char :: "|"%char :: s')) with (Some s') in H. cbn iota in H.
      destruct (find_close s') as [[? ?]|]; discriminate.
  - intros H. destruct (next_part s) as [p|] eqn:E; [|reflexivity]. destruct H.
    destruct (next_part_dot _ _ E) as [s' ->]. unfold next_part in E.
    destruct s' as [|c s']; [discriminate|]. destruct (ident_head c) eqn:Ec.
    + left. exists c, s'. split; [reflexivity|]. apply head_iff. exact Ec.
    + destruct (strip_prefix ($"{|") (c :: s')) as [m|] eqn:Em; [|discriminate].
      apply strip_prefix_spec in Em. right. exists m. rewrite Em. reflexivity.
Qed.

Lemma next_part_some s p r : next_part s = Some (Some p, r) ->
  s = "."%char :: p ++ r /\ ((is_ident p /\ ended r) \/ is_moustache p).
Proof.
  intros H. destruct (next_part_dot _ _ H) as [s' ->]. unfold next_part in H.
  destruct s' as [|c s']; [discriminate|]. destruct (ident_head c) eqn:Ec.
  - destruct (span ident_tail s') as [t r'] eqn:E. injection H as <- <-.
    apply span_spec in E as (-> & Ht & Hr). split; [reflexivity|]. left. split.
    + apply ident_iff. exists c, t. auto.
    + apply ended_iff. destruct r'; [exact I|exact Hr].
  - destruct (strip_prefix ($"{|") (c :: s')) as [m|] eqn:E; [|discriminate].
    destruct (find_close m) as [[inner r']|] eqn:Ef; [|discriminate]. injection H as <- <-.
    apply strip_prefix_spec in E. rewrite E. pose proof (find_close_first _ _ _ Ef) as Hf.
    apply find_close_spec in Ef. split.
    + rewrite Ef. cbn [app list_ascii_of_string]. rewrite <- app_assoc. reflexivity.
    + right. exists inner. split; [reflexivity|exact Hf].
Qed.
Lemma next_part_open s r : next_part s = Some (None, r) -> r = s /\ exists s', s = $".{|" ++ s' /\ ~ closed s'.
Proof.
  intros H. destruct (next_part_dot _ _ H) as [s' ->]. unfold next_part in H.
  destruct s' as [|c s']; [discriminate|]. destruct (ident_head c); [destruct (span ident_tail s'); discriminate|].
  destruct (strip_prefix ($"{|") (c :: s')) as [m|] eqn:E; [|discriminate].
  destruct (find_close m) as [[inner r']|] eqn:Ef; [discriminate|]. injection H as <-.
  split; [reflexivity|]. apply strip_prefix_spec in E. exists m. rewrite E. split; [reflexivity|].
  apply find_close_none. exact Ef.
Qed.
Lemma next_part_open_eq s' : ~ closed s' -> next_part ($".{|" ++ s') = Some (None, $".{|" ++ s').
Proof.
  intros H. apply find_close_none in H. unfold next_part. cbn [app list_ascii_of_string].
  change (ident_head "{") with false. cbn iota.
  change (strip_prefix _ ("{"%char :: "|"%char :: s')) with (Some s'). cbn iota. rewrite H. reflexivity.
Qed.

Lemma moustache_part inner s : ~ closed inner ->
  next_part ("."%char :: ($"{|" ++ inner ++ $"|}") ++ s) = Some (Some ($"{|" ++ inner ++ $"|}"), s).
Proof.
  intros Hi. unfold next_part. rewrite <- !app_assoc. cbn [app list_ascii_of_string].
  change (ident_head "{") with false. cbn iota.
  change (strip_prefix _ ("{"%char :: "|"%char :: inner ++ "|"%char :: "}"%char :: s)) with (Some (inner ++ $"|}" ++ s)).
  cbn iota. rewrite find_close_app by exact Hi. reflexivity.
Qed.

Lemma components_more s ps rest : components s ps rest -> forall sy,
  symb_more sy s = symb_more (fold_left symb_push ps sy) rest.
Proof.
  intros H. induction H as [s|p s ps rest Hp Hs H IH|p s ps rest Hp H IH]; intros sy.
  - reflexivity.
  - rewrite symb_more_eq. rewrite (next_part_app p s); [|left; exact Hp|apply ended_iff; exact Hs]. apply IH.
  - rewrite symb_more_eq. destruct Hp as (inner & -> & Hi). rewrite (moustache_part inner s Hi). apply IH.
Qed.

Lemma fold_push ps : forall p0 n0, fold_left symb_push ps (Symb p0 n0) = Symb (p0 ++ removelast (n0 :: ps)) (last (n0 :: ps) []).
Proof.
  induction ps as [|q ps IH]; intros p0 n0.
  - cbn. rewrite app_nil_r. reflexivity.
  - cbn [fold_left]. unfold symb_push at 2. cbn [sy_path sy_name]. rewrite IH. rewrite <- app_assoc. reflexivity.
Qed.
Lemma symb_of_fold p ps : symb_of p ps = fold_left symb_push ps (symb_new p).
Proof. unfold symb_new. rewrite fold_push. reflexivity. Qed.

Lemma symbol_token p s t rest : symbol p s t rest -> symb_token (symb_rest p s) = (Some t, rest).
Proof.
  unfold symb_rest. fold (symb_more (symb_new p) s). intros [ps rest0 H1 H2|ps rest0 s' H1 -> H2].
  - rewrite (components_more _ _ _ H1), <- symb_of_fold, symb_more_eq.
    apply next_part_none in H2. rewrite H2. reflexivity.
  - rewrite (components_more _ _ _ H1), symb_more_eq, (next_part_open_eq s' H2). reflexivity.
Qed.

Lemma more_components n : forall s sy, length s <= n -> exists ps rest,
  components s ps rest /\
  ((symb_more sy s = (Some (fold_left symb_push ps sy), rest) /\ ~ goes_on rest) \/
   (symb_more sy s = (None, rest) /\ exists s', rest = $".{|" ++ s' /\ ~ closed s')).
Proof.
  induction n as [|n IH]; intros s sy Hl; rewrite symb_more_eq.
  - destruct s; [|cbn in Hl; lia]. exists [], []. split; [constructor|]. left. split; [reflexivity|].
    apply next_part_none. reflexivity.
  - destruct (next_part s) as [[[p|] r]|] eqn:E.
    + pose proof (next_part_shorter _ _ _ E) as Hs. destruct (IH r (symb_push sy p) ltac:(lia)) as (ps & rest & H1 & H2).
      destruct (next_part_some _ _ _ E) as [-> [[Hp Hr]|Hp]]; exists (p :: ps), rest.
      * split; [apply comp_ident; assumption|]. exact H2.
      * split; [apply comp_moustache; assumption|]. exact H2.
    + destruct (next_part_open _ _ E) as (-> & Hs). exists [], s. split; [constructor|]. auto.
    + exists [], s. split; [constructor|]. left. split; [reflexivity|]. apply next_part_none. exact E.
Qed.

Lemma token_symbol p s o rest : symb_token (symb_rest p s) = (o, rest) -> exists t, o = Some t /\ symbol p s t rest.
Proof.
  unfold symb_rest. fold (symb_more (symb_new p) s).
  destruct (more_components (length s) s (symb_new p) (le_n _)) as (ps & r & H1 & [[H2 H3]|(H2 & s' & -> & H3)]);
    rewrite H2; intros [= <- <-]; eexists; (split; [reflexivity|]).
  - rewrite <- symb_of_fold. apply symbol_ok; assumption.
  - eapply symbol_open; [exact H1|reflexivity|exact H3].
Qed.

(** ** What the beginning of a text is *)
Lemma begins_white c s a b : white c = true -> s = a ++ b -> forallb white a = true ->
  match b with [] => True | c :: _ => white c = false end -> begins (c :: s) (c :: a) KWhite b.
Proof.
  intros Hc -> Ha Hb. split; [reflexivity|]. split; [|split; [|discriminate]].
  - apply pattern_iff. left. cbn. rewrite Hc, Ha. repeat split; discriminate.
  - intros w k r E H. destruct (pattern_white c (a ++ b) w k r Hc E H) as (_ & _ & Hw).
    apply (prefix_max white w r (c :: a) b); [symmetry; exact E|exact Hw|exact Hb].
Qed.
Lemma name_longest c s a b : ident_head c = true -> s = a ++ b -> no_tail b ->
  forall w k r, c :: s = w ++ r -> pattern w k -> length w <= length (c :: a).
Proof.
  intros Hc -> Hb w k r E H. destruct (pattern_name c (a ++ b) w k r Hc E H) as (t & -> & Ht & _).
  injection E as E. cbn [length]. pose proof (prefix_max ident_tail t r a b (eq_sym E) Ht) as P.
  assert (length t <= length a); [|lia]. apply P. destruct b; [exact I|exact Hb].
Qed.

Lemma begins_sign c s w k r : white c = false -> ident_head c = false -> c :: s = w ++ r -> In (w, k) signs ->
  (forall w' k' r', c :: s = w' ++ r' -> In (w', k') signs -> length w' <= length w) -> begins (c :: s) w k r.
Proof.
  intros H1 H2 E H Hm. split; [exact E|]. split; [apply pattern_iff; auto|]. split.
  - intros w' k' r' E' H'. eapply Hm; [exact E'|]. eapply pattern_sign; eassumption.
  - intros -> t. exfalso. revert H. unfold signs. cbn [puncts map app fst snd In].
    intros H. repeat (destruct H as [H|H]; [discriminate H|]). exact H.
Qed.

Section Lex.
Variable junk : str -> nat.

(** ** The lexer follows the specification *)
Ltac signs_cases H := unfold signs in H; cbn [puncts map app fst snd In] in H;
  repeat (destruct H as [H|H]; [injection H as <- <-|]); [..|destruct H].

Lemma punct_none ps s : punct ps s = None -> Forall (fun p => strip_prefix (fst p) s = None) ps.
Proof.
  induction ps as [|[p t] ps IH]; [constructor|]. cbn [punct]. destruct (strip_prefix p s) eqn:E; [discriminate|].
  intros H. constructor; [exact E|exact (IH H)].
Qed.
(** the list of punctuation starts with the longest *)
Fixpoint falling (ps : list (str * token)) : Prop :=
  match ps with
  | [] => True
  | p :: ps => Forall (fun q => length (fst q) <= length (fst p)) ps /\ falling ps
  end.
Lemma puncts_falling : falling puncts.
Proof. cbn. repeat split; repeat constructor. Qed.
Lemma punct_some ps s t r : falling ps -> punct ps s = Some (t, r) ->
  exists p, In (p, t) ps /\ s = p ++ r /\ forall w k r', In (w, k) ps -> s = w ++ r' -> length w <= length p.
Proof.
  induction ps as [|[p t0] ps IH]; cbn [punct falling]; [discriminate|]. intros [H1 H2].
  destruct (strip_prefix p s) as [r0|] eqn:E.
  - intros [= <- <-]. exists p. apply strip_prefix_spec in E. split; [left; reflexivity|]. split; [exact E|].
    intros w k r' [[= <- <-]|H] _; [lia|]. rewrite Forall_forall in H1. exact (H1 _ H).
  - intros H. destruct (IH H2 H) as (p' & Hp & Es & Hm). exists p'. split; [right; exact Hp|]. split; [exact Es|].
    intros w k r' [[= <- <-]|Hin] Ew; [|exact (Hm w k r' Hin Ew)].
    apply strip_prefix_spec in Ew. congruence.
Qed.

Lemma punct_token c s t r : white c = false -> ident_head c = false ->
  strip_prefix ($"{|") (c :: s) = None -> strip_prefix ($"(;") (c :: s) = None ->
  punct puncts (c :: s) = Some (t, r) -> exists w, begins (c :: s) w (KToken t) r.
Proof.
  intros H1 H2 N1 N2 H. destruct (punct_some _ _ _ _ puncts_falling H) as (p & Hp & Es & Hm).
  exists p. apply begins_sign; [exact H1|exact H2|exact Es| |].
  - apply in_or_app. left. apply in_map_iff. exists (p, t). auto.
  - intros w' k' r' Ew Hin. unfold signs in Hin. apply in_app_or in Hin as [Hin|Hin].
    + apply in_map_iff in Hin as ([w0 t0] & [= <- _] & Hin). exact (Hm _ _ _ Hin Ew).
    + exfalso. destruct Hin as [[= <- _]|[[= <- _]|[]]]; apply strip_prefix_spec in Ew;
        [pose proof (eq_trans (eq_sym Ew) N1)|pose proof (eq_trans (eq_sym Ew) N2)]; discriminate.
Qed.

Lemma lex1_token_at s t r : lex1 junk s = Some (t, r) -> token_at s t r.
Proof.
  destruct s as [|c s]; [discriminate|]. cbn [lex1]. intros [= H]. unfold lex_match in H.
  destruct (white c) eqn:Hw.
  - injection H as <- <-. destruct (span white s) as [a b] eqn:E. apply span_spec in E as (-> & Ha & Hb). cbn [snd].
    apply at_white with (w := c :: a). apply begins_white; auto.
  - destruct (ident_head c) eqn:Hc.
    + destruct (span ident_tail s) as [a b] eqn:E. apply span_spec in E as (-> & Ha & Hb).
      assert (Hb' : no_tail b) by (destruct b; [exact I|exact Hb]).
      pose proof (name_longest c (a ++ b) a b Hc eq_refl Hb') as Hm.
      destruct (keyword (c :: a)) as [k|] eqn:Ek.
      * injection H as <- <-. apply at_fixed with (w := c :: a). split; [reflexivity|]. split; [|split; [exact Hm|discriminate]].
        constructor. apply fixed_split. auto.
      * apply token_symbol in H as (t' & -> & H). apply at_name with (w := c :: a) (s' := b); [|exact H].
        split; [reflexivity|]. split; [constructor; apply ident_iff; eauto|]. split; [exact Hm|].
        intros _ t Ht. apply pattern_name with (c := c) (s := a) (r := []) in Ht; [|exact Hc|rewrite app_nil_r; reflexivity].
        destruct Ht as (t0 & _ & _ & [Ht|(tk & _ & Ht)]); [discriminate|congruence].
    + destruct (strip_prefix ($"{|") (c :: s)) as [m|] eqn:E1.
      * assert (Hb : begins (c :: s) ($"{|") KMoustache m).
        { apply strip_prefix_spec in E1. apply begins_sign; [exact Hw|exact Hc|exact E1|unfold signs; cbn [puncts map app fst snd In]; tauto|].
          intros w' k' r' Ew Hin. signs_cases Hin; cbn [length list_ascii_of_string]; try lia. exfalso. pose proof (eq_trans (eq_sym E1) Ew) as Ex. discriminate Ex. }
        unfold moustache in H. destruct (find_close m) as [[inner rest]|] eqn:Ef.
        -- apply token_symbol in H as (t' & -> & H).
           pose proof (find_close_first _ _ _ Ef) as Hf. apply find_close_spec in Ef. apply strip_prefix_spec in E1.
           eapply at_moustache; [exact Hb| |exists inner; split; [reflexivity|exact Hf]|exact H].
           rewrite E1, Ef, <- !app_assoc. reflexivity.
        -- injection H as <- <-. eapply at_moustache_open; [exact Hb|]. apply find_close_none. exact Ef.
      * destruct (strip_prefix ($"(;") (c :: s)) as [m|] eqn:E2.
        -- assert (Hb : begins (c :: s) ($"(;") KComment m).
           { apply strip_prefix_spec in E2. apply begins_sign; [exact Hw|exact Hc|exact E2|unfold signs; cbn [puncts map app fst snd In]; tauto|].
             intros w' k' r' Ew Hin. signs_cases Hin; cbn [length list_ascii_of_string]; try lia. exfalso. pose proof (eq_trans (eq_sym E2) Ew) as Ex. discriminate Ex. }
           destruct (main_comment_cases m) as [(b & s' & Hbal & ->)|(k & Hk)].
           ++ rewrite (comment_closed b s' Hbal) in H. 
              assert (Hr : comment 0 s' = (0, s')) by (destruct s'; reflexivity). rewrite Hr in H. injection H as <- <-.
              eapply at_comment; eassumption.
           ++ rewrite (comment_unclosed _ _ Hk 0) in H. cbn [Nat.add] in H.
              destruct k as [|k]; [inversion Hk|]. injection H as <- <-. eapply at_comment_open; eassumption.
        -- destruct (punct puncts (c :: s)) as [[t0 r0]|] eqn:Ep.
           ++ injection H as <- <-. destruct (punct_token c s t0 r0 Hw Hc E1 E2 Ep) as [w Hb]. eapply at_fixed. exact Hb.
           ++ injection H as <- <-. apply at_nothing with (c := c) (junk := firstn (junk (c :: s)) s).
              ** rewrite firstn_skipn. reflexivity.
              ** intros w k r' E Hp. pose proof (pattern_sign c s w k r' Hw Hc E Hp) as Hin.
                 apply punct_none in Ep. unfold signs in Hin. apply in_app_or in Hin as [Hin|Hin].
                 --- apply in_map_iff in Hin as ([w0 t0] & [= <- _] & Hin). rewrite Forall_forall in Ep.
                     specialize (Ep _ Hin). apply strip_prefix_spec in E. cbn [fst] in Ep.
                     pose proof (eq_trans (eq_sym E) Ep). discriminate.
                 --- destruct Hin as [[= <- _]|[[= <- _]|[]]]; apply strip_prefix_spec in E;
                       [pose proof (eq_trans (eq_sym E) E1)|pose proof (eq_trans (eq_sym E) E2)]; discriminate.
Qed.

(** ** The specification determines the lexer, except where nothing matches *)
Lemma begins_ended s w k c t r : begins s w k r -> w = c :: t -> ident_head c = true -> forallb ident_tail t = true -> no_tail r.
Proof.
  intros (-> & _ & Hm & _) -> Hc Ht. destruct r as [|d r]; [exact I|]. cbn. destruct (ident_tail d) eqn:E; [|reflexivity].
  exfalso. assert (Hl : length ((c :: t) ++ [d]) <= length (c :: t)).
  { apply (Hm _ KName r); [rewrite <- app_assoc; reflexivity|]. constructor. apply ident_iff.
    exists c, (t ++ [d]). rewrite forallb_app, Ht. cbn. rewrite E. auto. }
  rewrite app_length in Hl. cbn in Hl. lia.
Qed.

Lemma begins_fixed s w t r : begins s w (KToken t) r -> lex1 junk s = Some (Some t, r).
Proof.
  intros Hb. pose proof Hb as (-> & Hp & Hm & _). inversion Hp as [w0 t0 Hin E1 E2| | | |]. subst w0 t0. clear Hp.
  assert (Hf : token_show t = Some w /\ valid_tok t /\ follows t r).
  { unfold fixed_tokens in Hin. cbn [In] in Hin.
    repeat (destruct Hin as [Hin|Hin];
      [injection Hin as <- <-; (split; [reflexivity|]); (split; [exact I|]); try exact I;
       try (eapply begins_ended; [exact Hb|reflexivity|reflexivity|reflexivity])|]); [..|destruct Hin].
    - cbn. intros H. destruct r as [|d r]; [discriminate|]. injection H as ->.
      specialize (Hm ($"(;") KComment r eq_refl pat_comment). cbn in Hm. lia.
    - cbn. intros H. destruct r as [|d r]; [discriminate|]. injection H as ->.
      specialize (Hm ($":=") (KToken TColonEq) r eq_refl). cbn [length list_ascii_of_string] in Hm.
      assert (2 <= 1); [|lia]. apply Hm. constructor. unfold fixed_tokens. cbn [In]. tauto. }
  destruct Hf as (H1 & H2 & H3). apply lex1_show; assumption.
Qed.

Lemma lex1_moustache inner s : ~ closed inner ->
  lex1 junk (($"{|" ++ inner ++ $"|}") ++ s) = Some (symb_token (symb_rest ($"{|" ++ inner ++ $"|}") s)).
Proof.
  intros Hi. rewrite <- !app_assoc. change ($"{|" ++ inner ++ $"|}" ++ s) with ("{"%char :: "|"%char :: inner ++ $"|}" ++ s).
  cbn [lex1]. unfold lex_match. change (white "{") with false. change (ident_head "{") with false. cbn iota.
  change (strip_prefix ($"{|") ("{"%char :: "|"%char :: inner ++ $"|}" ++ s)) with (Some (inner ++ $"|}" ++ s)).
  cbn iota. unfold moustache. rewrite find_close_app by exact Hi. reflexivity.
Qed.

Lemma begins_comment s w s' : begins s w KComment s' -> 
  lex1 junk s = Some (let '(open, rest) := comment 1 s' in (match open with 0 => None | S _ => Some (TComment open) end, rest)).
Proof. intros (-> & Hp & _). inversion Hp. reflexivity. Qed.

Lemma token_at_lex1 s t r : token_at s t r -> t <> Some TError -> lex1 junk s = Some (t, r).
Proof.
  intros H Ht.
  destruct H as [w t r Hb|w r Hb|w s' t r Hb Hs|w p s' s'' t r Hb Es Hp Hs|w r Hb Ho|w b r Hb Hbal|w s' n Hb Hu|c junk' r Es Hn];
    try congruence.
  - apply begins_fixed with (w := w). exact Hb.
  - destruct Hb as (-> & Hp & Hm & _). inversion Hp as [| | | |w0 Hw1 Hw2 E1]. subst w0.
    apply whites_iff in Hw2.
    assert (Hr : match r with [] => True | c :: _ => white c = false end).
    { apply (max_prefix white (w ++ r) w r eq_refl Hw2). intros a' b' E Ha.
      destruct a' as [|x a']; [cbn; lia|]. apply (Hm _ KWhite b' E). constructor; [discriminate|]. apply whites_iff. exact Ha. }
    destruct w as [|c w]; [congruence|]. cbn in Hw2. apply andb_prop in Hw2 as [Hc Hw2].
    cbn [app lex1]. unfold lex_match. rewrite Hc, (span_app white w r Hw2 Hr). reflexivity.
  - pose proof Hb as (-> & Hp & _ & Hk). inversion Hp as [|w0 Hw E1| | |]. subst w0.
    assert (Hn : ~ In w [$"def"; $"thm"; $"injective"]).
    { intros Hin. destruct Hin as [<-|[<-|[<-|[]]]]; eapply (Hk eq_refl); constructor; unfold fixed_tokens; cbn [In]; eauto. }
    apply ident_iff in Hw as Hw'. destruct Hw' as (c & a & -> & Hc & Ha).
    rewrite lex_first_part.
    + unfold symb_more. fold (symb_rest (c :: a) s'). rewrite (symbol_token _ _ _ _ Hs). reflexivity.
    + split; [left; exact Hw|exact Hn].
    + eapply begins_ended; [exact Hb|reflexivity|exact Hc|exact Ha].
  - subst s. destruct Hp as (inner & -> & Hi). rewrite (lex1_moustache inner s'' Hi), (symbol_token _ _ _ _ Hs). reflexivity.
  - rewrite (begins_comment _ _ _ Hb), (comment_closed b r Hbal). destruct r; reflexivity.
  - rewrite (begins_comment _ _ _ Hb), (comment_unclosed _ _ Hu 0). cbn [Nat.add].
    destruct n as [|n]; [inversion Hu|]. reflexivity.
Qed.

(** ** Texts *)
Lemma lex_tokens n : forall s, length s <= n -> tokens s (lex junk s).
Proof.
  induction n as [|n IH]; intros s Hl; rewrite lex_eq.
  - destruct s; [|cbn in Hl; lia]. constructor.
  - destruct (lex1 junk s) as [[[t|] r]|] eqn:E.
    + pose proof (lex1_shorter junk _ _ _ E). apply lex1_token_at in E. econstructor; [exact E|]. apply IH. lia.
    + pose proof (lex1_shorter junk _ _ _ E). apply lex1_token_at in E. econstructor; [exact E|]. apply IH. lia.
    + destruct s; [constructor|discriminate].
Qed.
Lemma tokens_lex s ts : tokens s ts -> ~ In TError ts -> lex junk s = ts.
Proof.
  intros H. induction H as [|s r ts Ha H IH|s t r ts Ha H IH]; intros Ht.
  - reflexivity.
  - rewrite lex_eq, (token_at_lex1 _ _ _ Ha) by discriminate. exact (IH Ht).
  - rewrite lex_eq, (token_at_lex1 _ _ _ Ha).
    + f_equal. apply IH. intros Hin. apply Ht. right. exact Hin.
    + intros [= ->]. apply Ht. left. reflexivity.
Qed.
End Lex.

Lemma main_lex junk s : tokens s (lex junk s).
Proof. apply lex_tokens with (n := length s). lia. Qed.
Lemma main_lex_only junk s ts : tokens s ts -> ~ In TError ts -> lex junk s = ts.
Proof. apply tokens_lex. Qed.
