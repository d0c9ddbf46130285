(** * Printed tokens are read again as the same tokens *)

From Verif Require Import Base ModelSyntax ModelLex ModelParse SpecParse SpecSyntax ParseLex.

(** ** The characters of identifiers *)
Definition inb (l : str) (c : ascii) : bool := existsb (Ascii.eqb c) l.
Lemma inb_iff l c : inb l c = true <-> In c l.
Proof.
  unfold inb. rewrite existsb_exists. split.
  - intros (x & Hx & E). apply ascii_eqb_true in E as ->. exact Hx.
  - intros H. exists c. split; [exact H|apply Ascii.eqb_refl].
Qed.
Lemma head_iff c : ident_head c = true <-> In c name_chars.
Proof. rewrite <- inb_iff. destruct c as [[] [] [] [] [] [] [] []]; vm_compute; split; congruence. Qed.
Lemma tail_iff c : ident_tail c = true <-> In c more_chars.
Proof. rewrite <- inb_iff. destruct c as [[] [] [] [] [] [] [] []]; vm_compute; split; congruence. Qed.
Lemma tails_iff t : forallb ident_tail t = true <-> Forall (fun d => In d more_chars) t.
Proof. rewrite forallb_forall, Forall_forall. split; intros H x Hx; apply tail_iff; auto. Qed.
Lemma ident_iff p : is_ident p <-> exists c t, p = c :: t /\ ident_head c = true /\ forallb ident_tail t = true.
Proof.
  split; intros (c & t & -> & H1 & H2); exists c, t; (split; [reflexivity|]);
    (split; [apply head_iff; exact H1|apply tails_iff; exact H2]).
Qed.

(** ** Symbols that come out of the lexer are valid *)
Definition contains_close (s : str) : Prop := exists a b, s = a ++ $"|}" ++ b.

Lemma find_close_first s : forall a b, find_close s = Some (a, b) -> ~ contains_close a.
Proof.
  induction s as [|c s IH]; intros a b; [discriminate|].
  cbn [find_close]. destruct (strip_prefix ($"|}") (c :: s)) as [rest|] eqn:E.
  - intros [= <- <-] (x & y & Hx). destruct x; discriminate.
  - destruct (find_close s) as [[a' b']|] eqn:Ef; [|discriminate]. intros [= <- <-] (x & y & Hx).
    destruct x as [|x0 x].
    + apply find_close_spec in Ef. cbn [app] in Hx.
      assert (Es : strip_prefix ($"|}") (c :: s) = Some (y ++ $"|}" ++ b')).
      { apply strip_prefix_spec. rewrite Ef. change (c :: a' ++ $"|}" ++ b') with ((c :: a') ++ $"|}" ++ b').
        rewrite Hx. rewrite <- app_assoc. reflexivity. }
      congruence.
    + injection Hx as -> Hx. apply (IH a' b' eq_refl). exists x, y. exact Hx.
Qed.

Lemma find_close_app inner x : ~ contains_close inner -> find_close (inner ++ $"|}" ++ x) = Some (inner, x).
Proof.
  induction inner as [|c inner IH]; intros H; [reflexivity|].
  change (find_close ((c :: inner) ++ $"|}" ++ x)) with
      (match strip_prefix ($"|}") (c :: inner ++ $"|}" ++ x) with
       | Some rest => Some ([], rest)
       | None => match find_close (inner ++ $"|}" ++ x) with Some (a, b) => Some (c :: a, b) | None => None end
       end).
  assert (E : strip_prefix ($"|}") (c :: inner ++ $"|}" ++ x) = None).
  { destruct (strip_prefix ($"|}") (c :: inner ++ $"|}" ++ x)) as [r|] eqn:E; [|reflexivity].
    exfalso. apply strip_prefix_spec in E. destruct inner as [|d inner].
    - cbn in E. congruence.
    - cbn in E. injection E as -> -> _. apply H. exists [], inner. reflexivity. }
  rewrite E, IH; [reflexivity|]. intros (a & b & ->). apply H. exists (c :: a), b. reflexivity.
Qed.

Lemma next_part_valid s part rest : next_part s = Some (Some part, rest) -> valid_part part.
Proof.
  intros H. destruct (next_part_dot _ _ H) as [s' ->]. unfold next_part in H.
  destruct s' as [|c s']; [discriminate|]. destruct (ident_head c) eqn:Ec.
  - destruct (span ident_tail s') as [t r] eqn:E. injection H as <- <-.
    apply span_spec in E as (_ & Ht & _). left. apply ident_iff. exists c, t. auto.
  - destruct (strip_prefix ($"{|") (c :: s')) as [m|] eqn:E; [|discriminate].
    destruct (find_close m) as [[inner r]|] eqn:Ef; [|discriminate]. injection H as <- _.
    right. exists inner. split; [reflexivity|]. exact (find_close_first _ _ _ Ef).
Qed.

Lemma symb_push_valid s p : valid_symb s -> valid_part p -> valid_symb (symb_push s p).
Proof.
  unfold valid_symb, symb_push. cbn [sy_path sy_name]. destruct (sy_path s) as [|q qs] eqn:E; cbn [app].
  - auto.
  - intros (H1 & H2 & H3) Hp. split; [exact H1|]. split; [|exact Hp]. apply Forall_app. auto.
Qed.

Lemma symb_more_valid n : forall s sy sy' r, length s <= n -> valid_symb sy ->
  symb_more sy s = (Some sy', r) -> valid_symb sy'.
Proof.
  induction n as [|n IH]; intros s sy sy' r Hl Hv; rewrite symb_more_eq.
  - destruct s; [|cbn in Hl; lia]. cbn. intros [= <- _]. exact Hv.
  - destruct (next_part s) as [[[part|] rest]|] eqn:E; [|discriminate|intros [= <- _]; exact Hv].
    pose proof (next_part_shorter _ _ _ E). pose proof (next_part_valid _ _ _ E).
    apply IH; [lia|apply symb_push_valid; assumption].
Qed.

Lemma keyword_none w : keyword w = None -> ~ In w [$"def"; $"thm"; $"injective"].
Proof.
  unfold keyword. destruct (str_eqb w ($"def")) eqn:E1; [discriminate|].
  destruct (str_eqb w ($"thm")) eqn:E2; [discriminate|].
  destruct (str_eqb w ($"injective")) eqn:E3; [discriminate|]. intros _ [<-|[<-|[<-|[]]]]; discriminate.
Qed.
Lemma keyword_not w : ~ In w [$"def"; $"thm"; $"injective"] -> keyword w = None.
Proof.
  intros H. unfold keyword. destruct (str_eqb w ($"def")) eqn:E1; [apply str_eqb_eq in E1; exfalso; apply H; left; auto|].
  destruct (str_eqb w ($"thm")) eqn:E2; [apply str_eqb_eq in E2; exfalso; apply H; right; left; auto|].
  destruct (str_eqb w ($"injective")) eqn:E3; [apply str_eqb_eq in E3; exfalso; apply H; right; right; left; auto|].
  reflexivity.
Qed.

(** tokens as they come out of the lexer *)
Definition lexed_tok (t : token) : Prop :=
  match t with TSymb s => valid_symb s | TComment n => n <> 0 | _ => True end.
(** tokens that can be printed *)
Definition valid_tok (t : token) : Prop :=
  match t with TSymb s => valid_symb s | TComment _ | TError => False | _ => True end.

Lemma comment_open_end n : forall s open o r, length s <= n -> comment open s = (S o, r) -> r = [].
Proof.
  induction n as [|n IH]; intros s open o r Hl.
  - destruct s; [|cbn in Hl; lia]. rewrite comment_nil. intros [= _ <-]. reflexivity.
  - destruct s as [|c s]; [rewrite comment_nil; intros [= _ <-]; reflexivity|].
    destruct open as [|open]; [discriminate|]. cbn [length] in Hl. cbn [comment].
    destruct (Ascii.eqb c "("); [|destruct (Ascii.eqb c ";")].
    + destruct s as [|d s]; [intros [= _ <-]; reflexivity|]. cbn [length] in Hl.
      destruct (Ascii.eqb d ";"); apply IH; cbn [length]; lia.
    + destruct s as [|d s]; [intros [= _ <-]; reflexivity|]. cbn [length] in Hl.
      destruct (Ascii.eqb d ")"); apply IH; cbn [length]; lia.
    + apply IH; lia.
Qed.

Lemma punct_tok s t r : punct puncts s = Some (t, r) -> valid_tok t.
Proof.
  assert (H : Forall (fun p => valid_tok (snd p)) puncts) by (repeat constructor).
  induction H as [|[p t0] ps Hp H IH]; cbn [punct]; [discriminate|].
  destruct (strip_prefix p s); [intros [= <- _]; exact Hp|exact IH].
Qed.

Section Lex.
Variable junk : str -> nat.

Lemma lex_match_tok c s t r : lex_match junk c s = (Some t, r) ->
  lexed_tok t /\ (forall n, t = TComment n -> r = []).
Proof.
  assert (HS : forall w s0, valid_name w -> symb_token (symb_rest w s0) = (Some t, r) ->
    lexed_tok t /\ (forall n, t = TComment n -> r = [])).
  { intros w s0 Hw. unfold symb_token, symb_rest. fold (symb_more (symb_new w) s0).
    destruct (symb_more (symb_new w) s0) as [[sy|] rest] eqn:E; intros [= <- <-].
    - split; [|discriminate]. apply (symb_more_valid (length s0) s0 (symb_new w) sy rest); auto.
    - split; [exact I|discriminate]. }
  unfold lex_match. destruct (white c); [discriminate|].
  destruct (ident_head c) eqn:Ec.
  - destruct (span ident_tail s) as [a b] eqn:E. apply span_spec in E as (-> & Ha & _).
    destruct (keyword (c :: a)) eqn:Ek.
    + intros [= <- <-]. assert (In t0 [TDef; TThm; TInj]) as [<-|[<-|[<-|[]]]]
        by (unfold keyword in Ek; destruct (str_eqb (c :: a) ($"def")), (str_eqb (c :: a) ($"thm")), (str_eqb (c :: a) ($"injective"));
            inversion Ek; cbn; auto); (split; [exact I|discriminate]).
    + apply HS. split; [left; apply ident_iff; exists c, a; auto|]. apply keyword_none. exact Ek.
  - destruct (strip_prefix ($"{|") (c :: s)) as [m|] eqn:E.
    + unfold moustache. destruct (find_close m) as [[inner rest]|] eqn:Ef.
      * apply HS. split.
        -- right. exists inner. split; [reflexivity|]. exact (find_close_first _ _ _ Ef).
        -- intros [H|[H|[H|[]]]]; discriminate.
      * intros [= <- <-]. split; [exact I|discriminate].
    + destruct (strip_prefix ($"(;") (c :: s)) as [m|].
      * destruct (comment 1 m) as [o rest] eqn:Eo. destruct o as [|o]; [discriminate|].
        intros [= <- <-]. split; [discriminate|]. intros _ _.
        exact (comment_open_end (length m) m 1 o rest (le_n _) Eo).
      * destruct (punct puncts (c :: s)) as [[t0 r0]|] eqn:Ep.
        -- intros [= <- <-]. apply punct_tok in Ep. destruct t0; try contradiction; (split; [exact Ep|discriminate]).
        -- intros [= <- <-]. split; [exact I|discriminate].
Qed.

Lemma lex_toks n : forall s, length s <= n -> Forall lexed_tok (lex junk s) /\
  forall a k b, lex junk s = a ++ TComment k :: b -> b = [].
Proof.
  induction n as [|n IH]; intros s Hl.
  - destruct s; [|cbn in Hl; lia]. split; [constructor|]. intros [|x a] k b H; discriminate.
  - rewrite lex_eq. destruct (lex1 junk s) as [[t r]|] eqn:E.
    + pose proof (lex1_shorter junk s t r E) as Hs. destruct (IH r ltac:(lia)) as [H1 H2].
      destruct t as [t|]; [|auto]. destruct s as [|c s]; [discriminate|]. unfold lex1 in E. injection E as E.
      apply lex_match_tok in E as [H3 H4]. split; [constructor; assumption|].
      intros [|x a] k b; cbn [app].
      * intros [= -> Eb]. rewrite (H4 k eq_refl) in Eb. cbn in Eb. auto.
      * intros [= _ Eb]. exact (H2 a k b Eb).
    + split; [constructor|]. intros [|x a] k b H; discriminate.
Qed.

Lemma lex_lexed s : Forall lexed_tok (lex junk s).
Proof. apply (lex_toks (length s) s (le_n _)). Qed.
Lemma lex_comment_last s a k b : lex junk s = a ++ TComment k :: b -> b = [].
Proof. apply (lex_toks (length s) s (le_n _)). Qed.
Lemma lex_no_comment0 s : ~ In (TComment 0) (lex junk s).
Proof.
  intros H. pose proof (proj1 (Forall_forall _ _) (lex_lexed s) _ H) as H'. apply H'. reflexivity.
Qed.

(** ** Reading a printed token *)

(** what may follow the text of a token, so that the token ends there *)
Definition no_tail (r : str) : Prop := match r with [] => True | c :: _ => ident_tail c = false end.
Definition follows (t : token) (r : str) : Prop :=
  match t with
  | TDef | TThm | TInj => no_tail r
  | TColon => headed r <> Some "="%char
  | TLPar => headed r <> Some ";"%char
  | TSymb _ => no_tail r /\ next_part r = None
  | _ => True
  end.

(** the parts of a symbol after the first one *)
Definition dotted (ps : list str) : str := flat_map (fun p => "."%char :: p) ps.

Lemma symb_show_dotted p path name : symb_show (Symb (p :: path) name) = p ++ dotted (path ++ [name]).
Proof.
  unfold symb_show, dotted. cbn [sy_path sy_name flat_map]. rewrite <- !app_assoc. f_equal.
  revert p. induction path as [|q path IH]; intros p; cbn [flat_map app].
  - rewrite app_nil_r. reflexivity.
  - rewrite <- !app_assoc. cbn [app list_ascii_of_string] in *. rewrite IH by exact p. reflexivity.
Qed.

Lemma no_tail_dotted ps r : no_tail r -> no_tail (dotted ps ++ r).
Proof. destruct ps; [auto|reflexivity]. Qed.

Lemma next_part_app p r : valid_part p -> no_tail r -> next_part ("."%char :: p ++ r) = Some (Some p, r).
Proof.
  intros [(c & t & -> & Hc & Ht)%ident_iff|(inner & -> & Hi)] Hr; unfold next_part.
  - cbn [app]. rewrite Hc, span_app; [reflexivity|exact Ht|]. destruct r; [exact I|exact Hr].
  - rewrite <- !app_assoc. change ($"{|" ++ inner ++ $"|}" ++ r) with ("{"%char :: "|"%char :: inner ++ $"|}" ++ r).
    change (ident_head "{") with false. cbn iota.
    change (strip_prefix ($"{|") ("{"%char :: "|"%char :: inner ++ $"|}" ++ r)) with (Some (inner ++ $"|}" ++ r)).
    cbn iota. rewrite find_close_app by exact Hi. reflexivity.
Qed.

Lemma symb_more_dotted ps r : Forall valid_part ps -> no_tail r -> next_part r = None -> forall sy,
  symb_more sy (dotted ps ++ r) = (Some (fold_left symb_push ps sy), r).
Proof.
  intros H Hr Hn. induction H as [|p ps Hp H IH]; intros sy.
  - change (dotted [] ++ r) with r. rewrite symb_more_eq, Hn. reflexivity.
  - unfold dotted. cbn [flat_map]. fold (dotted ps). cbn [app]. rewrite <- app_assoc. rewrite symb_more_eq.
    rewrite next_part_app; [|exact Hp|apply no_tail_dotted; exact Hr]. rewrite IH. reflexivity.
Qed.

Lemma symb_push_fold path : forall p0 n0 name,
  fold_left symb_push (path ++ [name]) (Symb p0 n0) = Symb (p0 ++ n0 :: path) name.
Proof.
  induction path as [|q path IH]; intros p0 n0 name; cbn [app fold_left].
  - reflexivity.
  - unfold symb_push at 2. cbn [sy_path sy_name]. rewrite IH. rewrite <- app_assoc. reflexivity.
Qed.

(** the first part of a symbol, then the others *)
Lemma lex_first_part w s : valid_name w -> no_tail s ->
  lex1 junk (w ++ s) = Some (symb_token (symb_more (symb_new w) s)).
Proof.
  intros [[(c & t & -> & Hc & Ht)%ident_iff|(inner & -> & Hi)] Hk] Hs.
  - cbn [app lex1]. unfold lex_match.
    assert (Hw : white c = false).
    { destruct (white c) eqn:E; [|reflexivity]. exfalso. revert Hc. unfold white in E.
      repeat (apply orb_prop in E as [E|E]); apply ascii_eqb_true in E as ->; discriminate. }
    rewrite Hw, Hc, span_app; [|exact Ht|destruct s; [exact I|exact Hs]]. rewrite (keyword_not _ Hk). reflexivity.
  - rewrite <- !app_assoc. change ($"{|" ++ inner ++ $"|}" ++ s) with ("{"%char :: "|"%char :: inner ++ $"|}" ++ s).
    cbn [lex1]. unfold lex_match. change (white "{") with false. change (ident_head "{") with false. cbn iota.
    change (strip_prefix ($"{|") ("{"%char :: "|"%char :: inner ++ $"|}" ++ s)) with (Some (inner ++ $"|}" ++ s)).
    cbn iota. unfold moustache. rewrite find_close_app by exact Hi. reflexivity.
Qed.

Lemma lex1_symb sy r : valid_symb sy -> no_tail r -> next_part r = None ->
  lex1 junk (symb_show sy ++ r) = Some (Some (TSymb sy), r).
Proof.
  intros Hv Hr Hn. destruct sy as [[|p path] name]; unfold valid_symb in Hv; cbn [sy_path sy_name] in Hv.
  - change (symb_show (Symb [] name)) with name. rewrite lex_first_part by assumption.
    rewrite symb_more_eq, Hn. reflexivity.
  - destruct Hv as (H1 & H2 & H3). rewrite symb_show_dotted, <- app_assoc.
    rewrite lex_first_part; [|exact H1|apply no_tail_dotted; exact Hr].
    rewrite symb_more_dotted; [|apply Forall_app; auto|exact Hr|exact Hn].
    unfold symb_new. rewrite symb_push_fold. reflexivity.
Qed.

Lemma lex1_word c t k r : white c = false -> ident_head c = true -> forallb ident_tail t = true ->
  keyword (c :: t) = Some k -> no_tail r -> lex1 junk ((c :: t) ++ r) = Some (Some k, r).
Proof.
  intros H1 H2 H3 H4 H5. cbn [app lex1]. unfold lex_match. rewrite H1, H2, span_app; [|exact H3|destruct r; [exact I|exact H5]].
  rewrite H4. reflexivity.
Qed.
Lemma lex1_keyword w k r : In (w, k) [($"def", TDef); ($"thm", TThm); ($"injective", TInj)] -> no_tail r ->
  lex1 junk (w ++ r) = Some (Some k, r).
Proof.
  intros H Hr. destruct H as [[= <- <-]|[[= <- <-]|[[= <- <-]|[]]]]; apply lex1_word; auto.
Qed.

Lemma lex1_show t w r : token_show t = Some w -> valid_tok t -> follows t r ->
  lex1 junk (w ++ r) = Some (Some t, r).
Proof.
  intros Hw Hv Hf. destruct t as [ | | | | | | | | | | | | | | |s1|o1|]; try contradiction; injection Hw as <-; try reflexivity.
  - apply lex1_keyword; [cbn; auto|exact Hf].
  - apply lex1_keyword; [cbn; auto|exact Hf].
  - apply lex1_keyword; [cbn; auto|exact Hf].
  - (* ( *) destruct r as [|c r]; [reflexivity|]. cbn in Hf.
    assert (Hc : Ascii.eqb ";" c = false) by (apply ascii_eqb_false; congruence).
    cbn [list_ascii_of_string app lex1]. unfold lex_match. cbn -[Ascii.eqb]. 
    change (Ascii.eqb "(" "(") with true. rewrite Hc. reflexivity.
  - (* : *) destruct r as [|c r]; [reflexivity|]. cbn in Hf.
    assert (Hc : Ascii.eqb "=" c = false) by (apply ascii_eqb_false; congruence).
    cbn [list_ascii_of_string app lex1]. unfold lex_match.
    change (punct puncts (":"%char :: c :: r)) with
      (match (if Ascii.eqb "=" c then Some r else None) with Some rest => Some (TColonEq, rest) | None => Some (TColon, c :: r) end).
    rewrite Hc. reflexivity.
  - destruct Hf as [H1 H2]. apply lex1_symb; assumption.
Qed.

Lemma lex_show t w r : token_show t = Some w -> valid_tok t -> follows t r ->
  lex junk (w ++ r) = t :: lex junk r.
Proof. intros H1 H2 H3. rewrite lex_eq, (lex1_show t w r H1 H2 H3). reflexivity. Qed.

(** white space is skipped *)
Lemma lex_white c s : white c = true -> lex junk (c :: s) = lex junk s.
Proof.
  intros Hc. rewrite lex_eq. cbn [lex1]. unfold lex_match. rewrite Hc.
  destruct (span white s) as [a b] eqn:E. cbn [snd]. apply span_spec in E as (-> & Ha & Hb).
  induction a as [|d a IH]; [reflexivity|].
  cbn in Ha. apply andb_prop in Ha as [Hd Ha]. cbn [app]. rewrite (lex_eq junk (d :: a ++ b)). cbn [lex1]. unfold lex_match.
  rewrite Hd, span_app; [reflexivity|exact Ha|exact Hb].
Qed.

Lemma lex_show_space t w c r : token_show t = Some w -> valid_tok t -> white c = true ->
  lex junk (w ++ c :: r) = t :: lex junk r.
Proof.
  intros H1 H2 H3. rewrite <- (lex_white c r H3). apply lex_show; [exact H1|exact H2|].
  assert (Hc : c = " "%char \/ c = "009"%char \/ c = "010"%char \/ c = "012"%char).
  { unfold white in H3. repeat (apply orb_prop in H3 as [H3|H3]); apply ascii_eqb_true in H3; auto. }
  destruct t; try contradiction; cbn; auto; destruct Hc as [->|[->|[->| ->]]]; cbn; auto; discriminate.
Qed.
End Lex.
