(** * Facts about the lexer *)

From Verif Require Import Base ModelSyntax ModelLex ModelParse SpecParse.

Lemma ascii_eqb_true a b : Ascii.eqb a b = true -> a = b.
Proof. intros H. apply Ascii.eqb_eq. exact H. Qed.
Lemma ascii_eqb_false a b : Ascii.eqb a b = false <-> a <> b.
Proof. apply Ascii.eqb_neq. Qed.

(** ** Prefixes *)
Lemma strip_prefix_spec p : forall s r, strip_prefix p s = Some r <-> s = p ++ r.
Proof.
  induction p as [|a p IH]; intros [|b s] r; cbn.
  - split; [intros [= <-]|intros <-]; reflexivity.
  - split; [intros [= <-]|intros <-]; reflexivity.
  - split; discriminate.
  - destruct (Ascii.eqb a b) eqn:E.
    + apply ascii_eqb_true in E as ->. rewrite IH. split; [intros ->; reflexivity|intros [= ->]; reflexivity].
    + apply ascii_eqb_false in E. split; [discriminate|]. intros [= <- _]. congruence.
Qed.
Lemma strip_prefix_app p r : strip_prefix p (p ++ r) = Some r.
Proof. apply strip_prefix_spec. reflexivity. Qed.
Lemma strip_prefix_length p s r : strip_prefix p s = Some r -> length s = length p + length r.
Proof. intros H. apply strip_prefix_spec in H as ->. apply app_length. Qed.

Lemma span_spec f s : forall a b, span f s = (a, b) ->
  s = a ++ b /\ forallb f a = true /\ match b with [] => True | c :: _ => f c = false end.
Proof.
  induction s as [|c s IH]; intros a b; cbn.
  - intros [= <- <-]. auto.
  - destruct (f c) eqn:E.
    + destruct (span f s) as [a' b']. intros [= <- <-]. destruct (IH a' b' eq_refl) as (-> & H1 & H2).
      cbn. rewrite E, H1. auto.
    + intros [= <- <-]. cbn. auto.
Qed.
Lemma span_app f a b : forallb f a = true -> match b with [] => True | c :: _ => f c = false end ->
  span f (a ++ b) = (a, b).
Proof.
  intros H1 H2. induction a as [|c a IH]; cbn.
  - destruct b as [|c b]; [reflexivity|]. cbn. rewrite H2. reflexivity.
  - cbn in H1. apply andb_prop in H1 as [Hc H1]. rewrite Hc, (IH H1). reflexivity.
Qed.

Lemma find_close_spec s : forall a b, find_close s = Some (a, b) -> s = a ++ $"|}" ++ b.
Proof.
  induction s as [|c s IH]; intros a b; [discriminate|].
  cbn [find_close]. destruct (strip_prefix ($"|}") (c :: s)) as [rest|] eqn:E.
  - intros [= <- <-]. apply strip_prefix_spec in E. exact E.
  - destruct (find_close s) as [[a' b']|]; [|discriminate]. intros [= <- <-].
    rewrite (IH a' b' eq_refl) at 1. reflexivity.
Qed.

(** What is found does not depend on what follows. *)
Lemma strip_prefix_more p s r x : strip_prefix p s = Some r -> strip_prefix p (s ++ x) = Some (r ++ x).
Proof. rewrite !strip_prefix_spec. intros ->. apply app_assoc_reverse. Qed.
Lemma strip_close_more s x : 2 <= length s -> strip_prefix ($"|}") s = None -> strip_prefix ($"|}") (s ++ x) = None.
Proof.
  destruct s as [|c [|d s]]; cbn [length]; try lia. intros _.
  change ((c :: d :: s) ++ x) with (c :: d :: s ++ x).
  cbn -[Ascii.eqb]. destruct (Ascii.eqb "|" c); [|auto]. destruct (Ascii.eqb "}" d); [discriminate|auto].
Qed.
Lemma find_close_length s a b : find_close s = Some (a, b) -> length s = length a + 2 + length b.
Proof. intros H. apply find_close_spec in H as ->. rewrite !app_length. cbn. lia. Qed.
Lemma find_close_more s : forall a b x, find_close s = Some (a, b) -> find_close (s ++ x) = Some (a, b ++ x).
Proof.
  induction s as [|c s IH]; intros a b x; [discriminate|].
  intros H. assert (Hl : 2 <= length (c :: s)) by (apply find_close_length in H; lia).
  revert H. cbn [find_close app]. destruct (strip_prefix ($"|}") (c :: s)) as [rest|] eqn:E.
  - intros [= <- <-]. apply strip_prefix_more with (x := x) in E. cbn [app] in E. rewrite E. reflexivity.
  - apply strip_close_more with (x := x) in E; [|exact Hl]. cbn [app] in E. rewrite E.
    destruct (find_close s) as [[a' b']|]; [|discriminate]. intros [= <- <-].
    rewrite (IH a' b' x eq_refl). reflexivity.
Qed.
Lemma find_close_self s : forall a b x, find_close s = Some (a, b) ->
  find_close (a ++ $"|}" ++ x) = Some (a, x).
Proof.
  assert (G : forall a b, find_close (a ++ $"|}" ++ b) = Some (a, b) -> forall x, find_close (a ++ $"|}" ++ x) = Some (a, x)).
  { clear. induction a as [|c a IH]; intros b H x; [reflexivity|].
    change (find_close ((c :: a) ++ $"|}" ++ b)) with
      (match strip_prefix ($"|}") (c :: a ++ $"|}" ++ b) with
       | Some rest => Some ([], rest)
       | None => match find_close (a ++ $"|}" ++ b) with Some (a, b) => Some (c :: a, b) | None => None end
       end) in H.
    change (find_close ((c :: a) ++ $"|}" ++ x)) with
      (match strip_prefix ($"|}") (c :: a ++ $"|}" ++ x) with
       | Some rest => Some ([], rest)
       | None => match find_close (a ++ $"|}" ++ x) with Some (a, b) => Some (c :: a, b) | None => None end
       end).
    destruct (strip_prefix ($"|}") (c :: a ++ $"|}" ++ b)) eqn:Es; [discriminate|].
    assert (Ex : strip_prefix ($"|}") (c :: a ++ $"|}" ++ x) = None).
    { revert Es. destruct a as [|d a]; cbn -[Ascii.eqb]; destruct (Ascii.eqb "|" c); auto; try discriminate.
      destruct (Ascii.eqb "}" d); [discriminate|auto]. }
    rewrite Ex.
    destruct (find_close (a ++ $"|}" ++ b)) as [[a' b']|] eqn:Ef; [|discriminate].
    injection H as -> ->. rewrite (IH b Ef x). reflexivity. }
  intros a b x H. apply find_close_spec in H as Hs. subst s. eapply G; eassumption.
Qed.

(** ** Symbols *)

(** one component of a path after a dot *)
Definition next_part (s : str) : option (option str * str) :=
  match s with
  | "."%char :: after_dot =>
      match after_dot with
      | [] => None
      | c :: tail =>
          if ident_head c then
            let '(t, rest) := span ident_tail tail in Some (Some (c :: t), rest)
          else
            match strip_prefix ($"{|") after_dot with
            | Some after_moustache =>
                match find_close after_moustache with
                | None => Some (None, s)
                | Some (inner, rest) => Some (Some ($"{|" ++ inner ++ $"|}"), rest)
                end
            | None => None
            end
      end
  | _ => None
  end.

Lemma symb_tail_S n sy s :
  symb_tail (S n) sy s =
  match next_part s with
  | None => (Some sy, s)
  | Some (None, rest) => (None, rest)
  | Some (Some part, rest) => symb_tail n (symb_push sy part) rest
  end.
Proof.
  unfold next_part. destruct s as [|c s]; [reflexivity|].
  destruct c as [[] [] [] [] [] [] [] []]; try reflexivity.
  destruct s as [|c s]; [reflexivity|].
  cbn [symb_tail]. destruct (ident_head c).
  - destruct (span ident_tail s). reflexivity.
  - destruct (strip_prefix _ _); [|reflexivity]. destruct (find_close _) as [[? ?]|]; reflexivity.
Qed.

Lemma next_part_dot s p : next_part s = Some p -> exists s', s = "."%char :: s'.
Proof.
  unfold next_part. destruct s as [|c s]; [discriminate|].
  destruct c as [[] [] [] [] [] [] [] []]; try discriminate. eauto.
Qed.

Lemma next_part_shorter s part rest : next_part s = Some (Some part, rest) -> length rest < length s.
Proof.
  intros H. destruct (next_part_dot _ _ H) as [s' ->]. unfold next_part in H.
  destruct s' as [|c s']; [discriminate|]. destruct (ident_head c).
  - destruct (span ident_tail s') as [t r] eqn:E. injection H as <- <-.
    apply span_spec in E as (-> & _ & _). cbn [length]. rewrite app_length. lia.
  - destruct (strip_prefix ($"{|") (c :: s')) as [m|] eqn:E; [|discriminate].
    destruct (find_close m) as [[inner r]|] eqn:Ef; [|discriminate]. injection H as _ <-.
    apply find_close_length in Ef. apply strip_prefix_length in E. cbn [length] in *. lia.
Qed.

Lemma symb_tail_fuel n : forall m sy s, length s <= n -> length s <= m -> symb_tail n sy s = symb_tail m sy s.
Proof.
  induction n as [|n IH]; intros m sy s H1 H2.
  - destruct s; [|cbn in H1; lia]. destruct m; reflexivity.
  - destruct m as [|m]; [destruct s; [|cbn in H2; lia]; reflexivity|].
    rewrite !symb_tail_S. destruct (next_part s) as [[[part|] rest]|] eqn:E; try reflexivity.
    apply next_part_shorter in E. apply IH; lia.
Qed.

Definition symb_more (sy : symb) (s : str) : option symb * str := symb_tail (length s) sy s.
Lemma symb_more_eq sy s :
  symb_more sy s =
  match next_part s with
  | None => (Some sy, s)
  | Some (None, rest) => (None, rest)
  | Some (Some part, rest) => symb_more (symb_push sy part) rest
  end.
Proof.
  unfold symb_more. destruct s as [|c s]; [reflexivity|]. cbn [length]. rewrite symb_tail_S.
  destruct (next_part (c :: s)) as [[[part|] rest]|] eqn:E; try reflexivity.
  apply next_part_shorter in E. cbn [length] in E. apply symb_tail_fuel; lia.
Qed.

Lemma symb_more_shorter n : forall s sy, length s <= n -> length (snd (symb_more sy s)) <= length s.
Proof.
  induction n as [|n IH]; intros s sy H; rewrite symb_more_eq.
  - destruct s; [|cbn in H; lia]. reflexivity.
  - destruct (next_part s) as [[[part|] rest]|] eqn:E; cbn [snd]; try lia.
    + apply next_part_shorter in E. specialize (IH rest (symb_push sy part)). lia.
    + destruct (next_part_dot _ _ E) as [s' ->]. unfold next_part in E.
      destruct s' as [|c s']; [discriminate|]. destruct (ident_head c); [destruct (span ident_tail s'); discriminate|].
      destruct (strip_prefix _ _); [|discriminate]. destruct (find_close _) as [[? ?]|]; [discriminate|].
      injection E as <-. lia.
Qed.

(** ** Comments *)
Lemma comment_shorter n : forall s open, length s <= n -> length (snd (comment open s)) <= length s.
Proof.
  induction n as [|n IH]; intros s open H.
  - destruct s; [|cbn in H; lia]. destruct open; reflexivity.
  - destruct s as [|c s]; [destruct open; reflexivity|]. destruct open as [|o]; [reflexivity|].
    cbn [length] in H. cbn [comment].
    assert (IH' : forall s' o, length s' <= length s -> length (snd (comment o s')) <= length (c :: s)).
    { intros s' o' Hs. specialize (IH s' o'). cbn [length]. lia. }
    destruct (Ascii.eqb c "("); [|destruct (Ascii.eqb c ";")].
    + destruct s as [|d s]; [cbn; lia|]. destruct (Ascii.eqb d ";"); apply IH'; cbn [length]; lia.
    + destruct s as [|d s]; [cbn; lia|]. destruct (Ascii.eqb d ")"); apply IH'; cbn [length]; lia.
    + apply IH'; lia.
Qed.

(** ** Tokens *)
Section Lex.
Variable junk : str -> nat.

Lemma punct_shorter ps s t r : Forall (fun p => fst p <> []) ps -> punct ps s = Some (t, r) -> length r < length s.
Proof.
  intros H. induction H as [|[p t0] ps Hp H IH]; cbn [punct]; [discriminate|].
  destruct (strip_prefix p s) as [r0|] eqn:E; [|exact IH].
  intros [= <- <-]. apply strip_prefix_length in E. cbn in Hp. destruct p; [congruence|]. cbn in E. lia.
Qed.
Lemma puncts_nonempty : Forall (fun p => fst p <> []) puncts.
Proof. repeat constructor; discriminate. Qed.

Lemma lex1_shorter s t r : lex1 junk s = Some (t, r) -> length r < length s.
Proof.
  destruct s as [|c s]; [discriminate|]. unfold lex1. intros [= H]. unfold lex_match in H.
  destruct (white c).
  - injection H as _ <-. destruct (span white s) as [a b] eqn:E. apply span_spec in E as (-> & _ & _).
    cbn [length snd]. rewrite app_length. lia.
  - destruct (ident_head c).
    + destruct (span ident_tail s) as [a b] eqn:E. apply span_spec in E as (-> & _ & _).
      cbn [length]. rewrite app_length. destruct (keyword (c :: a)).
      * injection H as _ <-. lia.
      * unfold symb_token, symb_rest in H. fold (symb_more (symb_new (c :: a)) b) in H.
        pose proof (symb_more_shorter (length b) b (symb_new (c :: a)) (le_n _)) as Hl.
        destruct (symb_more (symb_new (c :: a)) b) as [o rest]. cbn in Hl. injection H as _ <-. lia.
    + destruct (strip_prefix ($"{|") (c :: s)) as [m|] eqn:E.
      * apply strip_prefix_length in E. unfold moustache in H. cbn [length] in *. cbn in E.
        destruct (find_close m) as [[inner rest]|] eqn:Ef.
        -- apply find_close_length in Ef. unfold symb_token, symb_rest in H.
           pose proof (symb_more_shorter (length rest) rest (symb_new ($"{|" ++ inner ++ $"|}")) (le_n _)) as Hl.
           unfold symb_more in Hl.
           destruct (symb_tail (length rest) (symb_new ($"{|" ++ inner ++ $"|}")) rest) as [o rest2]. cbn in Hl.
           injection H as _ <-. lia.
        -- injection H as _ <-. lia.
      * destruct (strip_prefix ($"(;") (c :: s)) as [m|] eqn:E2.
        -- apply strip_prefix_length in E2. pose proof (comment_shorter (length m) m 1 (le_n _)) as Hl.
           destruct (comment 1 m) as [o rest]. cbn in Hl, E2. injection H as _ <-. cbn [length]. lia.
        -- destruct (punct puncts (c :: s)) as [[t0 r0]|] eqn:Ep.
           ++ apply punct_shorter in Ep; [|exact puncts_nonempty]. injection H as _ <-. exact Ep.
           ++ injection H as _ <-. pose proof (skipn_length (junk (c :: s)) s) as Hl. cbn [length]. lia.
Qed.

Lemma lex_fuel n : forall m s, length s <= n -> length s <= m -> lex_ junk n s = lex_ junk m s.
Proof.
  induction n as [|n IH]; intros m s H1 H2.
  - destruct s; [|cbn in H1; lia]. destruct m; reflexivity.
  - destruct m as [|m]; [destruct s; [|cbn in H2; lia]; reflexivity|].
    cbn [lex_]. destruct (lex1 junk s) as [[t r]|] eqn:E; [|reflexivity].
    apply lex1_shorter in E. destruct t; [f_equal|]; apply IH; lia.
Qed.

(** the tokens of a text: those of the first match, then those of the rest *)
Lemma lex_eq s :
  lex junk s =
  match lex1 junk s with
  | None => []
  | Some (None, rest) => lex junk rest
  | Some (Some t, rest) => t :: lex junk rest
  end.
Proof.
  unfold lex. destruct s as [|c s]; [reflexivity|]. cbn [length lex_].
  destruct (lex1 junk (c :: s)) as [[t r]|] eqn:E; [|reflexivity].
  apply lex1_shorter in E. cbn [length] in E. destruct t; [f_equal|]; apply lex_fuel; lia.
Qed.
Lemma lex_nil : lex junk [] = [].
Proof. reflexivity. Qed.
End Lex.

(** ** Comments nest *)
Definition headed (r : str) : option ascii := match r with [] => None | c :: _ => Some c end.

Lemma comment_balanced f b : balanced f b -> forall n r, headed r = f ->
  comment (S n) (b ++ r) = comment (S n) r.
Proof.
  intros H. induction H as [f|f c b Hc1 Hc2 H IH|f b Hf H IH|f b Hf H IH|f b1 b2 H1 IH1 H2 IH2]; intros n r Hr.
  - reflexivity.
  - cbn [app comment]. apply ascii_eqb_false in Hc1, Hc2. rewrite Hc1, Hc2. apply IH. exact Hr.
  - cbn [app comment]. rewrite Ascii.eqb_refl.
    assert (Hh : headed (b ++ r) <> Some ";"%char).
    { destruct b; cbn [app headed first] in *; congruence. }
    specialize (IH n r Hr). destruct (b ++ r) as [|d s2] eqn:E.
    + cbn in IH. exact IH.
    + cbn [headed] in Hh. assert (Hd : d <> ";"%char) by congruence. apply ascii_eqb_false in Hd. rewrite Hd.
      exact IH.
  - cbn [app comment]. change (Ascii.eqb ";" "(") with false. rewrite Ascii.eqb_refl. cbn iota.
    assert (Hh : headed (b ++ r) <> Some ")"%char).
    { destruct b; cbn [app headed first] in *; congruence. }
    specialize (IH n r Hr). destruct (b ++ r) as [|d s2] eqn:E.
    + cbn in IH. exact IH.
    + cbn [headed] in Hh. assert (Hd : d <> ")"%char) by congruence. apply ascii_eqb_false in Hd. rewrite Hd.
      exact IH.
  - rewrite <- app_assoc. cbn [app list_ascii_of_string]. 
    change (comment (S n) ("("%char :: ";"%char :: (b1 ++ ";"%char :: ")"%char :: b2) ++ r))
      with (comment (S (S n)) ((b1 ++ ";"%char :: ")"%char :: b2) ++ r)).
    rewrite <- app_assoc. rewrite IH1 by reflexivity.
    change (comment (S (S n)) ((";"%char :: ")"%char :: b2) ++ r)) with (comment (S n) (b2 ++ r)).
    apply IH2. exact Hr.
Qed.

Lemma comment_closed b s : balanced (Some ";"%char) b -> forall n, comment (S n) (b ++ $";)" ++ s) = comment n s.
Proof.
  intros H n. rewrite (comment_balanced _ _ H) by reflexivity. reflexivity.
Qed.

Lemma comment_nil n : comment n [] = (n, []).
Proof. destruct n; reflexivity. Qed.

Lemma comment_unclosed n t : unclosed n t -> forall m, comment (S m) t = (m + n, []).
Proof.
  intros H. induction H as [b H|n b t H Ht IH]; intros m.
  - pose proof (comment_balanced _ _ H m [] eq_refl) as E. rewrite app_nil_r in E. rewrite E, comment_nil.
    f_equal. lia.
  - rewrite (comment_balanced _ _ H) by reflexivity.
    change (comment (S m) ($"(;" ++ t)) with (comment (S (S m)) t). rewrite IH. f_equal. lia.
Qed.

Lemma unclosed_char c t n : c <> "("%char -> c <> ";"%char -> unclosed n t -> unclosed n (c :: t).
Proof.
  intros H1 H2 H. destruct H as [b H|n b t H Ht].
  - constructor. constructor; assumption.
  - change (c :: b ++ $"(;" ++ t) with ((c :: b) ++ $"(;" ++ t). constructor; [|exact Ht]. constructor; assumption.
Qed.
Lemma unclosed_par t n : headed t <> Some ";"%char -> unclosed n t -> unclosed n ("("%char :: t).
Proof.
  intros H1 H. destruct H as [b H|n b t H Ht].
  - constructor. constructor; [|assumption]. destruct b; [discriminate|exact H1].
  - change ("("%char :: b ++ $"(;" ++ t) with (("("%char :: b) ++ $"(;" ++ t). constructor; [|exact Ht].
    constructor; [|assumption]. destruct b; [discriminate|exact H1].
Qed.
Lemma unclosed_semi t n : headed t <> Some ")"%char -> unclosed n t -> unclosed n (";"%char :: t).
Proof.
  intros H1 H. destruct H as [b H|n b t H Ht].
  - constructor. constructor; [|assumption]. destruct b; [discriminate|exact H1].
  - change (";"%char :: b ++ $"(;" ++ t) with ((";"%char :: b) ++ $"(;" ++ t). constructor; [|exact Ht].
    constructor; [|assumption]. destruct b; [discriminate|exact H1].
Qed.
Lemma unclosed_comment b t n : balanced (Some ";"%char) b -> unclosed n t -> unclosed n ($"(;" ++ b ++ $";)" ++ t).
Proof.
  intros H1 H. destruct H as [b' H|n b' t H Ht].
  - constructor. apply bal_comment; assumption.
  - replace ($"(;" ++ b ++ $";)" ++ b' ++ $"(;" ++ t) with (($"(;" ++ b ++ $";)" ++ b') ++ $"(;" ++ t)
      by (rewrite <- !app_assoc; reflexivity).
    constructor; [apply bal_comment; assumption|exact Ht].
Qed.

(** Every text after the start of a comment either closes that comment or leaves comments open. *)
Lemma comment_cases_aux n : forall t, length t <= n ->
  (exists b s, balanced (Some ";"%char) b /\ t = b ++ $";)" ++ s) \/ (exists k, unclosed k t).
Proof.
  induction n as [|n IH]; intros t Hl.
  - destruct t; [|cbn in Hl; lia]. right. exists 1. constructor. constructor.
  - destruct t as [|c t]; [right; exists 1; repeat constructor|]. cbn [length] in Hl.
    destruct (ascii_dec c "(") as [->|H1]; [|destruct (ascii_dec c ";") as [->|H2]].
    + destruct t as [|d t]; [right; exists 1; constructor; constructor; [discriminate|constructor]|].
      destruct (ascii_dec d ";") as [->|Hd].
      * cbn [length] in Hl. destruct (IH t ltac:(lia)) as [(b & s & Hb & ->)|(k & Hk)].
        -- rewrite !app_length in Hl. cbn in Hl.
           destruct (IH s ltac:(lia)) as [(b2 & s2 & Hb2 & ->)|(k & Hk)].
           ++ left. exists ($"(;" ++ b ++ $";)" ++ b2), s2. split; [apply bal_comment; assumption|].
              rewrite <- !app_assoc. reflexivity.
           ++ right. exists k. change ("("%char :: ";"%char :: b ++ $";)" ++ s) with ($"(;" ++ b ++ $";)" ++ s).
              apply unclosed_comment; assumption.
        -- right. exists (S k). apply (unclosed_more k [] t); [constructor|exact Hk].
      * destruct (IH (d :: t) ltac:(lia)) as [(b & s & Hb & E)|(k & Hk)].
        -- left. exists ("("%char :: b), s. split; [|cbn [app]; rewrite E; reflexivity]. constructor; [|exact Hb].
           destruct b as [|x b]; [cbn in E; congruence|]. cbn. cbn in E. congruence.
        -- right. exists k. apply unclosed_par; [cbn; congruence|exact Hk].
    + destruct t as [|d t]; [right; exists 1; constructor; constructor; [discriminate|constructor]|].
      destruct (ascii_dec d ")") as [->|Hd].
      * left. exists [], t. split; [constructor|reflexivity].
      * destruct (IH (d :: t) ltac:(lia)) as [(b & s & Hb & E)|(k & Hk)].
        -- left. exists (";"%char :: b), s. split; [|cbn [app]; rewrite E; reflexivity]. constructor; [|exact Hb].
           destruct b as [|x b]; [cbn in E; cbn; congruence|]. cbn. cbn in E. congruence.
        -- right. exists k. apply unclosed_semi; [cbn; congruence|exact Hk].
    + destruct (IH t ltac:(lia)) as [(b & s & Hb & ->)|(k & Hk)].
      * left. exists (c :: b), s. split; [constructor; assumption|reflexivity].
      * right. exists k. apply unclosed_char; assumption.
Qed.

Lemma main_comment_cases t :
  (exists b s, balanced (Some ";"%char) b /\ t = b ++ $";)" ++ s) \/ (exists k, unclosed k t).
Proof. apply comment_cases_aux with (n := length t). lia. Qed.

Lemma main_comment_balanced junk b s : balanced (Some ";"%char) b ->
  lex junk ($"(;" ++ b ++ $";)" ++ s) = lex junk s.
Proof.
  intros H. rewrite lex_eq. cbn [list_ascii_of_string app].
  change (lex1 junk ("("%char :: ";"%char :: b ++ ";"%char :: ")"%char :: s))
    with (Some (let '(open, rest) := comment 1 (b ++ $";)" ++ s) in
                (match open with 0 => None | S _ => Some (TComment open) end, rest))).
  rewrite (comment_closed b s H). cbn. destruct s; reflexivity.
Qed.

Lemma main_comment_unclosed junk n t : unclosed n t -> lex junk ($"(;" ++ t) = [TComment n].
Proof.
  intros H. rewrite lex_eq. cbn [list_ascii_of_string app].
  change (lex1 junk ("("%char :: ";"%char :: t))
    with (Some (let '(open, rest) := comment 1 t in
                (match open with 0 => None | S _ => Some (TComment open) end, rest))).
  rewrite (comment_unclosed n t H). cbn [plus]. destruct H; reflexivity.
Qed.
