(** * Parsing line by line *)

From Verif Require Import Base ModelSyntax ModelCommand ModelLex ModelParse ParseAuto SpecParse SpecSyntax ParseLex ParsePrint ParseScope.

(** ** Lexing up to the end of a line *)
Lemma comment_line n : forall l open r, length l <= n -> ~ In newline l ->
  comment (S open) (l ++ newline :: r) =
  let '(k, rest) := comment (S open) l in
  match k with 0 => (0, rest ++ newline :: r) | S _ => comment k r end.
Proof.
  induction n as [|n IH]; intros l open r Hl Hn.
  - destruct l; [|cbn in Hl; lia]. reflexivity.
  - destruct l as [|c l]; [reflexivity|]. cbn [length] in Hl.
    assert (Hn1 : ~ In newline l) by (intros H; apply Hn; right; exact H).
    cbn [app comment]. destruct (Ascii.eqb c "("); [|destruct (Ascii.eqb c ";")].
    + destruct l as [|d l].
      * cbn [app]. change (Ascii.eqb newline ";") with false. cbn iota. reflexivity.
      * cbn [app length] in *. destruct (Ascii.eqb d ";").
        -- apply IH; [lia|]. intros H. apply Hn1. right. exact H.
        -- apply (IH (d :: l)); [cbn; lia|exact Hn1].
    + destruct l as [|d l].
      * cbn [app]. change (Ascii.eqb newline ")") with false. cbn iota. reflexivity.
      * cbn [app length] in *. destruct (Ascii.eqb d ")").
        -- assert (Hn2 : ~ In newline l) by (intros H; apply Hn1; right; exact H).
           destruct open as [|open]; [destruct l; reflexivity|]. apply IH; [lia|exact Hn2].
        -- apply (IH (d :: l)); [cbn; lia|exact Hn1].
    + apply IH; [lia|exact Hn1].
Qed.

Lemma comment_newline n : forall s o, length s <= n -> ~ In newline s -> ~ In newline (snd (comment o s)).
Proof.
  induction n as [|n IH]; intros s o Hl Hn.
  - destruct s; [|cbn in Hl; lia]. rewrite comment_nil. auto.
  - destruct s as [|c s]; [rewrite comment_nil; auto|]. destruct o as [|o]; [exact Hn|].
    cbn [length] in Hl. assert (Hn1 : ~ In newline s) by (intros H; apply Hn; right; exact H).
    cbn [comment]. destruct (Ascii.eqb c "("); [|destruct (Ascii.eqb c ";")].
    + destruct s as [|d s]; [auto|]. cbn [length] in Hl. destruct (Ascii.eqb d ";"); apply IH; cbn [length]; auto; try lia.
      intros H; apply Hn1; right; exact H.
    + destruct s as [|d s]; [auto|]. cbn [length] in Hl. destruct (Ascii.eqb d ")"); apply IH; cbn [length]; auto; try lia.
      intros H; apply Hn1; right; exact H.
    + apply IH; auto; lia.
Qed.

Lemma app_newline (a : str) : forall b m r, ~ In newline a -> a ++ b = m ++ newline :: r ->
  exists m', m = a ++ m' /\ b = m' ++ newline :: r.
Proof.
  induction a as [|c a IH]; intros b m r Hn E.
  - exists m. auto.
  - destruct m as [|d m]; cbn in E; injection E as -> E.
    + exfalso. apply Hn. left. reflexivity.
    + destruct (IH b m r) as (m' & -> & ->); [intros H; apply Hn; right; exact H|exact E|]. exists m'. auto.
Qed.

Lemma find_close_line m r inner rest : ~ In newline inner -> find_close (m ++ newline :: r) = Some (inner, rest) ->
  exists m', rest = m' ++ newline :: r /\ find_close m = Some (inner, m').
Proof.
  intros Hn H. pose proof (find_close_first _ _ _ H) as Hf. apply find_close_spec in H.
  rewrite app_assoc in H. symmetry in H.
  destruct (app_newline (inner ++ $"|}") rest m r) as (m' & -> & ->); [|exact H|].
  - intros Hi. apply in_app_or in Hi as [Hi|[Hi|[Hi|[]]]]; [exact (Hn Hi)|discriminate|discriminate].
  - exists m'. split; [reflexivity|]. rewrite <- app_assoc. apply find_close_app. exact Hf.
Qed.

Lemma span_line f m r : f newline = false ->
  span f (m ++ newline :: r) = (fst (span f m), snd (span f m) ++ newline :: r).
Proof.
  intros Hf. induction m as [|c m IH]; cbn [app span].
  - rewrite Hf. reflexivity.
  - destruct (f c); [|reflexivity]. rewrite IH. destruct (span f m). reflexivity.
Qed.

Lemma strip_prefix_line p : forall m r, ~ In newline p ->
  strip_prefix p (m ++ newline :: r) = option_map (fun x => x ++ newline :: r) (strip_prefix p m).
Proof.
  induction p as [|a p IH]; intros m r Hn; [reflexivity|].
  assert (Hn1 : ~ In newline p) by (intros H; apply Hn; right; exact H).
  destruct m as [|b m]; cbn [app strip_prefix].
  - destruct (Ascii.eqb a newline) eqn:E; [|reflexivity]. apply ascii_eqb_true in E. exfalso. apply Hn. left. exact E.
  - destruct (Ascii.eqb a b); [|reflexivity]. apply IH. exact Hn1.
Qed.

(** the next part of a symbol, if it is found in the rest of a line *)
Lemma next_part_line b r :
  match next_part (b ++ newline :: r) with
  | None => next_part b = None
  | Some (None, _) => True
  | Some (Some p, rest) => ~ In newline p -> exists b', rest = b' ++ newline :: r /\ next_part b = Some (Some p, b')
  end.
Proof.
  destruct b as [|c b]; [reflexivity|]. cbn [app].
  destruct (ascii_dec c ".") as [->|Hc].
  - unfold next_part. destruct b as [|d b]; [reflexivity|]. cbn [app].
    destruct (ident_head d).
    + rewrite span_line by reflexivity. destruct (span ident_tail b) as [x y]. cbn [fst snd]. intros _. eauto.
    + pose proof (strip_prefix_line ($"{|") (d :: b) r) as Hs. cbn [app] in Hs.
      rewrite Hs by (intros [H|[H|[]]]; discriminate).
      destruct (strip_prefix ($"{|") (d :: b)) as [m|]; cbn [option_map]; [|reflexivity].
      destruct (find_close (m ++ newline :: r)) as [[inner rest]|] eqn:Ef; [|exact I].
      intros Hn. destruct (find_close_line m r inner rest) as (m' & -> & ->); [|exact Ef|eauto].
      intros Hi. apply Hn. apply in_or_app. right. apply in_or_app. left. exact Hi.
  - assert (E : forall x, next_part (c :: x) = None)
      by (intros x; unfold next_part; destruct c as [[] [] [] [] [] [] [] []]; try reflexivity; congruence).
    rewrite !E. reflexivity.
Qed.

(** the names of a symbol *)
Definition parts (s : symb) : list str := sy_path s ++ [sy_name s].
Lemma parts_push s p : parts (symb_push s p) = parts s ++ [p].
Proof. reflexivity. Qed.

Lemma symb_more_parts n : forall s sy sy' r, length s <= n -> symb_more sy s = (Some sy', r) -> incl (parts sy) (parts sy').
Proof.
  induction n as [|n IH]; intros s sy sy' r Hl; rewrite symb_more_eq.
  - destruct s; [|cbn in Hl; lia]. cbn. intros [= <- _]. apply incl_refl.
  - destruct (next_part s) as [[[part|] rest]|] eqn:E; [|discriminate|intros [= <- _]; apply incl_refl].
    pose proof (next_part_shorter _ _ _ E). intros H1. apply IH in H1; [|lia]. rewrite parts_push in H1.
    intros p Hp. apply H1. apply in_or_app. auto.
Qed.

Lemma symb_more_line n : forall b sy sy' r rest, length b <= n -> one_line sy' ->
  symb_more sy (b ++ newline :: r) = (Some sy', rest) ->
  exists b', rest = b' ++ newline :: r /\ symb_more sy b = (Some sy', b').
Proof.
  induction n as [|n IH]; intros b sy sy' r rest Hl Ho; rewrite symb_more_eq; pose proof (next_part_line b r) as Hp;
    destruct (next_part (b ++ newline :: r)) as [[[p|] rest0]|] eqn:E; try discriminate.
  - destruct b; [|cbn in Hl; lia]. discriminate.
  - intros [= <- <-]. exists b. split; [reflexivity|]. rewrite symb_more_eq, Hp. reflexivity.
  - intros H. pose proof (symb_more_parts (length rest0) _ _ _ _ (le_n _) H) as Hi.
    destruct Hp as (b' & -> & Eb).
    + apply Ho. apply Hi. rewrite parts_push. apply in_or_app. right. left. reflexivity.
    + pose proof (next_part_shorter _ _ _ Eb). destruct (IH b' _ _ _ _ ltac:(lia) Ho H) as (b2 & -> & E2).
      exists b2. split; [reflexivity|]. rewrite symb_more_eq, Eb. exact E2.
  - intros [= <- <-]. exists b. split; [reflexivity|]. rewrite symb_more_eq, Hp. reflexivity.
Qed.

Lemma punct_line ps m r : Forall (fun p => ~ In newline (fst p)) ps ->
  punct ps (m ++ newline :: r) = option_map (fun p => (fst p, snd p ++ newline :: r)) (punct ps m).
Proof.
  intros H. induction H as [|[p t] ps Hp H IH]; [reflexivity|]. cbn [punct].
  rewrite strip_prefix_line by exact Hp. destruct (strip_prefix p m); [reflexivity|exact IH].
Qed.
Lemma puncts_line : Forall (fun p : str * token => ~ In newline (fst p)) puncts.
Proof. repeat constructor; cbn; intuition discriminate. Qed.

Section Lines.
Variable junk : str -> nat.

(** lexing from within [k] open comments *)
Definition lexo (k : nat) (s : str) : list token :=
  let '(o, rest) := comment k s in
  match o with 0 => lex junk rest | S _ => [TComment o] end.

Lemma lexo_0 s : lexo 0 s = lex junk s.
Proof. unfold lexo. destruct s; reflexivity. Qed.

Lemma line_wise_tail t ts : line_wise (t :: ts) -> line_wise ts.
Proof. intros H t' Ht. apply H. right. exact Ht. Qed.

(** the tokens of a line, and in how many comments it ends *)
Definition ends_in (ts0 : list token) (ts : list token) (k : nat) : Prop :=
  (k = 0 /\ ts0 = ts /\ Forall (fun t => is_comment t = false) ts)
  \/ (exists j, k = S j /\ ts0 = ts ++ [TComment k] /\ Forall (fun t => is_comment t = false) ts).

Lemma ends_cons t ts0 ts k : is_comment t = false -> ends_in ts0 ts k -> ends_in (t :: ts0) (t :: ts) k.
Proof.
  intros Ht [(-> & -> & H)|(j & -> & -> & H)]; [left|right; exists j]; auto.
Qed.

Lemma lex_line n : forall l r, length l <= n -> ~ In newline l -> line_wise (lex junk (l ++ newline :: r)) ->
  exists ts k, ends_in (lex junk l) ts k /\ lex junk (l ++ newline :: r) = ts ++ lexo k r.
Proof.
  induction n as [|n IH]; intros l r Hl Hn Hw.
  - destruct l; [|cbn in Hl; lia]. exists [], 0. split; [left; auto|]. cbn [app]. rewrite lexo_0. apply lex_white. reflexivity.
  - destruct l as [|c l].
    { exists [], 0. split; [left; auto|]. cbn [app]. rewrite lexo_0. apply lex_white. reflexivity. }
    cbn [length] in Hl. assert (Hn1 : ~ In newline l) by (intros H; apply Hn; right; exact H).
    cbn [app] in *.
    destruct (white c) eqn:Hwh.
    { rewrite !lex_white in * by exact Hwh. apply IH; [lia|exact Hn1|exact Hw]. }
    assert (Hnl : forall a b, l = a ++ b -> ~ In newline b)
      by (intros a b -> H; apply Hn1; apply in_or_app; right; exact H).
    (* one match that stays in the line *)
    assert (Step : forall t rest, lex_match junk c (l ++ newline :: r) = (Some t, rest ++ newline :: r) ->
              lex_match junk c l = (Some t, rest) -> length rest <= n -> ~ In newline rest -> is_comment t = false ->
              exists ts k, ends_in (lex junk (c :: l)) ts k /\ lex junk (c :: l ++ newline :: r) = ts ++ lexo k r).
    { intros t rest E1 E2 Hr Hnr Ht.
      assert (L1 : lex junk (c :: l ++ newline :: r) = t :: lex junk (rest ++ newline :: r))
        by (rewrite lex_eq; cbn [lex1]; rewrite E1; reflexivity).
      assert (L2 : lex junk (c :: l) = t :: lex junk rest) by (rewrite lex_eq; cbn [lex1]; rewrite E2; reflexivity).
      rewrite L1. rewrite L1 in Hw. rewrite L2. destruct (IH rest r Hr Hnr (line_wise_tail _ _ Hw)) as (ts & k & H1 & H2).
      exists (t :: ts), k. split; [apply ends_cons; assumption|]. rewrite H2. reflexivity. }
    assert (Hw1 : forall t rest, lex_match junk c (l ++ newline :: r) = (Some t, rest) ->
              t <> TError /\ forall s, t = TSymb s -> one_line s).
    { intros t rest E. apply Hw. rewrite lex_eq. cbn [lex1]. rewrite E. left. reflexivity. }
    assert (Symb : forall w b, (exists a, l = a ++ b) ->
              lex_match junk c (l ++ newline :: r) = symb_token (symb_more (symb_new w) (b ++ newline :: r)) ->
              lex_match junk c l = symb_token (symb_more (symb_new w) b) ->
              exists ts k, ends_in (lex junk (c :: l)) ts k /\ lex junk (c :: l ++ newline :: r) = ts ++ lexo k r).
    { intros w b [a Ea] E1 E2.
      destruct (symb_more (symb_new w) (b ++ newline :: r)) as [[sy|] rest] eqn:Es; cbn [symb_token] in E1.
      - destruct (Hw1 _ _ E1) as [_ Ho].
        destruct (symb_more_line (length b) b (symb_new w) sy r rest (le_n _) (Ho sy eq_refl) Es) as (b' & -> & Eb).
        rewrite Eb in E2. cbn [symb_token] in E2.
        pose proof (symb_more_shorter (length b) b (symb_new w) (le_n _)) as Hs. rewrite Eb in Hs. cbn [snd] in Hs.
        apply (Step (TSymb sy) b'); auto.
        + rewrite Ea, app_length in Hl. lia.
        + clear -Eb Hnl Ea. specialize (Hnl a b Ea). clear Ea.
          assert (G : forall n b sy sy' b', length b <= n -> ~ In newline b -> symb_more sy b = (Some sy', b') -> ~ In newline b').
          { clear. induction n as [|n IH]; intros b sy sy' b' Hl Hn; rewrite symb_more_eq.
            - destruct b; [|cbn in Hl; lia]. cbn. intros [= _ <-]. auto.
            - destruct (next_part b) as [[[p|] rest]|] eqn:E; [|discriminate|intros [= _ <-]; exact Hn].
              pose proof (next_part_shorter _ _ _ E). apply IH; [lia|].
              destruct (next_part_dot _ _ E) as [s' ->]. unfold next_part in E.
              destruct s' as [|d s']; [discriminate|].
              assert (Hn' : ~ In newline (d :: s')) by (intros H1; apply Hn; right; exact H1).
              destruct (ident_head d).
              + destruct (span ident_tail s') as [x y] eqn:Ex. apply span_spec in Ex as (-> & _ & _). injection E as _ <-.
                intros H1. apply Hn'. right. apply in_or_app. auto.
              + destruct (strip_prefix ($"{|") (d :: s')) as [m|] eqn:Em; [|discriminate].
                destruct (find_close m) as [[inner y]|] eqn:Ef; [|discriminate]. injection E as _ <-.
                apply strip_prefix_spec in Em. apply find_close_spec in Ef. rewrite Em, Ef in Hn'.
                intros H1. apply Hn'. do 3 (apply in_or_app; right). exact H1. }
          exact (G (length b) b _ _ _ (le_n _) Hnl Eb).
      - exfalso. apply (proj1 (Hw1 _ _ E1)). reflexivity. }
    destruct (ident_head c) eqn:Hc.
    + (* identifier or keyword *)
      assert (E1 : lex_match junk c (l ++ newline :: r) =
                   let '(t, rest) := span ident_tail l in
                   match keyword (c :: t) with Some k => (Some k, rest ++ newline :: r)
                   | None => symb_token (symb_more (symb_new (c :: t)) (rest ++ newline :: r)) end).
      { unfold lex_match. rewrite Hwh, Hc, span_line by reflexivity. destruct (span ident_tail l) as [t rest]. reflexivity. }
      assert (E2 : lex_match junk c l =
                   let '(t, rest) := span ident_tail l in
                   match keyword (c :: t) with Some k => (Some k, rest)
                   | None => symb_token (symb_more (symb_new (c :: t)) rest) end).
      { unfold lex_match. rewrite Hwh, Hc. reflexivity. }
      destruct (span ident_tail l) as [t rest] eqn:Et. apply span_spec in Et as (Et & _ & _).
      destruct (keyword (c :: t)) as [k|] eqn:Ek.
      * apply (Step k rest); auto.
        -- rewrite Et, app_length in Hl. lia.
        -- apply (Hnl t). exact Et.
        -- unfold keyword in Ek. destruct (str_eqb (c :: t) ($"def")), (str_eqb (c :: t) ($"thm")), (str_eqb (c :: t) ($"injective"));
             inversion Ek; reflexivity.
      * apply (Symb (c :: t) rest); eauto.
    + assert (S1 : forall p, ~ In newline p -> strip_prefix p (c :: l ++ newline :: r) = option_map (fun x => x ++ newline :: r) (strip_prefix p (c :: l))).
      { intros p Hp. apply (strip_prefix_line p (c :: l) r Hp). }
      assert (E1 : lex_match junk c (l ++ newline :: r) =
         match strip_prefix ($"{|") (c :: l) with
         | Some rest => symb_token (moustache (rest ++ newline :: r))
         | None =>
             match strip_prefix ($"(;") (c :: l) with
             | Some rest =>
                 let '(open, rest) := comment 1 (rest ++ newline :: r) in
                 (match open with 0 => None | S _ => Some (TComment open) end, rest)
             | None =>
                 match punct puncts (c :: l) with
                 | Some (t, rest) => (Some t, rest ++ newline :: r)
                 | None => (Some TError, skipn (junk (c :: l ++ newline :: r)) (l ++ newline :: r))
                 end
             end
         end).
      { unfold lex_match. rewrite Hwh, Hc. rewrite !S1 by (intros [H|[H|[]]]; discriminate).
        destruct (strip_prefix ($"{|") (c :: l)); [reflexivity|]. destruct (strip_prefix ($"(;") (c :: l)); [reflexivity|].
        cbn [option_map].
        pose proof (punct_line puncts (c :: l) r puncts_line) as Hp. cbn [app] in Hp. rewrite Hp.
        destruct (punct puncts (c :: l)) as [[t rest]|]; reflexivity. }
      assert (E2 : lex_match junk c l =
         match strip_prefix ($"{|") (c :: l) with
         | Some rest => symb_token (moustache rest)
         | None =>
             match strip_prefix ($"(;") (c :: l) with
             | Some rest =>
                 let '(open, rest) := comment 1 rest in
                 (match open with 0 => None | S _ => Some (TComment open) end, rest)
             | None =>
                 match punct puncts (c :: l) with
                 | Some (t, rest) => (Some t, rest)
                 | None => (Some TError, skipn (junk (c :: l)) l)
                 end
             end
         end).
      { unfold lex_match. rewrite Hwh, Hc. reflexivity. }
      destruct (strip_prefix ($"{|") (c :: l)) as [m|] eqn:Em.
      * (* moustache *)
        unfold moustache in E1. destruct (find_close (m ++ newline :: r)) as [[inner rest]|] eqn:Ef.
        -- assert (Hin : ~ In newline inner).
           { intros Hi. unfold symb_rest in E1. fold (symb_more (symb_new ($"{|" ++ inner ++ $"|}")) rest) in E1.
             destruct (symb_more (symb_new ($"{|" ++ inner ++ $"|}")) rest) as [[sy|] rest'] eqn:Es; cbn [symb_token] in E1.
             - destruct (Hw1 _ _ E1) as [_ Ho].
               refine (Ho sy eq_refl ($"{|" ++ inner ++ $"|}") _ _).
               + apply (symb_more_parts (length rest) _ _ _ _ (le_n _) Es). left. reflexivity.
               + apply in_or_app. right. apply in_or_app. left. exact Hi.
             - apply (proj1 (Hw1 _ _ E1)). reflexivity. }
           destruct (find_close_line m r inner rest Hin Ef) as (m' & -> & Em').
           unfold moustache in E2. rewrite Em' in E2.
           apply (Symb ($"{|" ++ inner ++ $"|}") m'); [|exact E1|exact E2].
           apply strip_prefix_spec in Em. apply find_close_spec in Em'. rewrite Em' in Em.
           change ($"{|" ++ inner ++ $"|}" ++ m') with ("{"%char :: "|"%char :: inner ++ $"|}" ++ m') in Em.
           injection Em as _ Em. exists (("|"%char :: inner) ++ $"|}"). rewrite <- app_assoc. exact Em.
        -- exfalso. apply (proj1 (Hw1 _ _ E1)). reflexivity.
      * destruct (strip_prefix ($"(;") (c :: l)) as [m|] eqn:Eo.
        -- (* comment *)
           apply strip_prefix_spec in Eo. change ($"(;" ++ m) with ("("%char :: ";"%char :: m) in Eo. injection Eo as -> ->.
           assert (Hnm : ~ In newline m) by (apply (Hnl [";"%char]); reflexivity). cbn [length] in Hl.
           rewrite (comment_line (length m) m 0 r (le_n _) Hnm) in E1.
           assert (L1 : lex junk ("("%char :: (";"%char :: m) ++ newline :: r) =
             let '(k, rest) := comment 1 m in match k with 0 => lex junk (rest ++ newline :: r) | S _ => lexo k r end).
           { rewrite lex_eq. cbn [lex1]. rewrite E1. destruct (comment 1 m) as [[|k] rest]; [reflexivity|].
             unfold lexo. destruct (comment (S k) r) as [[|o] rest'] eqn:Ec; [reflexivity|].
             rewrite (comment_open_end (length r) r (S k) o rest' (le_n _) Ec). reflexivity. }
           assert (L2 : lex junk ("("%char :: ";"%char :: m) =
             let '(k, rest) := comment 1 m in match k with 0 => lex junk rest | S _ => [TComment k] end).
           { rewrite lex_eq. cbn [lex1]. rewrite E2. destruct (comment 1 m) as [[|k] rest] eqn:Ec; [reflexivity|].
             rewrite (comment_open_end (length m) m 1 k rest (le_n _) Ec). reflexivity. }
           rewrite L1. rewrite L1 in Hw. rewrite L2.
           pose proof (comment_shorter (length m) m 1 (le_n _)) as Hs.
           pose proof (comment_newline (length m) m 1 (le_n _) Hnm) as Hnr.
           destruct (comment 1 m) as [[|k] rest]; cbn [snd] in Hs, Hnr.
           ++ apply IH; [lia|exact Hnr|exact Hw].
           ++ exists [], (S k). split; [|reflexivity]. right. exists k. auto.
        -- destruct (punct puncts (c :: l)) as [[t rest]|] eqn:Ep.
           ++ pose proof (punct_shorter _ _ _ _ puncts_nonempty Ep) as Hs. cbn [length] in Hs.
              assert (Hr : exists a, c :: l = a ++ rest).
              { clear -Ep. revert Ep. generalize puncts. induction l0 as [|[p t0] ps IHp]; cbn [punct]; [discriminate|].
                destruct (strip_prefix p (c :: l)) as [r0|] eqn:E; [|exact IHp]. intros [= _ <-]. exists p. apply strip_prefix_spec. exact E. }
              destruct Hr as [a Ha].
              apply (Step t rest); auto; try lia.
              ** intros Hi. apply Hn. rewrite Ha. apply in_or_app. auto.
              ** apply punct_tok in Ep. destruct t; try reflexivity. contradiction.
           ++ exfalso. apply (proj1 (Hw1 _ _ E1)). reflexivity.
Qed.

Lemma lexo_line k l r : ~ In newline l -> line_wise (lexo k (l ++ newline :: r)) ->
  match comment k l with
  | (0, rest) => exists ts k', ends_in (lex junk rest) ts k' /\ lexo k (l ++ newline :: r) = ts ++ lexo k' r
  | (S o, _) => lexo k (l ++ newline :: r) = lexo (S o) r
  end.
Proof.
  intros Hn Hw. destruct k as [|k].
  - assert (E : comment 0 l = (0, l)) by (destruct l; reflexivity). rewrite E.
    rewrite lexo_0 in *. apply (lex_line (length l)); auto.
  - pose proof (comment_line (length l) l k r (le_n _) Hn) as E.
    pose proof (comment_newline (length l) l (S k) (le_n _) Hn) as Hr.
    unfold lexo in Hw |- *. rewrite E in Hw |- *. clear E.
    destruct (comment (S k) l) as [[|o] rest]; [|reflexivity]. cbn [snd] in Hr.
    apply (lex_line (length rest)); auto.
Qed.

(** ** Running over the tokens of lines *)
Variable A : Type.
Variable scope : symb -> tctx A -> A.
Notation lrun := (lrun A scope).
Notation srun := (srun A scope).

Lemma lrun_buf toks : forall st ctx buf o, lrun st ctx buf o toks =
  let '(r, ctx', b) := lrun st ctx [] o toks in (r, ctx', b ++ buf).
Proof.
  induction toks as [|tok toks IH]; intros st ctx buf o; [reflexivity|].
  destruct (is_comment tok) eqn:Et.
  - destruct tok; try discriminate. cbn [ParseAuto.lrun]. apply IH.
  - rewrite !lrun_cons by exact Et. destruct (sstep A scope st ctx tok) as [st1 ctx1|c ctx1| |]; cbn [l_then]; try reflexivity.
    + apply IH.
    + rewrite IH. rewrite (IH _ _ [c]). destruct (lrun pstate_default ctx1 [] 0 toks) as [[r1 ctx2] b].
      rewrite <- app_assoc. reflexivity.
Qed.

Lemma lrun_no_comment toks : Forall (fun t => is_comment t = false) toks -> forall st ctx buf st' o ctx' buf',
  lrun st ctx buf 0 toks = (Ok (st', o), ctx', buf') -> o = 0.
Proof.
  intros H. induction H as [|tok toks Et H IH]; intros st ctx buf st' o ctx' buf'.
  - cbn. intros [= _ <- _ _]. reflexivity.
  - rewrite lrun_cons by exact Et. destruct (sstep A scope st ctx tok); cbn [l_then]; try discriminate; apply IH.
Qed.

Lemma lrun_ends ts0 ts k st ctx : ends_in ts0 ts k ->
  lrun st ctx [] 0 ts0 =
  match lrun st ctx [] 0 ts with
  | (Ok (st1, _), ctx1, buf1) => (Ok (st1, k), ctx1, buf1)
  | r => r
  end.
Proof.
  intros [(-> & -> & H)|(j & -> & -> & H)].
  - destruct (lrun st ctx [] 0 ts) as [[[[st1 o1]|e| |] ctx1] buf1] eqn:E; try reflexivity.
    rewrite (lrun_no_comment _ H _ _ _ _ _ _ _ E). reflexivity.
  - rewrite lrun_app. destruct (lrun st ctx [] 0 ts) as [[[[st1 o1]|e| |] ctx1] buf1]; reflexivity.
Qed.

(** *** The lazy parser *)
Notation lnext := (lazy_next scope junk).
Definition fin (st : pstate A) (o : nat) : option parse_error :=
  match ps_cmd st, o with CInit, 0 => None | _, _ => Some ExpectedInput end.

Lemma outcome_next p q l r : lnext p = lnext q -> outcome lnext q l r -> outcome lnext p l r.
Proof.
  intros E H. destruct H as [q H|q e H|q i q1 l r H H1]; rewrite <- E in H.
  - apply outcome_end. exact H.
  - apply outcome_err. exact H.
  - eapply outcome_ok; eassumption.
Qed.

Lemma outcome_buf lines o st ctx buf l r : outcome lnext (MkLazy lines o st ctx []) l r ->
  outcome lnext (MkLazy lines o st ctx buf) (buf ++ l) r.
Proof.
  intros H. induction buf as [|c buf IH]; [exact H|]. cbn [app]. eapply outcome_ok; [|exact IH]. reflexivity.
Qed.

Lemma outcome_fin o st ctx : outcome lnext (MkLazy [] o st ctx []) [] (fin st o).
Proof.
  unfold fin. destruct (ps_cmd st) eqn:E;
    try (apply outcome_err; unfold lazy_next; cbn [lz_buf lz_lines lz_open lz_state lz_ctx lazy_lines]; rewrite E; reflexivity).
  destruct o.
  - apply outcome_end. unfold lazy_next; cbn [lz_buf lz_lines lz_open lz_state lz_ctx lazy_lines]. rewrite E. reflexivity.
  - apply outcome_err. unfold lazy_next; cbn [lz_buf lz_lines lz_open lz_state lz_ctx lazy_lines]. rewrite E. reflexivity.
Qed.

Lemma lazy_line_open line lines k o rest st ctx l r : comment k line = (S o, rest) ->
  outcome lnext (MkLazy lines (S o) st ctx []) l r -> outcome lnext (MkLazy (line :: lines) k st ctx []) l r.
Proof.
  intros E. apply outcome_next. unfold lazy_next. cbn [lz_buf lz_lines lz_open lz_state lz_ctx lazy_lines]. rewrite E.
  reflexivity.
Qed.

Lemma lazy_line_ok line lines k rest st ctx st1 o1 ctx1 buf1 l r : ok_pstate A st -> comment k line = (0, rest) ->
  lrun st ctx [] 0 (lex junk rest) = (Ok (st1, o1), ctx1, buf1) ->
  outcome lnext (MkLazy lines o1 st1 ctx1 []) l r ->
  outcome lnext (MkLazy (line :: lines) k st ctx []) (rev buf1 ++ l) r.
Proof.
  intros Hok E E1 H.
  assert (En : lnext (MkLazy (line :: lines) k st ctx []) =
               match rev buf1 with
               | cmd :: buf => (Ok (Some cmd), MkLazy lines o1 st1 ctx1 buf)
               | [] => lnext (MkLazy lines o1 st1 ctx1 [])
               end).
  { unfold lazy_next. cbn [lz_buf lz_lines lz_open lz_state lz_ctx lazy_lines]. rewrite E.
    change (0 <? 0) with false. cbv iota. rewrite feed_line_run by exact Hok. rewrite E1. reflexivity. }
  destruct (rev buf1) as [|c buf].
  - eapply outcome_next; [exact En|exact H].
  - cbn [app]. eapply outcome_ok; [exact En|]. apply outcome_buf. exact H.
Qed.

Lemma lazy_line_err line lines k rest st ctx e ctx1 buf1 : ok_pstate A st -> comment k line = (0, rest) ->
  lrun st ctx [] 0 (lex junk rest) = (Err e, ctx1, buf1) ->
  outcome lnext (MkLazy (line :: lines) k st ctx []) [] (Some e).
Proof.
  intros Hok E E1. apply outcome_err. unfold lazy_next. cbn [lz_buf lz_lines lz_open lz_state lz_ctx lazy_lines]. rewrite E.
  change (0 <? 0) with false. cbv iota. rewrite feed_line_run by exact Hok. rewrite E1. reflexivity.
Qed.

Definition lazy_agrees (p : lazy A) (r : res parse_error (pstate A * nat) * tctx A * list (pcommand (pterm A))) : Prop :=
  match r with
  | (Ok (st', o'), _, buf) => outcome lnext p (rev buf) (fin st' o')
  | (Err e, _, buf) => exists l1 l2, rev buf = l1 ++ l2 /\ outcome lnext p l1 (Some e)
  | _ => True
  end.

Lemma lazy_split text lines : splits text lines -> forall k st ctx, ok_pstate A st -> line_wise (lexo k text) ->
  lazy_agrees (MkLazy lines k st ctx []) (lrun st ctx [] 0 (lexo k text)).
Proof.
  intros H. induction H as [|l Hn|l text lines Hn H IH]; intros k st ctx Hok Hw.
  - unfold lexo. rewrite comment_nil. destruct k as [|k].
    + rewrite lex_nil. cbn. apply outcome_fin.
    + cbn. apply outcome_fin.
  - unfold lexo in *. destruct (comment k l) as [[|o] rest] eqn:Ec.
    + destruct (lrun st ctx [] 0 (lex junk rest)) as [[[[st1 o1]|e| |] ctx1] buf1] eqn:E; cbn [lazy_agrees]; try exact I.
      * rewrite <- (app_nil_r (rev buf1)). eapply lazy_line_ok; try eassumption. apply outcome_fin.
      * exists [], (rev buf1). split; [reflexivity|]. eapply lazy_line_err; eassumption.
    + cbn. eapply lazy_line_open; [eassumption|]. apply outcome_fin.
  - pose proof (lexo_line k l text Hn Hw) as Hl. destruct (comment k l) as [[|o] rest] eqn:Ec.
    + destruct Hl as (ts & k' & He & El). rewrite El in *.
      assert (Hw' : line_wise (lexo k' text)) by (intros t Ht; apply Hw; apply in_or_app; right; exact Ht).
      pose proof (lrun_ends (lex junk rest) ts k' st ctx He) as E0.
      rewrite lrun_app. destruct (lrun st ctx [] 0 ts) as [[[[st1 o1]|e| |] ctx1] buf1] eqn:E; cbn [lazy_agrees]; try exact I.
      * assert (Hok1 : ok_pstate A st1) by (eapply lrun_ok; eassumption).
        assert (o1 = 0) as ->.
        { destruct He as [(_ & _ & Hf)|(j & _ & _ & Hf)]; eapply lrun_no_comment; eassumption. }
        rewrite lrun_buf. specialize (IH k' st1 ctx1 Hok1 Hw').
        destruct (lrun st1 ctx1 [] 0 (lexo k' text)) as [[[[st2 o2]|e| |] ctx2] buf2]; cbn [lazy_agrees] in *; try exact I.
        -- rewrite rev_app_distr. eapply lazy_line_ok; eassumption.
        -- destruct IH as (l1 & l2 & Eb & Ho). exists (rev buf1 ++ l1), l2. split.
           ++ rewrite rev_app_distr, Eb, app_assoc. reflexivity.
           ++ eapply lazy_line_ok; eassumption.
      * exists [], (rev buf1). split; [reflexivity|]. eapply lazy_line_err; eassumption.
    + rewrite Hl in *. specialize (IH (S o) st ctx Hok Hw).
      destruct (lrun st ctx [] 0 (lexo (S o) text)) as [[[[st2 o2]|e| |] ctx2] buf2]; cbn [lazy_agrees] in *; try exact I.
      * eapply lazy_line_open; eassumption.
      * destruct IH as (l1 & l2 & Eb & Ho). exists l1, l2. split; [exact Eb|]. eapply lazy_line_open; eassumption.
Qed.

(** *** The strict parser *)
Notation snext := (strict_next scope).

Lemma sstep_error st ctx tok e ctx' : sstep A scope st ctx tok = SErr A e ctx' -> e <> ExpectedInput.
Proof.
  unfold sstep. destruct (expects_term (ps_cmd st)).
  - destruct (tstep _ _ _ _ _) as [ | t stk | ]; [discriminate| |intros [= <- _]; discriminate].
    destruct (apply _ _ _ _) as [r b]. destruct r as [[]|e'| |]; cbn; try discriminate. intros [= <- _]. discriminate.
  - destruct (cparse _ _ _) as [r b]. destruct r as [[]|e'| |]; cbn; try discriminate. intros [= <- _]. discriminate.
Qed.

Lemma lrun_error toks : forall st ctx buf o e ctx' buf', lrun st ctx buf o toks = (Err e, ctx', buf') -> e <> ExpectedInput.
Proof.
  induction toks as [|tok toks IH]; intros st ctx buf o e ctx' buf'; [discriminate|].
  destruct (is_comment tok) eqn:Et.
  - destruct tok; try discriminate. cbn [ParseAuto.lrun]. apply IH.
  - rewrite lrun_cons by exact Et. destruct (sstep A scope st ctx tok) eqn:E; cbn [l_then]; try discriminate; try apply IH.
    intros [= <- _ _]. eapply sstep_error. exact E.
Qed.

(** only the last token may be an open comment *)
Definition comment_last (toks : list token) : Prop := forall a k b, toks = a ++ TComment k :: b -> b = [] /\ k <> 0.
Lemma comment_last_tail t toks : comment_last (t :: toks) -> comment_last toks.
Proof. intros H a k b ->. apply (H (t :: a) k b). reflexivity. Qed.

Lemma lrun_srun toks : comment_last toks -> forall st ctx o,
  match srun st ctx toks with
  | (RState _ st' ctx', rest) => exists x, lrun st ctx [] o toks = (Ok (st', x), ctx', [])
  | (RCmd _ c ctx', rest) => lrun st ctx [] o toks = lrun pstate_default ctx' [c] 0 rest /\ comment_last rest
  | (RErr _ e ctx', _) => lrun st ctx [] o toks = (Err e, ctx', [])
  | (RPanic _ ctx', _) => lrun st ctx [] o toks = (Panic, ctx', [])
  end.
Proof.
  induction toks as [|tok toks IH]; intros H st ctx o; [eexists; reflexivity|].
  destruct (is_comment tok) eqn:Et.
  - destruct tok as [ | | | | | | | | | | | | | | |s1|o1|]; try discriminate.
    destruct (H [] o1 toks eq_refl) as [-> H0]. destruct o1 as [|o1]; [congruence|]. cbn. eexists. reflexivity.
  - rewrite srun_cons, lrun_cons by exact Et.
    destruct (sstep A scope st ctx tok) as [st1 ctx1|c ctx1| |]; cbn [s_then l_then]; try reflexivity.
    + apply IH. eapply comment_last_tail. exact H.
    + split; [reflexivity|]. eapply comment_last_tail. exact H.
Qed.

Definition strict_agrees (p : strict A) (r : res parse_error (pstate A * nat) * tctx A * list (pcommand (pterm A))) : Prop :=
  match r with
  | (Ok (st', o'), _, buf) =>
      (outcome snext p (rev buf) None /\ fin st' o' = None) \/ outcome snext p (rev buf) (Some ExpectedInput)
  | (Err e, _, buf) => outcome snext p (rev buf) (Some e)
  | _ => False
  end.

Lemma strict_lrun n : forall toks ctx, length toks <= n -> comment_last toks ->
  strict_agrees (MkStrict toks ctx) (lrun pstate_default ctx [] 0 toks).
Proof.
  induction n as [|n IH]; intros toks ctx Hl Hc.
  - destruct toks; [|cbn in Hl; lia]. cbn. left. split; [apply outcome_end|]; reflexivity.
  - destruct toks as [|tok toks]; [cbn; left; split; [apply outcome_end|]; reflexivity|].
    pose proof (strict_next_run A scope (tok :: toks) ctx) as Hn.
    pose proof (lrun_srun (tok :: toks) Hc pstate_default ctx 0) as Hr.
    pose proof (srun_safe A scope (tok :: toks) pstate_default ctx (safe_default A ctx)) as Hs.
    pose proof (srun_shorter A scope (tok :: toks) pstate_default ctx ltac:(discriminate)) as Hlt.
    destruct (srun pstate_default ctx (tok :: toks)) as [[st1 ctx1|c ctx1|e ctx1|ctx1] rest]; cbn [strict_of fst snd] in *.
    + destruct Hr as [x ->]. right. apply outcome_err. rewrite Hn. reflexivity.
    + destruct Hr as [-> Hc1]. rewrite lrun_buf. specialize (IH rest ctx1 ltac:(lia) Hc1).
      destruct (lrun pstate_default ctx1 [] 0 rest) as [[[[st2 o2]|e| |] ctx2] buf2]; cbn [strict_agrees] in *; try contradiction.
      * destruct IH as [[IH Hf]|IH]; [left; split; [|exact Hf]|right]; rewrite rev_app_distr; eapply outcome_ok; eassumption.
      * rewrite rev_app_distr. eapply outcome_ok; eassumption.
    + rewrite Hr. cbn [strict_agrees rev]. apply outcome_err. rewrite Hn. reflexivity.
    + exfalso. apply (Hs ctx1). reflexivity.
Qed.

Lemma lex_comment_last_ s : comment_last (lex junk s).
Proof.
  intros a k b E. split; [eapply lex_comment_last; exact E|]. intros ->.
  apply (lex_no_comment0 junk s). rewrite E. apply in_or_app. right. left. reflexivity.
Qed.

Lemma main_lines text lines : splits text lines -> line_wise (lex junk text) ->
  forall l r, outcome snext (strict_new junk text) l r ->
    match r with
    | None => outcome lnext (lazy_new lines) l None
    | Some ExpectedInput => outcome lnext (lazy_new lines) l None \/ outcome lnext (lazy_new lines) l (Some ExpectedInput)
    | Some e => exists l1 l2, l = l1 ++ l2 /\ outcome lnext (lazy_new lines) l1 (Some e)
    end.
Proof.
  intros Hs Hw l r H.
  pose proof (strict_lrun (length (lex junk text)) (lex junk text) tctx_default (le_n _) (lex_comment_last_ text)) as H1.
  pose proof (lazy_split text lines Hs 0 pstate_default tctx_default (ok_default A)) as H2.
  rewrite lexo_0 in H2. specialize (H2 Hw).
  fold (lazy_new lines : lazy A) in H2. fold (strict_new junk text : strict A) in H1.
  destruct (lrun pstate_default tctx_default [] 0 (lex junk text)) as [[[[st1 o1]|e| |] ctx1] buf1] eqn:E;
    cbn [strict_agrees lazy_agrees] in H1, H2; try contradiction.
  - destruct H1 as [[H1 Hf]|H1]; destruct (outcome_det _ _ _ _ H1 _ _ H) as [-> ->].
    + rewrite Hf in H2. exact H2.
    + unfold fin in H2. destruct (ps_cmd st1); destruct o1; auto.
  - destruct (outcome_det _ _ _ _ H1 _ _ H) as [-> ->]. pose proof (lrun_error _ _ _ _ _ _ _ _ E) as He.
    destruct e; try exact H2. congruence.
Qed.

(** conversely, what the lazy parser returns without error is what the strict parser returns *)
Lemma main_lines_back text lines : splits text lines -> line_wise (lex junk text) ->
  forall l, outcome lnext (lazy_new lines) l None ->
    outcome snext (strict_new junk text) l None \/ outcome snext (strict_new junk text) l (Some ExpectedInput).
Proof.
  intros Hs Hw l H.
  pose proof (strict_lrun (length (lex junk text)) (lex junk text) tctx_default (le_n _) (lex_comment_last_ text)) as H1.
  pose proof (lazy_split text lines Hs 0 pstate_default tctx_default (ok_default A)) as H2.
  rewrite lexo_0 in H2. specialize (H2 Hw).
  fold (lazy_new lines : lazy A) in H2. fold (strict_new junk text : strict A) in H1.
  destruct (lrun pstate_default tctx_default [] 0 (lex junk text)) as [[[[st1 o1]|e| |] ctx1] buf1] eqn:E;
    cbn [strict_agrees lazy_agrees] in H1, H2; try contradiction.
  - destruct (outcome_det _ _ _ _ H2 _ _ H) as [-> _]. destruct H1 as [[H1 _]|H1]; auto.
  - destruct H2 as (l1 & l2 & _ & H2). destruct (outcome_det _ _ _ _ H2 _ _ H) as [_ Hf]. discriminate.
Qed.
End Lines.
