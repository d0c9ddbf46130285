(** * Proofs about dep2dot (C75) *)

From Verif Require Import Base ModelMake SpecMake MainMake ModelDot SpecDot.

Notation sep := ($" : ").
Lemma starts_with_spec p : forall s, starts_with p s = true <-> exists b, s = p ++ b.
Proof.
  induction p as [|a p IH]; intros s; cbn [starts_with]; [split; [exists s; reflexivity|auto]|].
  destruct s as [|b s]; [split; [discriminate|intros [? ?]; discriminate]|]. rewrite andb_true_iff, Ascii.eqb_eq, IH. split.
  - intros [-> [c ->]]. exists c. reflexivity.
  - intros [c H]. injection H as -> ->. eauto.
Qed.
Lemma contains_cons x a s : x <> [] -> contains x (a :: s) <-> starts_with x (a :: s) = true \/ contains x s.
Proof.
  intros Hx. rewrite starts_with_spec. split.
  - intros ([|a' u] & v & E); [left; exists v; exact E|]. injection E as -> ->. right. exists u, v. reflexivity.
  - intros [[b E]|(u & v & ->)]; [exists [], b; exact E|exists (a :: u), v; reflexivity].
Qed.
Lemma contains_short x s : length s < length x -> ~ contains x s.
Proof. intros H (u & v & ->). rewrite !app_length in H. lia. Qed.
Lemma starts_app p : forall s s', length p <= length s -> starts_with p (s ++ s') = starts_with p s.
Proof. induction p as [|a p IH]; intros s s' H; [reflexivity|]. destruct s as [|b s]; cbn in *; [lia|]. rewrite IH by lia. reflexivity. Qed.
Lemma find_colon_unfold s : find_colon s = if starts_with sep s then Some ([], skipn 3 s)
  else match s with [] => None | a :: s => option_map (fun p => (a :: fst p, snd p)) (find_colon s) end.
Proof. destruct s; reflexivity. Qed.
Lemma find_colon_none s : find_colon s = None <-> ~ contains sep s.
Proof.
  induction s as [|a s IH]; rewrite find_colon_unfold.
  - cbn. split; [intros _; apply contains_short; cbn; lia|reflexivity].
  - rewrite contains_cons by discriminate. destruct (starts_with sep (a :: s)) eqn:E; [split; [discriminate|intros H; exfalso; tauto]|].
    destruct (find_colon s); cbn; [split; [discriminate|]|split; [|reflexivity]].
    + intros H. exfalso. assert (X : ~ contains sep s) by tauto. apply IH in X. discriminate.
    + intros _ [H|H]; [discriminate|]. apply IH in H; [exact H|reflexivity].
Qed.
Lemma find_colon_first t r : ~ contains sep (t ++ $" :") -> find_colon (t ++ sep ++ r) = Some (t, r).
Proof.
  induction t as [|a t IH]; intros H; [reflexivity|].
  assert (X : (a :: t) ++ sep ++ r = ((a :: t) ++ $" :") ++ $" " ++ r) by (rewrite <- app_assoc; reflexivity).
  rewrite find_colon_unfold, X, starts_app by (rewrite app_length; cbn; lia).
  cbn [app] in H. rewrite contains_cons in H by discriminate. cbn [app]. destruct (starts_with sep (a :: t ++ $" :")) eqn:E; [exfalso; tauto|].
  rewrite <- app_assoc. change ($" :" ++ $" " ++ r) with (sep ++ r). rewrite IH by tauto. reflexivity.
Qed.
Lemma find_colon_some s : forall t r, find_colon s = Some (t, r) -> s = t ++ sep ++ r /\ ~ contains sep (t ++ $" :").
Proof.
  induction s as [|a s IH]; intros t r; rewrite find_colon_unfold; [discriminate|].
  destruct (starts_with sep (a :: s)) eqn:E.
  - apply starts_with_spec in E as [b E]. rewrite E. intros [= <- <-]. split; [reflexivity|apply contains_short; cbn; lia].
  - destruct (find_colon s) as [[t' r']|]; [|discriminate]. cbn. intros [= <- <-]. destruct (IH _ _ eq_refl) as [-> H]. split; [reflexivity|].
    cbn [app]. rewrite contains_cons by discriminate. intros [X|X]; [|tauto].
    assert (Y : a :: t' ++ sep ++ r' = (a :: t' ++ $" :") ++ $" " ++ r') by (cbn [app]; rewrite <- app_assoc; reflexivity).
    rewrite Y, starts_app in E by (cbn; rewrite app_length; cbn; lia). change (starts_with sep (a :: t' ++ $" :") = false) in E. pose proof (eq_trans (eq_sym X) E). discriminate.
Qed.
Lemma target_deps_spec l t r : target_deps l = Some (t, r) <-> rule_line l t r.
Proof.
  unfold target_deps, rule_line. split.
  - destruct (find_colon l) as [[t' r']|] eqn:E; [|discriminate]. destruct (find_colon r') as [x|] eqn:E'; [discriminate|]. intros [= <- <-].
    apply find_colon_some in E as [-> H]. apply find_colon_none in E'. auto.
  - intros (-> & H1 & H2). rewrite find_colon_first by exact H1. apply find_colon_none in H2. rewrite H2. reflexivity.
Qed.

(** ** Words *)
Lemma is_white_spec c : is_white c = true <-> white c.
Proof.
  unfold white. split.
  - destruct c as [[] [] [] [] [] [] [] []]; vm_compute; intros H; try discriminate; tauto.
  - intros H. cbn in H. repeat (destruct H as [<-|H]; [reflexivity|]). destruct H.
Qed.
Lemma not_white c : ~ white c <-> is_white c = false.
Proof. rewrite <- is_white_spec. destruct (is_white c); split; intros; congruence. Qed.
Lemma span {A} (f : A -> bool) (s : list A) : exists x y, s = x ++ y /\ Forall (fun c => f c = true) x /\ (y = [] \/ exists c y', y = c :: y' /\ f c = false).
Proof.
  induction s as [|a s (x & y & -> & H1 & H2)]; [exists [], []; auto|]. destruct (f a) eqn:E.
  - exists (a :: x), y. auto.
  - exists [], (a :: x ++ y). split; [reflexivity|]. split; [constructor|right; eauto].
Qed.
Lemma words_exist n : forall s, length s <= n -> exists ws, words_of s ws.
Proof.
  induction n as [|n IH]; intros s Hn; [destruct s; [|cbn in Hn; lia]; exists []; apply (words_none []); constructor|].
  destruct (span is_white s) as (b & s1 & -> & Hb & H1).
  assert (Hb' : Forall white b) by (eapply Forall_impl; [|exact Hb]; intros c; apply is_white_spec).
  destruct H1 as [->|(c & s2 & -> & Hc)]; [rewrite app_nil_r; exists []; constructor; exact Hb'|].
  destruct (span (fun c => negb (is_white c)) (c :: s2)) as (w & s3 & E & Hw & H3).
  assert (Hw' : forall c, In c w -> ~ white c) by (intros d Hd; apply not_white; rewrite Forall_forall in Hw; apply negb_true_iff, Hw, Hd).
  assert (Hne : w <> []). { intros ->. destruct H3 as [->|(d & s4 & -> & Hd)]; [discriminate|]. injection E as -> ->. rewrite Hc in Hd. discriminate. }
  rewrite E in *. destruct H3 as [->|(d & s4 & -> & Hd)].
  - rewrite app_nil_r. exists [w]. apply words_last; assumption.
  - destruct (IH s4) as [ws Hws]; [rewrite !app_length in Hn; cbn in Hn; lia|]. exists (w :: ws). apply words_cons; try assumption. apply is_white_spec. now apply negb_false_iff.
Qed.
Lemma white_pieces_nonempty s : white_pieces s <> [].
Proof. destruct s as [|a s]; cbn; [discriminate|]. destruct (is_white a); [discriminate|]. destruct (white_pieces s); discriminate. Qed.
Lemma split_blank b s : Forall white b -> split_whitespace (b ++ s) = split_whitespace s.
Proof. unfold split_whitespace. induction 1 as [|c b Hc _ IH]; [reflexivity|]. cbn [app white_pieces]. apply is_white_spec in Hc. rewrite Hc. exact IH. Qed.
Lemma pieces_word w c s : (forall c, In c w -> ~ white c) -> white c -> white_pieces (w ++ c :: s) = w :: white_pieces s.
Proof.
  intros Hw Hc. apply is_white_spec in Hc. induction w as [|a w IH]; cbn [app white_pieces]; [rewrite Hc; reflexivity|].
  assert (is_white a = false) as -> by (apply not_white, Hw; left; reflexivity). rewrite IH; [reflexivity|]. intros d Hd. apply Hw. right. exact Hd.
Qed.
Lemma pieces_word_last w : (forall c, In c w -> ~ white c) -> white_pieces w = [w].
Proof.
  intros Hw. induction w as [|a w IH]; [reflexivity|]. cbn [white_pieces].
  assert (is_white a = false) as -> by (apply not_white, Hw; left; reflexivity). rewrite IH; [reflexivity|]. intros d Hd. apply Hw. right. exact Hd.
Qed.
Lemma nonempty_true w : w <> [] -> negb (str_eqb w []) = true.
Proof. intros H. destruct (str_eqb w []) eqn:E; [apply str_eqb_eq in E; congruence|reflexivity]. Qed.
Lemma words_of_fun s ws : words_of s ws -> split_whitespace s = ws.
Proof.
  induction 1 as [b Hb|b w Hb Hne Hw|b w c s ws Hb Hne Hw Hc _ IH].
  - rewrite <- (app_nil_r b), split_blank by exact Hb. reflexivity.
  - rewrite split_blank by exact Hb. unfold split_whitespace. rewrite pieces_word_last by exact Hw. cbn [filter]. rewrite nonempty_true by exact Hne. reflexivity.
  - rewrite split_blank by exact Hb. unfold split_whitespace. rewrite pieces_word by assumption. cbn [filter]. rewrite nonempty_true by exact Hne. f_equal. exact IH.
Qed.
Lemma words_of_spec s ws : words_of s ws <-> split_whitespace s = ws.
Proof. split; [apply words_of_fun|]. intros <-. destruct (words_exist (length s) s (le_n _)) as [ws H]. rewrite (words_of_fun _ _ H). exact H. Qed.

(** ** Endings *)
Lemma repeat_snoc {A} (x : A) k : repeat x (S k) = repeat x k ++ [x].
Proof. induction k as [|k IH]; [reflexivity|]. cbn [repeat app] in *. rewrite <- IH. reflexivity. Qed.
Lemma endings_snoc k : List.concat (repeat ($".dko") (S k)) = List.concat (repeat ($".dko") k) ++ $".dko".
Proof. rewrite repeat_snoc, concat_app. cbn [List.concat]. rewrite app_nil_r. reflexivity. Qed.
Lemma no_ending s : ends_with ($".dko") s = false -> forall b, s <> b ++ $".dko".
Proof. intros H b E. assert (ends_with ($".dko") s = true) by (apply ends_with_spec; eauto). congruence. Qed.
Lemma trim_n_spec n : forall s, length s <= n -> trimmed s (trim_n n s).
Proof.
  induction n as [|n IH]; intros s Hn; cbn [trim_n].
  - destruct s; [|cbn in Hn; lia]. split; [exists 0; reflexivity|]. intros [|? b]; discriminate.
  - destruct (ends_with ($".dko") s) eqn:E.
    + apply ends_with_spec in E as [b ->]. rewrite app_length. change (length ($".dko")) with 4. replace (length b + 4 - 4) with (length b) by lia.
      rewrite firstn_app, firstn_all, Nat.sub_diag. cbn [firstn]. rewrite app_nil_r. rewrite app_length in Hn. cbn in Hn.
      destruct (IH b ltac:(lia)) as [[k Hk] H]. split; [|exact H]. exists (S k). rewrite endings_snoc, app_assoc, <- Hk. reflexivity.
    + split; [exists 0; cbn; rewrite app_nil_r; reflexivity|]. apply no_ending. exact E.
Qed.
Lemma trimmed_fun s t t' : trimmed s t -> trimmed s t' -> t = t'.
Proof.
  intros [[k ->] H] [[k' E] H']. revert k' E. induction k as [|k IH]; intros [|k'] E.
  - cbn in E. rewrite !app_nil_r in E. exact E.
  - exfalso. rewrite endings_snoc, app_assoc in E. cbn [repeat List.concat] in E. rewrite app_nil_r in E. exact (H _ E).
  - exfalso. rewrite endings_snoc, app_assoc in E. cbn [repeat List.concat] in E. rewrite app_nil_r in E. exact (H' _ (eq_sym E)).
  - rewrite !endings_snoc, !app_assoc in E. apply app_inv_tail in E. exact (IH k' E).
Qed.
Lemma trim_spec s t : trimmed s t <-> trim s = t.
Proof. split; [intros H; eapply trimmed_fun; [apply trim_n_spec; reflexivity|exact H]|]. intros <-. apply trim_n_spec. reflexivity. Qed.

(** ** Edges *)
Lemma map_trim ws ds : Forall2 trimmed ws ds <-> map trim ws = ds.
Proof.
  split.
  - induction 1 as [|w d ws ds H _ IH]; [reflexivity|]. apply trim_spec in H. cbn. congruence.
  - intros <-. induction ws; constructor; [apply trim_spec; reflexivity|assumption].
Qed.
Lemma edges_of_spec l es : edges_of l es <-> line_edges l = es.
Proof.
  unfold line_edges. split.
  - intros H. destruct H as [l t r w ws t' ds H1 H2 H3 H4|l t r H1 H2|l H].
    + apply target_deps_spec in H1. rewrite H1. apply words_of_spec in H2. rewrite H2. apply trim_spec in H3. apply map_trim in H4. subst. cbn [skipn]. rewrite map_map. reflexivity.
    + apply target_deps_spec in H1. rewrite H1. apply words_of_spec in H2. rewrite H2. reflexivity.
    + destruct (target_deps l) as [[t r]|] eqn:E; [|reflexivity]. apply target_deps_spec in E. destruct (H _ _ E).
  - intros <-. destruct (target_deps l) as [[t r]|] eqn:E.
    + apply target_deps_spec in E. destruct (split_whitespace r) as [|w ws] eqn:Ew; apply words_of_spec in Ew; cbn [skipn map]; [eapply edges_empty; eassumption|].
      rewrite <- (map_map trim (pair (trim t))). eapply edges_rule; [exact E|exact Ew|apply trim_spec; reflexivity|apply map_trim; reflexivity].
    + apply edges_other. intros t r H. apply target_deps_spec in H. congruence.
Qed.
Lemma flat_map_concat_map {A B C} (f : B -> list C) (g : A -> list B) l : flat_map (fun x => flat_map f (g x)) l = flat_map f (List.concat (map g l)).
Proof. induction l as [|a l IH]; [reflexivity|]. cbn [flat_map map List.concat]. rewrite flat_map_app, IH. reflexivity. Qed.
Lemma edges_map ls ess : Forall2 edges_of ls ess <-> map line_edges ls = ess.
Proof.
  split.
  - induction 1 as [|l es ls ess H _ IH]; [reflexivity|]. apply edges_of_spec in H. cbn. congruence.
  - intros <-. induction ls; constructor; [apply edges_of_spec; reflexivity|assumption].
Qed.
Theorem main_dot text ls ess : lines_of text ls -> Forall2 edges_of ls ess -> dep2dot text = printed (List.concat ess).
Proof. intros H1 H2. apply lines_of_text in H1. apply edges_map in H2. subst. unfold dep2dot, printed. rewrite flat_map_concat_map. reflexivity. Qed.
Theorem main_edges l : exists! es, edges_of l es.
Proof. exists (line_edges l). split; [apply edges_of_spec; reflexivity|]. intros es H. now apply edges_of_spec. Qed.

Lemma flat_map_concat {A B} (f : A -> list B) l : flat_map f l = List.concat (map f l).
Proof. induction l as [|a l IH]; [reflexivity|]. cbn. rewrite IH. reflexivity. Qed.

(** ** Graphs *)
Definition idb (c : ascii) : bool :=
  let n := nat_of_ascii c in ((65 <=? n) && (n <=? 90)) || ((97 <=? n) && (n <=? 122)) || (n =? 95) || (128 <=? n) || ((48 <=? n) && (n <=? 57)).
Lemma idb_spec c : letter c \/ digit c -> idb c = true.
Proof.
  unfold letter, digit, between, idb. cbv zeta. rewrite !orb_true_iff, !andb_true_iff, !Nat.leb_le, Nat.eqb_eq.
  intros [[H|[H|[->|H]]]|H]; [tauto|tauto| |tauto|tauto]. left. left. right. reflexivity.
Qed.
Lemma white_not_id c : is_white c = true -> idb c = false.
Proof. destruct c as [[] [] [] [] [] [] [] []]; vm_compute; congruence. Qed.
Lemma id_not_white c : idb c = true -> is_white c = false.
Proof. destruct (is_white c) eqn:E; [|reflexivity]. apply white_not_id in E. congruence. Qed.
Definition stops {A} (f : A -> bool) (r : list A) : Prop := match r with [] => True | c :: _ => f c = false end.
Lemma cut {A} (f : A -> bool) x : forall x' r r', Forall (fun c => f c = true) x -> Forall (fun c => f c = true) x' -> stops f r -> stops f r' ->
  x ++ r = x' ++ r' -> x = x' /\ r = r'.
Proof.
  induction x as [|a x IH]; intros [|a' x'] r r' H H' Hr Hr' E.
  - auto.
  - exfalso. cbn [app] in E. subst r. cbn in Hr. inversion H'. congruence.
  - exfalso. cbn [app] in E. subst r'. cbn in Hr'. inversion H. congruence.
  - injection E as <- E. inversion H; inversion H'; subst. destruct (IH x' r r') as [-> ->]; auto.
Qed.
Lemma blank_white b : blank b -> Forall (fun c => is_white c = true) b.
Proof. intros H. eapply Forall_impl; [|exact H]. intros c. apply is_white_spec. Qed.
Lemma name_id x : dot_name x -> Forall (fun c => idb c = true) x /\ exists c x', x = c :: x'.
Proof.
  intros [(c & x' & -> & Hc & H) _]. split; [|eauto]. constructor; [apply idb_spec; auto|]. apply Forall_forall. intros d Hd. apply idb_spec. apply H, Hd.
Qed.
Lemma name_stops x r : dot_name x -> stops is_white (x ++ r).
Proof. intros H. apply name_id in H as (H & c & x' & ->). inversion H; subst. cbn. apply id_not_white. assumption. Qed.
Lemma blank_stops b r : blank b -> stops idb r -> stops idb (b ++ r).
Proof. intros H Hr. destruct b as [|c b]; [exact Hr|]. inversion H; subst. cbn. apply white_not_id, is_white_spec. assumption. Qed.
Lemma cut_blank b b' r r' : blank b -> blank b' -> stops is_white r -> stops is_white r' -> b ++ r = b' ++ r' -> b = b' /\ r = r'.
Proof. intros H H'. apply cut; apply blank_white; assumption. Qed.
Lemma cut_name x x' r r' : dot_name x -> dot_name x' -> stops idb r -> stops idb r' -> x ++ r = x' ++ r' -> x = x' /\ r = r'.
Proof. intros H H'. apply cut; apply name_id; assumption. Qed.
Lemma dot_edges_fun text es : dot_edges text es -> forall es', dot_edges text es' -> es = es'.
Proof.
  induction 1 as [b b' Hb Hb'|b1 x b2 b3 y b4 s es H1 Hx H2 H3 Hy H4 _ IH]; intros es' H'.
  - inversion H' as [c c' Hc Hc' E|c1 x' c2 c3 y' c4 s' es2 K1 Kx K2 K3 Ky K4 _ E]; subst; [reflexivity|exfalso].
    apply cut_blank in E; [|assumption|assumption|apply name_stops; assumption|reflexivity]. destruct E as [_ E].
    apply name_id in Kx as (Kx & c & x2 & ->). injection E as E _. inversion Kx. subst. discriminate.
  - inversion H' as [c c' Hc Hc' E|c1 x' c2 c3 y' c4 s' es2 K1 Kx K2 K3 Ky K4 K E]; subst.
    + exfalso. apply cut_blank in E; [|assumption|assumption|reflexivity|apply name_stops; assumption]. destruct E as [_ E].
      apply name_id in Hx as (Hx & d & x2 & ->). injection E as E _. inversion Hx. subst. discriminate.
    + apply cut_blank in E; [|assumption|assumption|apply name_stops; assumption|apply name_stops; assumption]. destruct E as [_ E].
      apply cut_name in E; [|assumption|assumption|apply blank_stops; [assumption|reflexivity]|apply blank_stops; [assumption|reflexivity]]. destruct E as [-> E].
      apply cut_blank in E; [|assumption|assumption|reflexivity|reflexivity]. destruct E as [_ E]. injection E as E.
      apply cut_blank in E; [|assumption|assumption|apply name_stops; assumption|apply name_stops; assumption]. destruct E as [_ E].
      apply cut_name in E; [|assumption|assumption|apply blank_stops; [assumption|reflexivity]|apply blank_stops; [assumption|reflexivity]]. destruct E as [-> E].
      apply cut_blank in E; [|assumption|assumption|reflexivity|reflexivity]. destruct E as [_ E]. injection E as E. subst s'. f_equal. apply IH. exact K.
Qed.
Lemma dot_graph_fun text es es' : dot_graph text es -> dot_graph text es' -> es = es'.
Proof.
  intros (b1 & b2 & x & b3 & s & -> & H1 & _ & H2 & Hx & H3 & H) (c1 & c2 & y & c3 & s' & E & K1 & _ & K2 & Hy & K3 & K).
  apply cut_blank in E; [|assumption|assumption|reflexivity|reflexivity]. destruct E as [_ E]. injection E as E.
  apply cut_blank in E; [|assumption|assumption|apply name_stops; assumption|apply name_stops; assumption]. destruct E as [_ E].
  apply cut_name in E; [|assumption|assumption|apply blank_stops; [assumption|reflexivity]|apply blank_stops; [assumption|reflexivity]]. destruct E as [_ E].
  apply cut_blank in E; [|assumption|assumption|reflexivity|reflexivity]. destruct E as [_ E]. injection E as E. subst s'. eapply dot_edges_fun; eassumption.
Qed.
Lemma blank_nil : blank [].
Proof. constructor. Qed.
Lemma blank_lf : blank [LF].
Proof. constructor; [right; left; reflexivity|constructor]. Qed.
Lemma blank_sp : blank ($" ").
Proof. constructor; [cbn; tauto|constructor]. Qed.
Lemma printed_edges es : Forall (fun e => dot_name (fst e) /\ dot_name (snd e)) es ->
  dot_edges ([LF] ++ flat_map (fun e => fst e ++ $" -> " ++ snd e ++ $";" ++ [LF]) es ++ $"}" ++ [LF]) es.
Proof.
  induction 1 as [|[x y] es [Hx Hy] _ IH].
  - exact (dot_end [LF] [LF] blank_lf blank_lf).
  - cbn [flat_map fst snd]. pose proof (dot_edge [LF] x ($" ") ($" ") y [] _ es blank_lf Hx blank_sp blank_sp Hy blank_nil IH) as H.
    match goal with |- dot_edges ?a _ => match type of H with dot_edges ?b _ => replace a with b; [exact H|] end end.
    repeat (rewrite <- app_assoc; cbn [app]). reflexivity.
Qed.
Theorem main_dot_graph es es' : Forall (fun e => dot_name (fst e) /\ dot_name (snd e)) es -> dot_graph (printed es) es' <-> es' = es.
Proof.
  intros H.
  assert (X : dot_graph (printed es) es).
  { exists [], ($" "), ($"G"), ($" "), ([LF] ++ flat_map (fun e => fst e ++ $" -> " ++ snd e ++ $";" ++ [LF]) es ++ $"}" ++ [LF]).
    split; [reflexivity|]. split; [exact blank_nil|]. split; [discriminate|]. split; [exact blank_sp|]. split; [|split; [exact blank_sp|apply printed_edges; exact H]].
    split; [|vm_compute; intuition discriminate]. exists "G"%char, []. split; [reflexivity|]. split; [left; vm_compute; lia|]. intros c []. }
  split; [|intros ->; exact X]. intros X'. eapply dot_graph_fun; eassumption.
Qed.

(** ** Makefiles of dkdep *)
Lemma contains_word w s : (forall c, In c w -> ~ white c) -> contains sep (w ++ s) -> contains sep s.
Proof.
  induction w as [|a w IH]; intros Hw H; [exact H|]. cbn [app] in H. rewrite contains_cons in H by discriminate. destruct H as [H|H].
  - apply starts_with_spec in H as [b H]. injection H as -> _. exfalso. apply (Hw " "%char); [left; reflexivity|cbn; tauto].
  - apply IH; [|exact H]. intros c Hc. apply Hw. right. exact Hc.
Qed.
Lemma word_ext w e : (forall c, In c w -> ~ white c) -> forallb (fun c => negb (is_white c)) e = true -> forall c, In c (w ++ e) -> ~ white c.
Proof. intros Hw He c Hc. apply in_app_iff in Hc as [Hc|Hc]; [exact (Hw c Hc)|]. rewrite forallb_forall in He. apply not_white, negb_true_iff, He, Hc. Qed.
Lemma deps_no_colon ds : Forall module_name ds -> ~ contains sep (flat_map (fun d => $" " ++ d ++ $".dko") ds).
Proof.
  induction 1 as [|d ds [Hd _] _ IH]; [apply contains_short; cbn; lia|]. cbn [flat_map]. intros H.
  rewrite <- !app_assoc in H. change (contains sep (" "%char :: d ++ $".dko" ++ flat_map (fun d => $" " ++ d ++ $".dko") ds)) in H. apply contains_cons in H; [|discriminate]. destruct H as [H|H].
  - apply starts_with_spec in H as [b H]. injection H as H. destruct d as [|a [|a' d]]; [discriminate| |].
    + injection H as _ H. discriminate.
    + injection H as _ -> H. apply (Hd " "%char); [right; left; reflexivity|cbn; tauto].
  - apply IH. rewrite app_assoc in H. apply contains_word in H; [exact H|]. apply word_ext; [exact Hd|reflexivity].
Qed.
Lemma make_rule_line m ds : module_name m -> Forall module_name ds ->
  rule_line (make_line m ds) (m ++ $".dko") (m ++ $".dk" ++ flat_map (fun d => $" " ++ d ++ $".dko") ds).
Proof.
  intros [Hm _] Hd. split; [unfold make_line; rewrite <- !app_assoc; reflexivity|]. split.
  - intros H. apply contains_word in H; [|apply word_ext; [exact Hm|reflexivity]]. revert H. apply contains_short. cbn. lia.
  - intros H. rewrite app_assoc in H. apply contains_word in H; [|apply word_ext; [exact Hm|reflexivity]]. exact (deps_no_colon ds Hd H).
Qed.
Lemma app_nonempty {A} (a b : list A) : b <> [] -> a ++ b <> [].
Proof. intros H E. apply app_eq_nil in E as [_ E]. exact (H E). Qed.
Lemma words_line w ds : w <> [] -> (forall c, In c w -> ~ white c) -> Forall module_name ds ->
  words_of (w ++ flat_map (fun d => $" " ++ d ++ $".dko") ds) (w :: map (fun d => d ++ $".dko") ds).
Proof.
  intros Hw Hc H. revert w Hw Hc. induction H as [|d ds [Hd _] _ IH]; intros w Hw Hc; cbn [flat_map map].
  - rewrite app_nil_r. apply (words_last []); [constructor|exact Hw|exact Hc].
  - rewrite <- !app_assoc. cbn [app]. apply (words_cons [] w " "%char); [constructor|exact Hw|exact Hc|cbn; tauto|].
    change ("." :: "d" :: "k" :: "o" :: flat_map (fun d => $" " ++ d ++ $".dko") ds)%char with ($".dko" ++ flat_map (fun d => $" " ++ d ++ $".dko") ds).
    rewrite app_assoc. apply IH; [apply app_nonempty; discriminate|apply word_ext; [exact Hd|reflexivity]].
Qed.
Lemma trimmed_dko d : module_name d -> trimmed (d ++ $".dko") d.
Proof. intros [_ H]. split; [exists 1; reflexivity|exact H]. Qed.
Lemma make_line_edges m ds : module_name m -> Forall module_name ds -> edges_of (make_line m ds) (map (pair m) ds).
Proof.
  intros Hm Hd. apply (edges_rule _ _ _ (m ++ $".dk") (map (fun d => d ++ $".dko") ds) m ds (make_rule_line m ds Hm Hd)).
  - rewrite app_assoc. apply words_line; [apply app_nonempty; discriminate|apply word_ext; [apply Hm|reflexivity]|exact Hd].
  - apply trimmed_dko. exact Hm.
  - induction Hd; constructor; [apply trimmed_dko; assumption|assumption].
Qed.
Lemma make_line_chars m ds c : module_name m -> Forall module_name ds -> In c (make_line m ds) -> c <> LF /\ c <> CR.
Proof.
  intros [Hm _] Hd. assert (N : forall w, (forall c, In c w -> ~ white c) -> In c w -> c <> LF /\ c <> CR).
  { intros w Hw Hc. specialize (Hw c Hc). split; intros ->; apply Hw; cbn; tauto. }
  unfold make_line. rewrite !in_app_iff. intros [H|[H|[H|[H|H]]]]; [exact (N m Hm H)| |exact (N m Hm H)| |].
  - cbn in H. repeat (destruct H as [<-|H]; [split; discriminate|]). destruct H.
  - cbn in H. repeat (destruct H as [<-|H]; [split; discriminate|]). destruct H.
  - apply in_flat_map in H as (d & Hin & H). rewrite Forall_forall in Hd. destruct (Hd d Hin) as [Hd' _]. rewrite !in_app_iff in H. destruct H as [H|[H|H]].
    + destruct H as [<-|[]]. split; discriminate.
    + exact (N d Hd' H).
    + cbn in H. repeat (destruct H as [<-|H]; [split; discriminate|]). destruct H.
Qed.
Lemma make_lines rules : good_rules rules -> lines_of (make_text rules) (map (fun r => make_line (fst r) (snd r)) rules).
Proof.
  induction 1 as [|[m ds] rules [Hm Hd] _ IH]; [constructor|]. cbn [make_text flat_map map fst snd] in *. rewrite <- app_assoc. cbn [app]. apply lines_lf; [| |exact IH].
  - intros H. destruct (make_line_chars m ds LF Hm Hd H) as [H1 _]. apply H1. reflexivity.
  - intros l' E. assert (H : In CR (make_line m ds)) by (rewrite E; apply in_app_iff; right; left; reflexivity).
    destruct (make_line_chars m ds CR Hm Hd H) as [_ H1]. apply H1. reflexivity.
Qed.
Theorem main_make_dot rules : good_rules rules -> dep2dot (make_text rules) = printed (make_edges rules).
Proof.
  intros H. rewrite (main_dot _ _ (map (fun r => map (pair (fst r)) (snd r)) rules) (make_lines _ H)).
  - unfold make_edges. rewrite flat_map_concat. reflexivity.
  - induction H as [|r rules [Hm Hd] _ IH]; constructor; [apply make_line_edges; assumption|exact IH].
Qed.
Lemma make_words m ds : module_name m -> Forall module_name ds -> words (make_line m ds) = (m ++ $".dk") :: map (fun d => d ++ $".dk") ds.
Proof.
  intros Hm Hd.
  assert (NS : forall w e, module_name w -> forallb (fun c => negb (is_white c)) e = true -> ~ In " "%char (w ++ e)).
  { intros w e [Hw _] He H. apply (word_ext w e Hw He " "%char H). cbn. tauto. }
  assert (P : forall w, ~ In " "%char w -> pieces " " (w ++ flat_map (fun d => $" " ++ d ++ $".dko") ds) (w :: map (fun d => d ++ $".dko") ds)).
  { clear Hm. induction Hd as [|d ds Hd _ IH]; intros w Hw; cbn [flat_map map].
    - rewrite app_nil_r. constructor. exact Hw.
    - rewrite <- !app_assoc. cbn [app]. apply pieces_cons; [exact Hw|].
      change ("." :: "d" :: "k" :: "o" :: flat_map (fun d => $" " ++ d ++ $".dko") ds)%char with ($".dko" ++ flat_map (fun d => $" " ++ d ++ $".dko") ds).
      rewrite app_assoc. apply IH. apply NS; [exact Hd|reflexivity]. }
  assert (Q : pieces " " (make_line m ds) ((m ++ $".dko") :: $":" :: (m ++ $".dk") :: map (fun d => d ++ $".dko") ds)).
  { unfold make_line. replace (m ++ $".dko : " ++ m ++ $".dk" ++ flat_map (fun d => $" " ++ d ++ $".dko") ds)
      with ((m ++ $".dko") ++ " "%char :: $":" ++ " "%char :: (m ++ $".dk") ++ flat_map (fun d => $" " ++ d ++ $".dko") ds) by (rewrite <- !app_assoc; reflexivity).
    apply pieces_cons; [apply NS; [exact Hm|reflexivity]|]. apply pieces_cons; [cbn; intuition discriminate|]. apply P. apply NS; [exact Hm|reflexivity]. }
  apply pieces_split in Q. unfold words. rewrite Q. cbn [tl].
  change (map dk (filter keep ($":" :: (m ++ $".dk") :: map (fun d => d ++ $".dko") ds)) = (m ++ $".dk") :: map (fun d => d ++ $".dk") ds).
  assert (K : forall w e, 2 <= length e -> keep (w ++ e) = true).
  { intros w e He. unfold keep. destruct (str_eqb (w ++ e) []) eqn:E1; [apply str_eqb_eq in E1; apply (f_equal (@length _)) in E1; rewrite app_length in E1; cbn in E1; lia|].
    destruct (str_eqb (w ++ e) ($":")) eqn:E2; [apply str_eqb_eq in E2; apply (f_equal (@length _)) in E2; rewrite app_length in E2; cbn in E2; lia|]. reflexivity. }
  change (keep ($":")) with false. cbn [filter]. change (keep ($":")) with false. cbv iota. rewrite K by (cbn; lia). cbn [map]. f_equal.
  - unfold dk. destruct (ends_with ($".dko") (m ++ $".dk")) eqn:E; [|reflexivity]. apply ends_with_spec in E as [b E].
    apply (f_equal (@rev _)) in E. rewrite !rev_app_distr in E. discriminate.
  - clear - K. induction ds as [|d ds IH]; [reflexivity|]. cbn [map filter]. rewrite K by (cbn; lia). cbn [map]. f_equal; [|exact IH].
    unfold dk. assert (ends_with ($".dko") (d ++ $".dko") = true) as -> by (apply ends_with_spec; eauto). rewrite removelast_app by discriminate. reflexivity.
Qed.
Theorem main_make_depends rules x y : good_rules rules -> depends (make_text rules) (x ++ $".dk") (y ++ $".dk") <-> In (x, y) (make_edges rules).
Proof.
  intros H.
  assert (F : files (make_text rules) = map (fun r => (fst r ++ $".dk") :: map (fun d => d ++ $".dk") (snd r)) rules).
  { unfold files. rewrite (lines_of_text _ _ (make_lines _ H)). induction H as [|[m ds] rules [Hm Hd] _ IH]; [reflexivity|]. cbn [map filter fst snd].
    destruct (str_eqb (make_line m ds) []) eqn:E.
    - apply str_eqb_eq in E. unfold make_line in E. apply app_eq_nil in E as [_ E]. discriminate.
    - cbn [negb map]. rewrite (make_words m ds Hm Hd), IH. reflexivity. }
  unfold depends, make_edges. setoid_rewrite entry_files. rewrite F. split.
  - intros (DS & H1 & H2). apply in_map_iff in H1 as ([m ds] & E & Hin). cbn [fst snd] in E. injection E as E <-. apply app_inv_tail in E as ->.
    apply in_map_iff in H2 as (y' & E & Hy). apply app_inv_tail in E as ->. apply in_flat_map. exists (x, ds). split; [exact Hin|]. apply in_map. exact Hy.
  - intros H1. apply in_flat_map in H1 as ([m ds] & Hin & H1). apply in_map_iff in H1 as (y' & E & Hy). cbn [fst snd] in *. injection E as -> ->.
    exists (map (fun d => d ++ $".dk") ds). split; [apply in_map_iff; exists (x, ds); split; [reflexivity|exact Hin]|]. apply in_map_iff. eauto.
Qed.
Theorem main_directories : exists rules, good_rules rules /\ forall es, ~ dot_graph (dep2dot (make_text rules)) es.
Proof.
  exists [($"d/x", [$"y"])]. split.
  - constructor; [|constructor]. split; [split|constructor; [split|constructor]]; cbn [fst snd].
    + intros c Hc. apply not_white. cbn in Hc. repeat (destruct Hc as [<-|Hc]; [reflexivity|]). destruct Hc.
    + intros b E. apply (f_equal (@length _)) in E. rewrite app_length in E. cbn in E. lia.
    + intros c Hc. apply not_white. cbn in Hc. repeat (destruct Hc as [<-|Hc]; [reflexivity|]). destruct Hc.
    + intros b E. apply (f_equal (@length _)) in E. rewrite app_length in E. cbn in E. lia.
  - intros es (b1 & b2 & x & b3 & s & E & H1 & _ & H2 & Hx & H3 & H).
    change (dep2dot (make_text [($"d/x", [$"y"])])) with ([] ++ $"digraph" ++ $" " ++ $"G" ++ $" " ++ $"{" ++ [LF] ++ $"d/x -> y;" ++ [LF] ++ $"}" ++ [LF]) in E.
    assert (G : dot_name ($"G")). { split; [|vm_compute; intuition discriminate]. exists "G"%char, []. split; [reflexivity|]. split; [left; vm_compute; lia|]. intros c []. }
    apply cut_blank in E; [|exact blank_nil|assumption|reflexivity|reflexivity]. destruct E as [_ E]. injection E as E.
    apply (cut_blank ($" ") b2) in E; [|exact blank_sp|assumption|reflexivity|apply name_stops; assumption]. destruct E as [_ E].
    apply (cut_name ($"G") x) in E; [|exact G|assumption|reflexivity|apply blank_stops; [assumption|reflexivity]]. destruct E as [_ E].
    apply (cut_blank ($" ") b3) in E; [|exact blank_sp|assumption|reflexivity|reflexivity]. destruct E as [_ E]. injection E as E. subst s.
    inversion H as [c c' Hc Hc' E|c1 x' c2 c3 y' c4 s' es2 K1 Kx K2 K3 Ky K4 K E].
    + apply (cut_blank c [LF]) in E; [|assumption|exact blank_lf|reflexivity|reflexivity]. destruct E as [_ E]. discriminate.
    + apply (cut_blank c1 [LF]) in E; [|assumption|exact blank_lf|apply name_stops; assumption|reflexivity]. destruct E as [_ E].
      apply (cut_name x' ($"d") _ ($"/x -> y;" ++ [LF] ++ $"}" ++ [LF])) in E; [|assumption| |apply blank_stops; [assumption|reflexivity]|reflexivity].
      * destruct E as [_ E]. apply (cut_blank c2 []) in E; [|assumption|exact blank_nil|reflexivity|reflexivity]. destruct E as [_ E]. discriminate.
      * split; [|vm_compute; intuition discriminate]. exists "d"%char, []. split; [reflexivity|]. split; [right; left; vm_compute; lia|]. intros e [].
Qed.
