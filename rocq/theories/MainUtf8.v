(** * The lexer cuts strings at boundaries of characters only (C60) *)

From Verif Require Import Base ModelSyntax ModelLex ModelUtf8 SpecUtf8 ParseLex.

(** ** Characters *)
Lemma starts_cont c : cont_byte c -> starts_char c = false.
Proof.
  unfold cont_byte, byte_in, starts_char. intros [H1 H2]. apply Bool.orb_false_iff. split; [apply Nat.ltb_ge|apply Nat.leb_gt]; lia.
Qed.
Lemma starts_low c : nat_of_ascii c < 128 -> starts_char c = true.
Proof. intros H. unfold starts_char. apply Nat.ltb_lt in H. rewrite H. reflexivity. Qed.
Lemma starts_high c : 192 <= nat_of_ascii c -> starts_char c = true.
Proof. intros H. unfold starts_char. apply Nat.leb_le in H. rewrite H. apply Bool.orb_true_r. Qed.

Lemma char_len_1 c : nat_of_ascii c < 128 -> char_len c = 1.
Proof. intros H. unfold char_len. apply Nat.ltb_lt in H. rewrite H. reflexivity. Qed.
Lemma char_len_2 c : 128 <= nat_of_ascii c < 224 -> char_len c = 2.
Proof.
  intros [H1 H2]. unfold char_len. apply Nat.ltb_ge in H1. apply Nat.ltb_lt in H2. rewrite H1, H2. reflexivity.
Qed.
Lemma char_len_3 c : 224 <= nat_of_ascii c < 240 -> char_len c = 3.
Proof.
  intros [H1 H2]. unfold char_len. assert (H0 : 128 <= nat_of_ascii c) by lia.
  apply Nat.ltb_ge in H0, H1. apply Nat.ltb_lt in H2. rewrite H0, H1, H2. reflexivity.
Qed.
Lemma char_len_4 c : 240 <= nat_of_ascii c -> char_len c = 4.
Proof.
  intros H. unfold char_len. assert (H0 : 128 <= nat_of_ascii c) by lia. assert (H1 : 224 <= nat_of_ascii c) by lia.
  apply Nat.ltb_ge in H0, H1, H. rewrite H0, H1, H. reflexivity.
Qed.

Lemma char_shape ch : utf8_char ch ->
  exists c tl, ch = c :: tl /\ char_len c = S (length tl) /\ starts_char c = true /\
    Forall (fun b => starts_char b = false) tl /\ (tl = [] <-> nat_of_ascii c < 128).
Proof.
  intros H.
  assert (Hw : forall a b c, byte_in a b c -> 128 <= a -> b <= 191 -> starts_char c = false).
  { intros a b c [H1 H2] Ha Hb. apply starts_cont. split; lia. }
  assert (Hf : forall (c : ascii) (d : ascii) tl, 128 <= nat_of_ascii c -> (d :: tl = [] <-> nat_of_ascii c < 128)).
  { intros c d tl Hc. split; [discriminate|lia]. }
  destruct H as [c H|a b H Hb|a b c H _ Hb Hc|a b c H Hb Hc|a b c H Hb Hc|a b c d H Hb Hc Hd|a b c d H Hb Hc Hd|a b c d H Hb Hc Hd];
    unfold cont_byte in *; unfold byte_in in H;
    eexists; eexists; (split; [reflexivity|]); cbn [length].
  all: match goal with |- char_len ?a = 1 /\ _ => split; [apply char_len_1; lia|]
       | |- char_len ?a = 2 /\ _ => split; [apply char_len_2; lia|]
       | |- char_len ?a = 3 /\ _ => split; [apply char_len_3; lia|]
       | |- char_len ?a = 4 /\ _ => split; [apply char_len_4; lia|] end.
  all: split; [first [apply starts_low; lia|apply starts_high; lia]|].
  all: split; [repeat constructor; eapply Hw; eauto; lia|].
  all: first [apply Hf; lia|split; [intros _; lia|reflexivity]].
Qed.

(** ** Strings *)
Lemma utf8_app a b : utf8 a -> utf8 b -> utf8 (a ++ b).
Proof. induction 1 as [|ch s Hc Hs IH]; intros Hb; [exact Hb|]. rewrite <- app_assoc. constructor; auto. Qed.
Lemma utf8_ascii c : nat_of_ascii c < 128 -> utf8 [c].
Proof. intros H. change [c] with ([c] ++ @nil ascii). constructor; [constructor; split; lia|constructor]. Qed.
Lemma utf8_asciis s : Forall (fun c => nat_of_ascii c < 128) s -> utf8 s.
Proof. induction 1 as [|c s Hc Hs IH]; [constructor|]. change (c :: s) with ([c] ++ s). apply utf8_app; [apply utf8_ascii|]; assumption. Qed.
Lemma utf8_head c s : utf8 (c :: s) -> starts_char c = true.
Proof.
  intros H. inversion H as [|ch s' Hc Hs E]. destruct (char_shape _ Hc) as (c' & tl & -> & _ & Hst & _).
  cbn in E. injection E as <- _. exact Hst.
Qed.

(** a string can be cut before every byte that starts a character *)
Lemma utf8_cut s : utf8 s -> forall a b, s = a ++ b ->
  match b with [] => True | c :: _ => starts_char c = true end -> utf8 a /\ utf8 b.
Proof.
  induction 1 as [|ch s Hc Hs IH]; intros a b E Hb.
  - symmetry in E. apply app_eq_nil in E as [-> ->]. split; constructor.
  - destruct (char_shape _ Hc) as (c & tl & -> & _ & Hst & Ht & _).
    destruct a as [|c' a]; cbn in E.
    + subst b. split; [constructor|]. change (c :: tl ++ s) with ((c :: tl) ++ s). constructor; assumption.
    + injection E as <- E. apply app_eq_app in E as [l [[-> ->]|[-> ->]]].
      * destruct l as [|d l].
        -- rewrite app_nil_r in *. split; [|exact Hs].
           change (c :: a) with ((c :: a)). rewrite <- (app_nil_r (c :: a)). constructor; [exact Hc|constructor].
        -- cbn in Hb. apply Forall_app in Ht as [_ Ht]. inversion Ht; subst. congruence.
      * destruct (IH l b eq_refl Hb) as [Hl Hb']. split; [|exact Hb'].
        change (c :: tl ++ l) with ((c :: tl) ++ l). constructor; assumption.
Qed.
Lemma utf8_char_rest ch s : utf8_char ch -> utf8 (ch ++ s) -> utf8 s.
Proof.
  intros H Hs. inversion Hs as [E|ch' s' Hc' Hs' E].
  - destruct (char_shape _ H) as (c & tl & -> & _). discriminate.
  - destruct (char_shape _ H) as (c & tl & -> & Hl & _). destruct (char_shape _ Hc') as (c' & tl' & -> & Hl' & _).
    cbn in E. injection E as -> E. rewrite Hl in Hl'. injection Hl' as Hl'.
    apply app_eq_app in E as [l [[-> ->]|[-> ->]]]; rewrite app_length in Hl'; (destruct l; [|cbn in Hl'; lia]); exact Hs'.
Qed.
Lemma utf8_rest a b : utf8 a -> utf8 (a ++ b) -> utf8 b.
Proof.
  induction 1 as [|ch s Hc Hs IH]; intros H; [exact H|]. rewrite <- app_assoc in H. apply IH. exact (utf8_char_rest _ _ Hc H).
Qed.
(** a string can be cut before and after an ASCII character *)
Lemma utf8_at a c b : nat_of_ascii c < 128 -> utf8 (a ++ c :: b) -> utf8 a /\ utf8 b.
Proof.
  intros Hc H. destruct (utf8_cut _ H a (c :: b) eq_refl (starts_low _ Hc)) as [Ha Hb]. split; [exact Ha|].
  exact (utf8_rest [c] b (utf8_ascii _ Hc) Hb).
Qed.
Lemma utf8_tail c s : nat_of_ascii c < 128 -> utf8 (c :: s) -> utf8 s.
Proof. intros Hc H. exact (proj2 (utf8_at [] c s Hc H)). Qed.

Lemma boundary a b : utf8 b -> is_char_boundary (a ++ b) (length a) = true.
Proof.
  intros H. unfold is_char_boundary. destruct (length a) as [|n] eqn:E; [reflexivity|]. rewrite <- E.
  destruct b as [|c b].
  - rewrite app_nil_r. rewrite (proj2 (nth_error_None a (length a)) (le_n _)). apply Nat.eqb_refl.
  - rewrite nth_error_app2 by lia. rewrite Nat.sub_diag. cbn. exact (utf8_head _ _ H).
Qed.
Lemma slice_from_app a b : utf8 b -> slice_from (a ++ b) (length a) = Some b.
Proof.
  intros H. unfold slice_from. rewrite (boundary a b H). rewrite skipn_app, skipn_all, Nat.sub_diag. reflexivity.
Qed.
Lemma slice_to_app a b : utf8 b -> slice_to (a ++ b) (length a) = Some a.
Proof.
  intros H. unfold slice_to. rewrite (boundary a b H). rewrite firstn_app, firstn_all, Nat.sub_diag. cbn. rewrite app_nil_r. reflexivity.
Qed.

(** ** Search *)

(** a predicate on characters that looks at single bytes only *)
Definition bytewise (f : str -> bool) (h : ascii -> bool) : Prop :=
  forall c tl, utf8_char (c :: tl) -> f (c :: tl) = h c /\ (h c = false -> Forall (fun b => h b = false) tl).

Lemma ascii_range h c : (forall c, h c = true -> nat_of_ascii c < 128) -> 128 <= nat_of_ascii c -> h c = false.
Proof. intros Hh Hc. destruct (h c) eqn:E; [|reflexivity]. apply Hh in E. lia. Qed.
Lemma not_starts_high c : starts_char c = false -> 128 <= nat_of_ascii c.
Proof. intros H. destruct (le_lt_dec 128 (nat_of_ascii c)) as [?|Hc]; [assumption|]. rewrite (starts_low _ Hc) in H. discriminate. Qed.

Lemma bytewise_ascii h : (forall c, h c = true -> nat_of_ascii c < 128) -> bytewise (ascii_char h) h.
Proof.
  intros Hh c tl H. destruct (char_shape _ H) as (c' & tl' & E & _ & _ & Ht & Hn). injection E as <- <-.
  assert (Hb : Forall (fun b => h b = false) tl).
  { revert Ht. apply Forall_impl. intros b Hb. apply (ascii_range h); [exact Hh|]. apply not_starts_high. exact Hb. }
  split; [|intros _; exact Hb]. destruct tl as [|d tl]; [reflexivity|]. cbn. symmetry. apply (ascii_range h); [exact Hh|].
  destruct (le_lt_dec 128 (nat_of_ascii c)) as [?|Hc]; [assumption|]. apply Hn in Hc. discriminate.
Qed.
Lemma bytewise_not h : (forall c, h c = true -> nat_of_ascii c < 128) -> bytewise (fun ch => negb (ascii_char h ch)) (fun c => negb (h c)).
Proof.
  intros Hh c tl H. destruct (bytewise_ascii h Hh c tl H) as [E Hf]. split; [rewrite E; reflexivity|].
  intros Hc. apply Bool.negb_false_iff in Hc. apply Hh in Hc. destruct (char_shape _ H) as (c' & tl' & E' & _ & _ & _ & Hn).
  injection E' as <- <-. apply Hn in Hc. subst tl. constructor.
Qed.

Lemma span_skip f a b : Forall (fun c => f c = true) a -> span f (a ++ b) = (a ++ fst (span f b), snd (span f b)).
Proof.
  induction 1 as [|c a Hc Ha IH]; cbn [app span]; [destruct (span f b); reflexivity|]. rewrite Hc, IH. reflexivity.
Qed.
Lemma find_char_span f h : bytewise f h -> forall s, utf8 s -> forall n, length s <= n ->
  find_char_ n f s = match snd (span (fun c => negb (h c)) s) with [] => None | _ :: _ => Some (length (fst (span (fun c => negb (h c)) s))) end.
Proof.
  intros Hf. induction 1 as [|ch s Hc Hs IH]; intros n Hn.
  - destruct n; reflexivity.
  - destruct (char_shape _ Hc) as (c & tl & -> & Hl & Hst & Ht & Ha). destruct (Hf c tl Hc) as [E Ef].
    rewrite app_length in Hn. cbn [length app] in Hn. destruct n as [|n]; [lia|].
    cbn [app find_char_]. rewrite Hl.
    assert (E1 : firstn (S (length tl)) (c :: tl ++ s) = c :: tl).
    { cbn [firstn]. f_equal. rewrite firstn_app, firstn_all, Nat.sub_diag. cbn. apply app_nil_r. }
    assert (E2 : skipn (S (length tl)) (c :: tl ++ s) = s).
    { cbn [skipn]. rewrite skipn_app, skipn_all, Nat.sub_diag. reflexivity. }
    rewrite E1, E2, E. destruct (h c) eqn:Eh.
    + cbn [span]. rewrite Eh. reflexivity.
    + specialize (Ef eq_refl).
      change (c :: tl ++ s) with ((c :: tl) ++ s).
      rewrite span_skip.
      2: { constructor; [rewrite Eh; reflexivity|]. revert Ef. apply Forall_impl. intros b ->. reflexivity. }
      cbn [fst snd]. rewrite IH by lia. destruct (snd (span (fun c => negb (h c)) s)); [reflexivity|].
      rewrite app_length. reflexivity.
Qed.

Lemma find_str_close s : find_str ($"|}") s = match find_close s with Some (a, _) => Some (length a) | None => None end.
Proof.
  induction s as [|c s IH]; [reflexivity|]. cbn [find_str find_close].
  destruct (strip_prefix ($"|}") (c :: s)); [reflexivity|]. rewrite IH. destruct (find_close s) as [[a b]|]; reflexivity.
Qed.
Lemma strip_char_ascii h s : (forall c, h c = true -> nat_of_ascii c < 128) -> utf8 s ->
  strip_char (ascii_char h) s = match s with c :: s' => if h c then Some s' else None | [] => None end.
Proof.
  intros Hh Hs. destruct Hs as [|ch s Hc Hs]; [reflexivity|].
  destruct (char_shape _ Hc) as (c & tl & -> & Hl & Hst & Ht & Ha). destruct (bytewise_ascii h Hh c tl Hc) as [E _].
  cbn [app strip_char]. rewrite Hl. cbn [firstn skipn].
  rewrite firstn_app, firstn_all, Nat.sub_diag. cbn [firstn]. rewrite app_nil_r. rewrite E.
  rewrite skipn_app, skipn_all, Nat.sub_diag. cbn [skipn app].
  destruct (h c) eqn:Eh; [|reflexivity]. apply Hh in Eh. apply Ha in Eh. subst tl. reflexivity.
Qed.

(** ** Classes of characters *)
Lemma ident_head_low c : ident_head c = true -> nat_of_ascii c < 128.
Proof. destruct c as [[] [] [] [] [] [] [] []]; cbn; try discriminate; intros _; vm_compute; lia. Qed.
Lemma ident_tail_low c : ident_tail c = true -> nat_of_ascii c < 128.
Proof. destruct c as [[] [] [] [] [] [] [] []]; cbn; try discriminate; intros _; vm_compute; lia. Qed.
Lemma white_low c : white c = true -> nat_of_ascii c < 128.
Proof. destruct c as [[] [] [] [] [] [] [] []]; cbn; try discriminate; intros _; vm_compute; lia. Qed.
Lemma dot_low c : Ascii.eqb "." c = true -> nat_of_ascii c < 128.
Proof. intros H. apply ascii_eqb_true in H. subst c. vm_compute. lia. Qed.
Lemma par_low c : (Ascii.eqb c "(" || Ascii.eqb c ";")%bool = true -> nat_of_ascii c < 128.
Proof. intros H. apply Bool.orb_true_iff in H as [H|H]; apply ascii_eqb_true in H; subst c; vm_compute; lia. Qed.

Lemma span_low f a b s : (forall c, f c = true -> nat_of_ascii c < 128) -> span f s = (a, b) -> utf8 s -> utf8 a /\ utf8 b.
Proof.
  intros Hf E H. apply span_spec in E as (-> & Ha & _).
  assert (Hu : utf8 a). { apply utf8_asciis. apply Forall_forall. intros c Hc. apply Hf. rewrite forallb_forall in Ha. auto. }
  split; [exact Hu|]. exact (utf8_rest _ _ Hu H).
Qed.
Lemma find_close_utf8 s a b : find_close s = Some (a, b) -> utf8 s -> utf8 a /\ utf8 b.
Proof.
  intros E H. apply find_close_spec in E. subst s. cbn in H.
  destruct (utf8_at a "|" _ ltac:(vm_compute; lia) H) as [Ha Hb]. split; [exact Ha|].
  exact (utf8_tail "}" b ltac:(vm_compute; lia) Hb).
Qed.
Lemma moustache_utf8 a : utf8 a -> utf8 ($"{|" ++ a ++ $"|}").
Proof.
  intros H. apply utf8_app; [|apply utf8_app; [exact H|]]; apply utf8_asciis; repeat constructor; vm_compute; lia.
Qed.
Lemma strip_prefix_utf8 p s r : Forall (fun c => nat_of_ascii c < 128) p -> strip_prefix p s = Some r -> utf8 s -> utf8 r.
Proof. intros Hp E H. apply strip_prefix_spec in E. subst s. exact (utf8_rest _ _ (utf8_asciis _ Hp) H). Qed.

(** ** Symbols *)
Lemma symb_push_utf8 sy name : symb_utf8 sy -> utf8 name -> symb_utf8 (symb_push sy name).
Proof. intros [H1 H2] H. split; cbn; [apply Forall_app; split; [exact H1|repeat constructor; exact H2]|exact H]. Qed.

Definition sym_ok (r : option symb * str) : Prop := utf8 (snd r) /\ match fst r with Some sy => symb_utf8 sy | None => True end.

Lemma symb_code_eq n : forall m sy s, length s < n -> length s <= m -> utf8 s -> symb_utf8 sy ->
  symb_code n sy s = Some (symb_tail m sy s) /\ sym_ok (symb_tail m sy s).
Proof.
  induction n as [|n IH]; intros m sy s Hn Hm Hs Hsy; [lia|].
  cbn [symb_code]. rewrite (strip_char_ascii _ s dot_low Hs).
  assert (Hstop : sym_ok (Some sy, s)) by (split; assumption).
  destruct s as [|c s0]; [destruct m; split; [reflexivity|exact Hstop|reflexivity|exact Hstop]|].
  destruct m as [|m]; [cbn in Hm; lia|]. rewrite symb_tail_S. unfold next_part.
  destruct (Ascii.eqb "." c) eqn:Ec.
  2: { split.
       - destruct c as [[] [] [] [] [] [] [] []]; try reflexivity. cbn in Ec. discriminate.
       - destruct c as [[] [] [] [] [] [] [] []]; try exact Hstop. cbn in Ec. discriminate. }
  apply ascii_eqb_true in Ec. subst c. cbn [length] in Hn, Hm.
  assert (Hs0 : utf8 s0) by (apply (utf8_tail "."); [vm_compute; lia|exact Hs]).
  rewrite (strip_char_ascii _ s0 ident_head_low Hs0).
  destruct s0 as [|c s1]; [split; [reflexivity|exact Hstop]|]. destruct (ident_head c) eqn:Eh.
  - assert (Hs1 : utf8 s1) by (apply (utf8_tail c); [apply ident_head_low; exact Eh|exact Hs0]).
    unfold find_char. rewrite (find_char_span _ _ (bytewise_not _ ident_tail_low) s1 Hs1 _ (le_n _)).
    assert (Esp : span (fun c => negb (negb (ident_tail c))) s1 = span ident_tail s1).
    { clear. induction s1 as [|d s1 IH]; [reflexivity|]. cbn [span]. rewrite Bool.negb_involutive, IH. reflexivity. }
    rewrite Esp. destruct (span ident_tail s1) as [t rest] eqn:Et. cbn [fst snd].
    destruct (span_low _ _ _ _ ident_tail_low Et Hs1) as [Ht Hr].
    apply span_spec in Et as (-> & _ & _).
    assert (El : (match rest with [] => None | _ :: _ => Some (length t) end = Some (length t)) \/ rest = []) by (destruct rest; auto).
    assert (El2 : match match rest with [] => None | _ :: _ => Some (length t) end with Some k => k | None => length (t ++ rest) end = length t).
    { destruct rest; [rewrite app_length; cbn; lia|reflexivity]. }
    rewrite El2.
    change (c :: t ++ rest) with ((c :: t) ++ rest). change (1 + length t) with (length (c :: t)).
    rewrite (slice_to_app (c :: t) rest Hr).
    change ("."%char :: (c :: t) ++ rest) with (("."%char :: c :: t) ++ rest).
    change (1 + length (c :: t)) with (length ("."%char :: c :: t)).
    rewrite (slice_from_app ("."%char :: c :: t) rest Hr).
    cbn [length] in Hn, Hm. rewrite app_length in Hn, Hm.
    apply IH; [lia|lia|exact Hr|]. apply symb_push_utf8; [exact Hsy|].
    change (c :: t) with ([c] ++ t). apply utf8_app; [apply utf8_ascii, ident_head_low; exact Eh|exact Ht].
  - destruct (strip_prefix ($"{|") (c :: s1)) as [am|] eqn:Em; [|split; [reflexivity|exact Hstop]].
    assert (Ham : utf8 am). { apply (strip_prefix_utf8 ($"{|") _ _ ltac:(repeat constructor; vm_compute; lia) Em Hs0). }
    apply strip_prefix_spec in Em. rewrite Em in *. rewrite find_str_close.
    destruct (find_close am) as [[inner rest]|] eqn:Ef; [|split; [reflexivity|split; [exact Hs|exact I]]].
    destruct (find_close_utf8 _ _ _ Ef Ham) as [Hi Hr]. apply find_close_spec in Ef. subst am.
    assert (El : 2 + length inner + 2 = length ($"{|" ++ inner ++ $"|}")) by (rewrite !app_length; cbn; lia).
    rewrite El.
    replace ($"{|" ++ inner ++ $"|}" ++ rest) with (($"{|" ++ inner ++ $"|}") ++ rest) by (rewrite <- !app_assoc; reflexivity).
    rewrite (slice_to_app _ rest Hr).
    change ("."%char :: ($"{|" ++ inner ++ $"|}") ++ rest) with (("."%char :: $"{|" ++ inner ++ $"|}") ++ rest).
    change (1 + length ($"{|" ++ inner ++ $"|}")) with (length ("."%char :: $"{|" ++ inner ++ $"|}")).
    rewrite (slice_from_app _ rest Hr).
    rewrite !app_length in Hn, Hm. cbn [length] in Hn, Hm.
    apply IH; [lia|lia|exact Hr|]. apply symb_push_utf8; [exact Hsy|]. apply moustache_utf8. exact Hi.
Qed.

Lemma symb_rest_code name s : utf8 s -> utf8 name -> forall n, length s < n ->
  symb_code n (symb_new name) s = Some (symb_rest name s) /\ sym_ok (symb_rest name s).
Proof. intros Hs Hn n Hl. apply symb_code_eq; [exact Hl|apply le_n|exact Hs|]. split; [constructor|exact Hn]. Qed.

Lemma moustache_code_eq s : utf8 s -> moustache_code s = Some (moustache s) /\ sym_ok (moustache s).
Proof.
  intros Hs. unfold moustache_code, moustache. rewrite find_str_close.
  destruct (find_close s) as [[inner rest]|] eqn:Ef; [|split; [reflexivity|split; [exact Hs|exact I]]].
  destruct (find_close_utf8 _ _ _ Ef Hs) as [Hi Hr]. apply find_close_spec in Ef. subst s.
  rewrite (app_assoc inner ($"|}") rest).
  replace (length inner + 2) with (length (inner ++ $"|}")) by (rewrite app_length; reflexivity).
  rewrite (slice_from_app _ rest Hr).
  rewrite (app_assoc ($"{|") (inner ++ $"|}") rest).
  change (2 + length (inner ++ $"|}")) with (length ($"{|" ++ (inner ++ $"|}"))).
  rewrite (slice_to_app _ rest Hr).
  apply symb_rest_code; [exact Hr|apply moustache_utf8; exact Hi|]. rewrite !app_length. cbn. lia.
Qed.

(** ** Comments *)
Definition in_comment (c : ascii) : bool := negb (Ascii.eqb c "(" || Ascii.eqb c ";").
Lemma comment_jump o s : comment (S o) s = comment (S o) (snd (span in_comment s)).
Proof.
  induction s as [|c s IH]; [reflexivity|]. cbn [span]. destruct (in_comment c) eqn:E; [|reflexivity].
  destruct (span in_comment s) as [a b]. cbn [snd] in *. rewrite <- IH.
  unfold in_comment in E. apply Bool.negb_true_iff, Bool.orb_false_iff in E as [E1 E2].
  cbn [comment]. rewrite E1, E2. reflexivity.
Qed.
Lemma comment_code_eq n : forall open s, length s < n -> utf8 s ->
  comment_code n open s = Some (comment open s) /\ utf8 (snd (comment open s)).
Proof.
  induction n as [|n IH]; intros open s Hn Hs; [lia|]. cbn [comment_code].
  destruct open as [|o]; [destruct s; split; try reflexivity; exact Hs|].
  unfold find_char. rewrite (find_char_span _ _ (bytewise_ascii _ par_low) s Hs _ (le_n _)).
  fold in_comment. change (fun c => negb (Ascii.eqb c "(" || Ascii.eqb c ";")) with in_comment.
  rewrite (comment_jump o s). destruct (span in_comment s) as [a b] eqn:E. cbn [fst snd].
  apply span_spec in E as (-> & _ & Hb). rewrite app_length in Hn. destruct b as [|c b].
  - rewrite app_nil_r. rewrite <- (app_nil_r a) at 1. rewrite (slice_from_app a [] u8_nil). split; [reflexivity|constructor].
  - unfold in_comment in Hb. apply Bool.negb_false_iff in Hb. pose proof (par_low _ Hb) as Hc.
    destruct (utf8_at _ _ _ Hc Hs) as [Ha Hb'].
    assert (Hcb : utf8 (c :: b)) by (apply (utf8_app [c]); [apply utf8_ascii; exact Hc|exact Hb']).
    rewrite (slice_from_app a (c :: b) Hcb). cbn [length] in Hn.
    assert (H1 : slice_from (c :: b) 1 = Some b) by exact (slice_from_app [c] b Hb').
    rewrite H1. unfold starts_with.
    apply Bool.orb_true_iff in Hb as [Hb|Hb]; apply ascii_eqb_true in Hb; subst c; cbn [comment].
    + change (strip_prefix ($"(;") ("("%char :: b)) with (strip_prefix ($";") b).
      change (strip_prefix ($";)") ("("%char :: b)) with (@None str).
      cbn [Ascii.eqb Bool.eqb]. destruct b as [|d b].
      * change (strip_prefix ($";") []) with (@None str). cbn iota.
        destruct (IH (S o) [] ltac:(cbn; lia) u8_nil) as [E1 E2]. rewrite E1. split; [reflexivity|constructor].
      * change (strip_prefix ($";") (d :: b)) with (if Ascii.eqb ";" d then Some b else None).
        rewrite (Ascii.eqb_sym d ";"). destruct (Ascii.eqb ";" d) eqn:Ed; cbn iota.
        -- apply ascii_eqb_true in Ed. subst d. assert (Hb2 : utf8 b) by (apply (utf8_tail ";"); [vm_compute; lia|exact Hb']).
           change ("("%char :: ";"%char :: b) with ($"(;" ++ b). change 2 with (length ($"(;")).
           rewrite (slice_from_app _ b Hb2). apply IH; [cbn [length] in Hn; lia|exact Hb2].
        -- apply IH; [lia|exact Hb'].
    + change (strip_prefix ($"(;") (";"%char :: b)) with (@None str).
      change (strip_prefix ($";)") (";"%char :: b)) with (strip_prefix ($")") b).
      cbn [Ascii.eqb Bool.eqb]. destruct b as [|d b].
      * change (strip_prefix ($")") []) with (@None str). cbn iota.
        destruct (IH (S o) [] ltac:(cbn; lia) u8_nil) as [E1 E2]. rewrite E1. split; [reflexivity|constructor].
      * change (strip_prefix ($")") (d :: b)) with (if Ascii.eqb ")" d then Some b else None).
        rewrite (Ascii.eqb_sym d ")"). destruct (Ascii.eqb ")" d) eqn:Ed; cbn iota.
        -- apply ascii_eqb_true in Ed. subst d. assert (Hb2 : utf8 b) by (apply (utf8_tail ")"); [vm_compute; lia|exact Hb']).
           change (";"%char :: ")"%char :: b) with ($";)" ++ b). change 2 with (length ($";)")).
           rewrite (slice_from_app _ b Hb2). apply IH; [cbn [length] in Hn; lia|exact Hb2].
        -- apply IH; [lia|exact Hb'].
Qed.

(** ** Tokens *)
Lemma punct_utf8 ps s t r : Forall (fun p => Forall (fun c => nat_of_ascii c < 128) (fst p) /\ token_utf8 (snd p)) ps ->
  punct ps s = Some (t, r) -> utf8 s -> utf8 r /\ token_utf8 t.
Proof.
  intros Hp. induction Hp as [|[p t0] ps [Hp Ht] _ IH]; cbn [punct]; [discriminate|].
  destruct (strip_prefix p s) as [r0|] eqn:E; [|exact IH].
  intros [= <- <-] Hs. split; [exact (strip_prefix_utf8 _ _ _ Hp E Hs)|exact Ht].
Qed.
Lemma puncts_low : Forall (fun p => Forall (fun c => nat_of_ascii c < 128) (fst p) /\ token_utf8 (snd p)) puncts.
Proof. repeat constructor; vm_compute; lia. Qed.
Lemma keyword_utf8 w t : keyword w = Some t -> token_utf8 t.
Proof.
  unfold keyword. destruct (str_eqb w _); [intros [= <-]; exact I|]. destruct (str_eqb w _); [intros [= <-]; exact I|].
  destruct (str_eqb w _); [intros [= <-]; exact I|discriminate].
Qed.

Section Lex.
Context (junk : str -> nat) (Hj : whole_chars junk).

Definition match_ok (r : option token * str) : Prop := utf8 (snd r) /\ match fst r with Some t => token_utf8 t | None => True end.
Lemma symb_token_ok r : sym_ok r -> match_ok (symb_token r).
Proof. destruct r as [[sy|] s]; intros [H1 H2]; split; assumption. Qed.

Lemma lex_match_code_eq c s : utf8 (c :: s) ->
  lex_match_code junk c s = Some (lex_match junk c s) /\ match_ok (lex_match junk c s).
Proof.
  intros H. unfold lex_match_code, lex_match. destruct (white c) eqn:Ew.
  { split; [reflexivity|]. assert (Hs : utf8 s) by (apply (utf8_tail c); [apply white_low; exact Ew|exact H]).
    destruct (span white s) as [a b] eqn:E. split; [|exact I]. exact (proj2 (span_low _ _ _ _ white_low E Hs)). }
  destruct (ident_head c) eqn:Eh.
  { assert (Hs : utf8 s) by (apply (utf8_tail c); [apply ident_head_low; exact Eh|exact H]).
    destruct (span ident_tail s) as [t rest] eqn:E. destruct (span_low _ _ _ _ ident_tail_low E Hs) as [Ht Hr].
    destruct (keyword (c :: t)) as [k|] eqn:Ek; [split; [reflexivity|split; [exact Hr|exact (keyword_utf8 _ _ Ek)]]|].
    assert (Hct : utf8 (c :: t)) by (apply (utf8_app [c]); [apply utf8_ascii, ident_head_low; exact Eh|exact Ht]).
    destruct (symb_rest_code (c :: t) rest Hr Hct _ (le_n _)) as [E1 E2].
    rewrite E1. split; [reflexivity|]. apply symb_token_ok. exact E2. }
  destruct (strip_prefix ($"{|") (c :: s)) as [m|] eqn:Em.
  { pose proof (strip_prefix_utf8 ($"{|") _ _ ltac:(repeat constructor; vm_compute; lia) Em H) as Hm.
    destruct (moustache_code_eq m Hm) as [E1 E2]. rewrite E1. split; [reflexivity|]. apply symb_token_ok. exact E2. }
  destruct (strip_prefix ($"(;") (c :: s)) as [m|] eqn:Ec.
  { pose proof (strip_prefix_utf8 ($"(;") _ _ ltac:(repeat constructor; vm_compute; lia) Ec H) as Hm.
    destruct (comment_code_eq (S (length m)) 1 m (le_n _) Hm) as [E1 E2]. rewrite E1.
    destruct (comment 1 m) as [open rest]. split; [reflexivity|]. split; [exact E2|]. cbn. destruct open; exact I. }
  destruct (punct puncts (c :: s)) as [[t r]|] eqn:Ep.
  - split; [reflexivity|]. destruct (punct_utf8 _ _ _ _ puncts_low Ep H) as [Hr Ht]. split; assumption.
  - split; [reflexivity|]. split; [|exact I]. exact (Hj c s H).
Qed.

Lemma lex_code_eq n : forall s, utf8 s -> lex_code_ junk n s = Some (lex_ junk n s) /\ Forall token_utf8 (lex_ junk n s).
Proof.
  induction n as [|n IH]; intros s Hs; [split; [reflexivity|constructor]|].
  cbn [lex_code_ lex_]. destruct s as [|c s]; [split; [reflexivity|constructor]|].
  cbn [lex1]. destruct (lex_match_code_eq c s Hs) as [E [H1 H2]]. rewrite E.
  destruct (lex_match junk c s) as [[t|] rest]; cbn [fst snd] in H1, H2; destruct (IH rest H1) as [E' H']; rewrite E'; split; try reflexivity.
  - constructor; assumption.
  - exact H'.
Qed.
Lemma main_lex_code s : utf8 s -> lex_code junk s = Some (lex junk s) /\ Forall token_utf8 (lex junk s).
Proof. apply lex_code_eq. Qed.
End Lex.

(** what is printed for a token is a string *)
Lemma main_token_show t s : token_utf8 t -> token_show t = Some s -> utf8 s.
Proof.
  intros H E. destruct t; try discriminate E; injection E as <-; try (apply utf8_asciis; repeat constructor; vm_compute; lia).
  destruct H as [Hp Hn]. unfold symb_show. apply utf8_app; [|exact Hn]. induction Hp as [|p l Hp _ IH]; cbn [flat_map]; [constructor|].
  apply utf8_app; [|exact IH]. apply utf8_app; [exact Hp|]. apply utf8_ascii. vm_compute. lia.
Qed.
