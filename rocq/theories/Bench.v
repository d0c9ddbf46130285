(** * Programs that consist of one command per line: from text to typability *)

From Verif Require Import Base ModelTerm ModelGctx ModelCommand ModelSyntax ModelLex ModelParse ModelShow ModelBench ModelProcess ModelMain
  SpecTerm SpecConv SpecRed SpecDomain SpecDerive SpecParse SpecSyntax SpecMake SpecSymbols SpecShare SpecProcess SpecProgram SpecWhole SpecBench
  ParseLex ParsePrint MainFmt MainShow MainReads MainProgram MainTools MainVerify MainWhole.

(** ** Lexing *)

Definition clean (s : str) : Prop := ~ In CR s.
Definition fine (t : token) : Prop := t <> TError /\ forall s, t = TSymb s -> one_line s.
(** The text has these tokens, whatever comes after it. *)
Definition lexes (s : str) (ts : list token) : Prop :=
  clean s /\ Forall fine ts /\ forall junk r, stop r -> lex junk (s ++ r) = ts ++ lex junk r.
Definition line (s : str) (ts : list token) : Prop :=
  clean s /\ Forall fine ts /\ forall junk r, lex junk (s ++ r) = ts ++ lex junk r.
(** Words end where the text begins. *)
Definition stops (s : str) : Prop := forall r, stop r -> stop (s ++ r).

Lemma clean_app s1 s2 : clean s1 -> clean s2 -> clean (s1 ++ s2).
Proof. intros H1 H2 H. apply in_app_or in H as [H|H]; auto. Qed.
Lemma clean_b s : forallb (fun c => negb (Ascii.eqb c CR)) s = true -> clean s.
Proof. intros H Hi. rewrite forallb_forall in H. apply H in Hi. discriminate. Qed.
Lemma stops_char c s : ident_tail c = false -> c <> "."%char -> c <> "="%char -> c <> ";"%char -> stops (c :: s).
Proof. intros H1 H2 H3 H4 r _. apply stop_char; assumption. Qed.
Lemma stops_nil : stops [].
Proof. intros r H. exact H. Qed.
Lemma stops_app s1 s2 : stops s1 -> stops s2 -> stops (s1 ++ s2).
Proof. intros H1 H2 r Hr. rewrite <- app_assoc. auto. Qed.
Ltac stops := apply stops_char; [reflexivity|discriminate|discriminate|discriminate].

Lemma lx_nil : lexes [] [].
Proof. split; [intros []|]. split; [constructor|]. reflexivity. Qed.
Lemma lx_cons t w s ts : token_show t = Some w -> valid_tok t -> clean w -> fine t -> (forall r, stop r -> follows t (s ++ r)) -> lexes s ts -> lexes (w ++ s) (t :: ts).
Proof.
  intros Hw Hv Hc Hf Hr (H1 & H2 & H3). split; [apply clean_app; assumption|]. split; [constructor; assumption|].
  intros junk r Hs. rewrite <- app_assoc, (lex_show junk t w _ Hw Hv (Hr r Hs)). cbn. rewrite H3; auto.
Qed.
Lemma lx_sp s ts : lexes s ts -> lexes (" "%char :: s) ts.
Proof.
  intros (H1 & H2 & H3). split; [intros [H|H]; [discriminate|auto]|]. split; [exact H2|]. intros junk r Hr. cbn [app].
  rewrite lex_white by reflexivity. auto.
Qed.
Lemma lx_app s1 ts1 s2 ts2 : stops s2 -> lexes s1 ts1 -> lexes s2 ts2 -> lexes (s1 ++ s2) (ts1 ++ ts2).
Proof.
  intros Hs (A1 & A2 & A3) (B1 & B2 & B3). split; [apply clean_app; assumption|]. split; [apply Forall_app; auto|].
  intros junk r Hr. rewrite <- !app_assoc, A3, B3; auto.
Qed.
(** Tokens that do not depend on what follows *)
Lemma lx_punct t w s ts : token_show t = Some w -> valid_tok t -> clean w -> fine t -> (forall r, follows t (s ++ r)) -> lexes s ts -> lexes (w ++ s) (t :: ts).
Proof. intros. apply lx_cons; auto. Qed.
Lemma word_clean w : forallb ident_tail w = true -> clean w /\ ~ In newline w.
Proof. intros H. rewrite forallb_forall in H. split; intros Hi; apply H in Hi; discriminate. Qed.
Lemma fine_name x : forallb ident_tail x = true -> fine (name_tok x).
Proof. intros H. split; [discriminate|]. intros s [= <-] p [<-|[]]. apply word_clean. exact H. Qed.
Lemma lx_name x : valid_name x -> forallb ident_tail x = true -> lexes x [name_tok x].
Proof.
  intros Hv Hx. rewrite <- (app_nil_r x) at 1.
  apply (lx_cons (name_tok x) x [] [] eq_refl Hv (proj1 (word_clean x Hx)) (fine_name x Hx)); [intros r Hr; apply (Hr (name_tok x))|apply lx_nil].
Qed.
Lemma lx_line s ts : lexes s ts -> line (s ++ $"." ++ newl) (ts ++ [TDot]).
Proof.
  intros (H1 & H2 & H3). split; [apply clean_app; [exact H1|apply clean_b; reflexivity]|].
  split; [apply Forall_app; split; [exact H2|constructor; [split; discriminate|constructor]]|].
  intros junk r. rewrite <- !app_assoc, H3; [|intros t; apply stop_dot_nl]. f_equal.
  change (($"." ++ newl ++ r)) with (["."%char] ++ newl ++ r). rewrite (lex_show junk TDot); [|reflexivity|exact I|exact I].
  cbn [app]. f_equal. apply lex_white. reflexivity.
Qed.

Ltac fine_tac := first [split; discriminate | apply fine_name; reflexivity].
Ltac valid_tac := first [exact I | split; [left; apply ident_iff; do 2 eexists; split; [reflexivity|split; reflexivity]|let K := fresh in intros K; destruct K as [K|[K|[K|[]]]]; discriminate K]].
(** [lexes] of a given text *)
Ltac lx1 := lazymatch goal with
  | |- lexes (" "%char :: _) _ => apply lx_sp
  | |- lexes [] [] => apply lx_nil
  | |- lexes _ (?t :: _) => let w := eval vm_compute in (token_show t) in match w with Some ?w =>
      refine (lx_cons t w _ _ eq_refl _ _ _ _ _); [valid_tac|apply clean_b; reflexivity|fine_tac|let r := fresh in let H := fresh in intros r H; first [exact I | exact (H t) | split; reflexivity | reflexivity | discriminate]|] end
  end.
Ltac lx := cbn [list_ascii_of_string app]; repeat lx1.

Lemma lx_decl x s ts : valid_name x -> forallb ident_tail x = true -> lexes s ts -> line (x ++ $" : " ++ s ++ $"." ++ newl) (name_tok x :: TColon :: ts ++ [TDot]).
Proof.
  intros Hv Hx Hs. rewrite (app_assoc ($" : ")), app_assoc. change (name_tok x :: TColon :: ts ++ [TDot]) with ((name_tok x :: TColon :: ts) ++ [TDot]).
  apply lx_line. apply (lx_app x [name_tok x]); [stops|apply lx_name; assumption|]. apply lx_sp.
  change (":"%char :: " "%char :: s) with ([":"%char] ++ " "%char :: s). apply lx_cons; [reflexivity|exact I|apply clean_b; reflexivity|fine_tac|discriminate|].
  apply lx_sp. exact Hs.
Qed.
Lemma lx_def x a ats s ts : valid_name x -> forallb ident_tail x = true -> stops a -> lexes a ats -> lexes s ts ->
  line ($"def " ++ x ++ a ++ $" := " ++ s ++ $"." ++ newl) (TDef :: name_tok x :: ats ++ TColonEq :: ts ++ [TDot]).
Proof.
  intros Hv Hx Ha Hats Hs. replace ($"def " ++ x ++ a ++ $" := " ++ s ++ $"." ++ newl) with (($"def " ++ x ++ a ++ $" := " ++ s) ++ $"." ++ newl) by (rewrite <- !app_assoc; reflexivity).
  replace (TDef :: name_tok x :: ats ++ TColonEq :: ts ++ [TDot]) with ((TDef :: name_tok x :: ats ++ TColonEq :: ts) ++ [TDot]) by (cbn; rewrite <- !app_assoc; reflexivity).
  apply lx_line. change ($"def " ++ x ++ a ++ $" := " ++ s) with ($"def" ++ " "%char :: x ++ a ++ $" := " ++ s).
  apply lx_cons; [reflexivity|exact I|apply clean_b; reflexivity|fine_tac|intros; first [exact I|reflexivity]|]. apply lx_sp.
  assert (Hn : stops ($" := " ++ s)) by stops.
  apply (lx_app x [name_tok x]); [apply stops_app; assumption|apply lx_name; assumption|].
  apply (lx_app a ats ($" := " ++ s) (TColonEq :: ts)); [exact Hn|exact Hats|]. apply lx_sp.
  change (":"%char :: "="%char :: " "%char :: s) with ($":=" ++ " "%char :: s). apply lx_cons; [reflexivity|exact I|apply clean_b; reflexivity|fine_tac|intros; first [exact I|reflexivity]|]. apply lx_sp. exact Hs.
Qed.

(** ** Names *)

Definition known (xs : list str) (R : symb -> option nat) : Prop := forall j x, nth_error xs j = Some x -> R (symb_new x) = Some j.
Fixpoint inserts (k : nat) (xs : list str) : list symop := match xs with [] => [] | x :: xs => Insert x k :: inserts (S k) xs end.
Lemma inserts_app xs ys k : inserts k (xs ++ ys) = inserts k xs ++ inserts (k + length xs) ys.
Proof. revert k. induction xs as [|x xs IH]; intros k; cbn; [rewrite Nat.add_0_r; reflexivity|]. rewrite IH, Nat.add_succ_r. reflexivity. Qed.
Lemma inserts_cur xs m : forall k pre, cur_module pre = m -> cur_module (pre ++ inserts k xs) = m.
Proof. induction xs as [|x xs IH]; intros k pre H; cbn; [rewrite app_nil_r; exact H|]. change (Insert x k :: inserts (S k) xs) with ([Insert x k] ++ inserts (S k) xs). rewrite app_assoc. apply IH. unfold cur_module. rewrite fold_left_app. exact H. Qed.
Lemma inserts_nth xs k j o : nth_error (inserts k xs) j = Some o -> exists x, nth_error xs j = Some x /\ o = Insert x (k + j).
Proof.
  revert k j. induction xs as [|x xs IH]; intros k [|j] H; try discriminate; cbn in *.
  - injection H as <-. exists x. rewrite Nat.add_0_r. auto.
  - apply IH in H as (y & H & ->). exists y. rewrite Nat.add_succ_r. auto.
Qed.
Lemma nth_inserts xs k j x : nth_error xs j = Some x -> nth_error (inserts k xs) j = Some (Insert x (k + j)).
Proof. revert k j. induction xs as [|y xs IH]; intros k [|j] H; try discriminate; cbn in *; [injection H as <-; rewrite Nat.add_0_r; reflexivity|]. rewrite (IH _ _ H), Nat.add_succ_r. reflexivity. Qed.
Definition hist (m : list str) (xs : list str) : list symop := SetPath m :: inserts 0 xs.
Lemma hist_cur m xs : cur_module (hist m xs) = m.
Proof. apply (inserts_cur xs m 0 [SetPath m]). reflexivity. Qed.
Lemma hist_split m xs pre x c post : hist m xs = pre ++ Insert x c :: post -> nth_error xs c = Some x /\ length pre = S c.
Proof.
  intros E. destruct pre as [|o pre]; [discriminate|]. cbn in E. injection E as <- E.
  assert (H : nth_error (inserts 0 xs) (length pre) = Some (Insert x c)) by (rewrite E, nth_error_app2, Nat.sub_diag by lia; reflexivity).
  apply inserts_nth in H as (y & H & [= -> ->]). split; [exact H|]. reflexivity.
Qed.
Lemma hist_known m xs : NoDup xs -> known xs (resolve (symhist (hist m xs))).
Proof.
  intros Hd j x H. apply (names_resolve (hist m xs)). cbn [sy_path sy_name symb_new]. exists m, []. rewrite app_nil_r. split; [apply hist_cur|].
  split; [|intros m' rest' E Hl; rewrite hist_cur in E; apply (f_equal (@length _)) in E; rewrite app_length in E; lia].
  pose proof (nth_error_split (inserts 0 xs) j (nth_inserts xs 0 j x H)) as (l1 & l2 & E & Hl1). cbn in E.
  exists (SetPath m :: l1), l2. split; [unfold hist; rewrite E; reflexivity|]. split.
  - assert (El : l1 = inserts 0 (firstn j xs)).
    { rewrite <- (firstn_skipn j xs), inserts_app in E. apply (f_equal (firstn j)) in E. 
      assert (Hj : length (inserts 0 (firstn j xs)) = j).
      { assert (L : forall ys k, length (inserts k ys) = length ys) by (induction ys; cbn; congruence). rewrite L, firstn_length. apply nth_error_Some_lt in H || (assert (j < length xs) by (apply nth_error_Some; congruence)). lia. }
      rewrite !firstn_app, Hj, Hl1, Nat.sub_diag in E. cbn in E. rewrite !app_nil_r in E. rewrite (firstn_all2 l1) in E by lia. rewrite firstn_all2 in E by lia. symmetry. exact E. }
    rewrite El. apply (inserts_cur _ m 0 [SetPath m]). reflexivity.
  - intros pre' d post' E' _. apply hist_split in E' as [H1 H2]. rewrite H2. cbn [length]. rewrite Hl1.
    assert (d = j); [|lia]. apply (NoDup_nth_error xs) with (i := d) (j := j); [exact Hd|apply nth_error_Some; congruence|congruence].
Qed.
Lemma hist_unbound m xs x : ~ In x xs -> unbound (hist m xs) (cur_module (hist m xs)) x.
Proof. intros Hx pre c post E. apply hist_split in E as [H _]. apply nth_error_In in H. contradiction. Qed.

(** ** Signatures *)

Definition entry_ : Type := tm * option (list srule).
Definition sig_of (eta : bool) (es : list entry_) : sig :=
  match es with
  | [] => empty_sig eta
  | _ => MkSig (fun c => option_map fst (nth_error es c)) (fun c => match nth_error es c with Some e => snd e | None => None end) eta
  end.
Lemma sig_type_of eta es c : sg_type (sig_of eta es) c = option_map fst (nth_error es c).
Proof. destruct es; [destruct c|]; reflexivity. Qed.
Lemma sig_rules_of eta es c : sg_rules (sig_of eta es) c = match nth_error es c with Some e => snd e | None => None end.
Proof. destruct es; [destruct c|]; reflexivity. Qed.
Lemma sig_eta_of eta es : sg_eta (sig_of eta es) = eta.
Proof. destruct es; reflexivity. Qed.
Lemma sig_extends eta es e : extends (sig_of eta es) (length es) (fst e) (snd e) (sig_of eta (es ++ [e])).
Proof.
  assert (H : forall d, nth_error (es ++ [e]) d = if d =? length es then Some e else nth_error es d).
  { intros d. destruct (Nat.eqb_spec d (length es)) as [->|Hn]; [rewrite nth_error_app2, Nat.sub_diag by lia; reflexivity|].
    destruct (Nat.lt_ge_cases d (length es)); [apply nth_error_app1; assumption|].
    rewrite (proj2 (nth_error_None es d)) by lia. apply nth_error_None. rewrite app_length. cbn. lia. }
  split; [|split; [|split]].
  - rewrite sig_type_of, (proj2 (nth_error_None es (length es))) by lia. reflexivity.
  - intros d. rewrite !sig_type_of, H. destruct (d =? length es); reflexivity.
  - intros d. rewrite !sig_rules_of, H. destruct (d =? length es); reflexivity.
  - rewrite !sig_eta_of. reflexivity.
Qed.

(** ** Programs *)

Inductive good_lines (eta : bool) : list str -> list entry_ -> list str -> list (pcommand (pterm symb)) -> list (intro_ tm tm) -> Prop :=
| gl_nil xs es : good_lines eta xs es [] [] []
| gl_cons xs es s ts x args it args' it' v e ss cs vs :
  line s ts -> gcommand ts (PIntro x args it) -> scope_command (PIntro x args it) = PIntro x args' it' -> ~ In x xs ->
  (forall R, known xs R -> elab_intro R (nest args' it') v) -> typable (sig_of eta es) (VIntro (length es) v) (sig_of eta (es ++ [e])) ->
  good_lines eta (xs ++ [x]) (es ++ [e]) ss cs vs ->
  good_lines eta xs es (s :: ss) (PIntro x args it :: cs) (v :: vs).

Lemma good_text eta xs es ss cs vs : good_lines eta xs es ss cs vs ->
  clean (concat ss) /\ forall junk, exists ts, lex junk (concat ss) = ts /\ Forall fine ts /\ gfile ts cs.
Proof.
  induction 1 as [|xs es s ts x args it args' it' v e ss cs vs (L1 & L2 & L3) Hg _ _ _ _ _ (IHc & IH)].
  - split; [intros []|]. intros junk. exists []. split; [apply lex_nil|]. split; constructor.
  - split; [apply clean_app; assumption|]. intros junk. destruct (IH junk) as (ts' & <- & Hf & Hg'). exists (ts ++ lex junk (concat ss)).
    split; [apply L3|]. split; [apply Forall_app; auto|]. apply (gf_cons [] ts); [constructor|exact Hg|exact Hg'].
Qed.
Lemma good_names eta m xs es ss cs vs : good_lines eta xs es ss cs vs -> length xs = length es -> NoDup xs ->
  exists xs', elab_commands (hist m xs) (length es) cs (intros_from (length es) vs) (hist m xs') (length es + length vs).
Proof.
  induction 1 as [xs es|xs es s ts x args it args' it' v e ss cs vs _ _ Hs Hx He _ _ IH]; intros Hl Hd.
  - exists xs. rewrite Nat.add_0_r. constructor.
  - destruct IH as (xs' & IH); [rewrite !app_length; cbn; lia|apply (NoDup_Add (a := x) (l := xs)); [rewrite <- (app_nil_r xs) at 1; apply Add_app|auto]|].
    exists xs'. cbn [intros_from length]. rewrite app_length in IH. cbn in IH. replace (length es + 1) with (S (length es)) in IH by lia.
    rewrite <- Nat.add_succ_comm. refine (els_cons _ _ _ _ _ _ _ _ _ _ _ IH).
    replace (hist m (xs ++ [x])) with (hist m xs ++ [Insert x (length es)]) by (unfold hist; rewrite inserts_app; cbn; rewrite Hl; reflexivity).
    eapply el_intro; [exact Hs|apply names_resolve|apply He; apply hist_known; exact Hd|apply hist_unbound; exact Hx].
Qed.
Lemma good_types_ eta xs es ss cs vs : good_lines eta xs es ss cs vs -> exists es', typable_all (sig_of eta es) (intros_from (length es) vs) (sig_of eta es').
Proof.
  induction 1 as [xs es|xs es s ts x args it args' it' v e ss cs vs _ _ _ _ _ Ht _ (es' & IH)]; [exists es; constructor|].
  exists es'. rewrite app_length in IH. cbn in IH. replace (length es + 1) with (S (length es)) in IH by lia. econstructor; eassumption.
Qed.

(** The source of a text, its meaning, and what kocheck says about it *)
Theorem good_source_ eta ss cs vs junk path m : good_lines eta [] [] ss cs vs -> module_of path m ->
  source_of junk (path, Some (concat ss)) (m, cs) /\ elaborates [(m, cs)] (intros_from 0 vs) /\ typable_sources eta [(m, cs)] /\ without_rules [(m, cs)].
Proof.
  intros H Hm. destruct (good_text _ _ _ _ _ _ H) as [Hc Ht]. destruct (Ht junk) as (ts & El & Hf & Hg). split; [|].
  { exists (concat ss), ts. split; [reflexivity|]. split; [exact Hm|]. split; [|apply gfile_gsource; exact Hg].
    exists (ModelMake.text_lines (concat ss)). split; [apply text_splits|].
    pose proof (text_splits (concat ss)) as Hx. rewrite unix_id in Hx by exact Hc. apply (main_reads junk _ _ _ Hx); [|auto].
    intros t Hin. rewrite El in Hin. rewrite Forall_forall in Hf. apply Hf. exact Hin. }
  assert (He : elaborates [(m, cs)] (intros_from 0 vs)).
  { destruct (good_names _ m _ _ _ _ _ H eq_refl (NoDup_nil _)) as (xs' & He). unfold elaborates. rewrite <- (app_nil_r (intros_from 0 vs)). econstructor; [exact He|constructor]. }
  split; [exact He|]. split.
  - destruct (good_types_ _ _ _ _ _ _ H) as (es' & H'). exists (intros_from 0 vs), (sig_of eta es'). split; [exact He|exact H'].
  - intros m' cs' rs [[= <- <-]|[]]. clear -H. induction H as [|? ? ? ? ? ? ? ? ? ? ? ? ? ? _ _ _ _ _ _ _ IH]; [intros []|]. intros [E|Hi]; [discriminate|auto].
Qed.
Theorem good_accepted eta ss cs vs junk O path m : good_lines eta [] [] ss cs vs -> module_of path m ->
  exists n0, forall n, n0 <= n -> forall r, kocheck junk (real_kernel O n) (Opts eta None false) false [(path, Some (concat ss))] r <-> r = Ok tt.
Proof.
  intros H Hm. destruct (good_source_ eta ss cs vs junk path m H Hm) as (Hs & _ & Ht & Hw).
  destruct (main_whole_decides junk O eta [(path, Some (concat ss))] [(m, cs)]) as (n0 & r & _ & _ & Hr & _ & Hk); [constructor; [exact Hs|constructor]|exact Hw|].
  apply Hk in Ht. subst r. exists n0. exact Hr.
Qed.

Section Family.
  Variables (eta : bool) (hx : list str) (he : list entry_).
  Variables (name : nat -> str) (text : nat -> str) (ts : nat -> list token) (args : nat -> list (str * pterm symb)) (it : nat -> intro_ (pterm symb) (pterm symb))
    (args' : nat -> list (str * pterm atom)) (it' : nat -> intro_ (pterm atom) (pterm atom)) (v : nat -> intro_ tm tm) (e : nat -> entry_).
  Hypothesis Hl : forall i, line (text i) (ts i).
  Hypothesis Hg : forall i, gcommand (ts i) (PIntro (name i) (args i) (it i)).
  Hypothesis Hs : forall i, scope_command (PIntro (name i) (args i) (it i)) = PIntro (name i) (args' i) (it' i).
  Hypothesis Hn : forall i j, name i = name j -> i = j.
  Hypothesis Hx : forall i, ~ In (name i) hx.
  Hypothesis He : forall i R, known hx R -> elab_intro R (nest (args' i) (it' i)) (v i).
  Hypothesis Ht : forall i es, typable (sig_of eta (he ++ es)) (VIntro (length (he ++ es)) (v i)) (sig_of eta ((he ++ es) ++ [e i])).
  Definition command i : pcommand (pterm symb) := PIntro (name i) (args i) (it i).
  Lemma good_family n : forall k is, (forall i, In i is -> i < k) ->
    good_lines eta (hx ++ map name is) (he ++ map e is) (map text (seq k n)) (map command (seq k n)) (map v (seq k n)).
  Proof.
    induction n as [|n IH]; intros k is Hi; cbn [seq map]; [constructor|]. eapply gl_cons; [apply Hl|apply Hg|apply Hs| | |apply Ht|].
    - rewrite in_app_iff, in_map_iff. intros [H|(i & H & Hin)]; [exact (Hx _ H)|]. apply Hn in H. apply Hi in Hin. lia.
    - intros R HR. apply He. intros j x Hj. apply HR. rewrite nth_error_app1; [exact Hj|apply nth_error_Some; congruence].
    - specialize (IH (S k) (is ++ [k])). rewrite !map_app, !app_assoc in IH. apply IH. intros i Hin. apply in_app_or in Hin as [Hin|[<-|[]]]; [apply Hi in Hin; lia|lia].
  Qed.
End Family.
