(** * Lemmas for C78: formatting does not change what is checked *)

From Verif Require Import Base ModelTerm ModelGctx ModelCommand ModelSubst ModelSyntax ModelSymbols ModelShare ModelLex ModelParse ModelFmt ModelMake ModelProcess ModelMain ModelRead ModelKofmt
  SpecUtf8 SpecMake SpecRead SpecParse SpecSyntax SpecProgram SpecKofmt SpecFormat ParseLex ParsePrint MainFmt MainReads MainProgram MainKofmt.

Lemma formats_print junk text text' : formats junk text text' ->
  (forall t, In t (lex junk text) -> t <> TError /\ forall n, t <> TComment n) /\ print_tokens (lex junk text) = Ok text'.
Proof.
  intros [H Hc]. apply main_kofmt_one in H. apply main_file_lex in H as (x & [[= <-] _] & He & Hp). split; [|exact Hp].
  intros t Hi. split; [intros ->; exact (He Hi)|]. intros n ->. exact (Hc n Hi).
Qed.
Lemma formats_lex junk text text' : formats junk text text' -> lex junk text' = lex junk text.
Proof. intros H. apply formats_print in H as [H1 H2]. exact (proj1 (main_fmt junk text text' H1 H2)). Qed.

(** ** Ends of lines *)
Definition no_cr_end (l : str) : Prop := forall l', l <> l' ++ [CR].
Lemma unix_part l s : ~ In LF l -> no_cr_end l -> unix (l ++ s) = l ++ unix s.
Proof.
  induction l as [|c l IH]; intros Hn Hc; [reflexivity|].
  assert (Hn' : ~ In LF l) by (intros X; apply Hn; right; exact X).
  assert (Hc' : no_cr_end l) by (intros l' ->; apply (Hc (c :: l')); reflexivity).
  cbn [app]. destruct l as [|d l].
  - cbn [app]. destruct s as [|d s]; [reflexivity|]. rewrite unix_step; [reflexivity|].
    destruct (Ascii.eqb_spec c "013") as [->|]; [|reflexivity]. exfalso. apply (Hc []). reflexivity.
  - cbn [app] in *. rewrite unix_step; [rewrite IH by assumption; reflexivity|].
    destruct (Ascii.eqb_spec d "010") as [->|]; [exfalso; apply Hn; right; left; reflexivity|apply andb_false_r].
Qed.
Lemma no_cr_app a b : b <> [] -> no_cr_end b -> no_cr_end (a ++ b).
Proof.
  intros Hb H l' E. destruct (exists_last Hb) as (b' & c & ->). rewrite app_assoc in E. apply app_inj_tail in E as [_ ->]. exact (H b' eq_refl).
Qed.
Lemma part_end p : valid_part p -> p <> [] /\ no_cr_end p.
Proof.
  intros [(c & t & -> & Hc & Ht)|(inner & -> & _)].
  - split; [discriminate|]. intros l' E.
    assert (Hi : In CR (c :: t)) by (rewrite E; apply in_or_app; right; left; reflexivity).
    assert (N : ~ In CR more_chars) by (vm_compute; intuition discriminate).
    destruct Hi as [->|Hi]; [apply N; right; exact Hc|]. rewrite Forall_forall in Ht. exact (N (Ht _ Hi)).
  - split; [discriminate|]. apply no_cr_app; [intros E; apply app_eq_nil in E as [_ E]; discriminate|]. apply no_cr_app; [discriminate|].
    intros l' E. change ($"|}") with (["|"%char] ++ ["}"%char]) in E. apply app_inj_tail in E as [_ E]. discriminate.
Qed.
Lemma symb_end sy : valid_symb sy -> one_line sy -> symb_show sy <> [] /\ no_cr_end (symb_show sy) /\ ~ In LF (symb_show sy).
Proof.
  intros Hv Ho.
  assert (Hp : valid_part (sy_name sy)).
  { unfold valid_symb in Hv. destruct (sy_path sy); [exact (proj1 Hv)|exact (proj2 (proj2 Hv))]. }
  apply part_end in Hp as [H1 H2]. unfold symb_show. split; [|split].
  - intros E. apply app_eq_nil in E as [_ E]. contradiction.
  - apply no_cr_app; assumption.
  - intros Hi. apply in_app_or in Hi as [Hi|Hi].
    + apply in_flat_map in Hi as (p & Hp & Hi). apply in_app_or in Hi as [Hi|[Hi|[]]]; [|discriminate].
      apply (Ho p); [apply in_or_app; left; exact Hp|exact Hi].
    + apply (Ho (sy_name sy)); [apply in_or_app; right; left; reflexivity|exact Hi].
Qed.
Lemma token_end t w : valid_tok t -> (forall s, t = TSymb s -> one_line s) -> token_show t = Some w -> w <> [] /\ no_cr_end w /\ ~ In LF w.
Proof.
  intros Hv Ho E.
  assert (X : forall a c, w = a ++ [c] -> c <> CR -> ~ In LF w -> w <> [] /\ no_cr_end w /\ ~ In LF w).
  { intros a c -> Hc Hn. split; [intros Z; apply app_eq_nil in Z as [_ Z]; discriminate|]. split; [|exact Hn].
    intros l' Z. apply app_inj_tail in Z as [_ Z]. contradiction. }
  destruct t; cbn [token_show] in E; try discriminate; try (destruct Hv; fail); injection E as E; subst w;
    try (apply symb_end; [exact Hv|apply Ho; reflexivity]).
  - apply (X ($"de") "f"%char); [reflexivity|discriminate|vm_compute; intuition discriminate].
  - apply (X ($"th") "m"%char); [reflexivity|discriminate|vm_compute; intuition discriminate].
  - apply (X ($"injectiv") "e"%char); [reflexivity|discriminate|vm_compute; intuition discriminate].
  - apply (X [] "["%char); [reflexivity|discriminate|vm_compute; intuition discriminate].
  - apply (X [] "]"%char); [reflexivity|discriminate|vm_compute; intuition discriminate].
  - apply (X [] "#"%char); [reflexivity|discriminate|vm_compute; intuition discriminate].
  - apply (X [] "("%char); [reflexivity|discriminate|vm_compute; intuition discriminate].
  - apply (X [] ")"%char); [reflexivity|discriminate|vm_compute; intuition discriminate].
  - apply (X [] ":"%char); [reflexivity|discriminate|vm_compute; intuition discriminate].
  - apply (X [":"%char] "="%char); [reflexivity|discriminate|vm_compute; intuition discriminate].
  - apply (X ["-"%char] ">"%char); [reflexivity|discriminate|vm_compute; intuition discriminate].
  - apply (X ["="%char] ">"%char); [reflexivity|discriminate|vm_compute; intuition discriminate].
  - apply (X ($"--") ">"%char); [reflexivity|discriminate|vm_compute; intuition discriminate].
  - apply (X [] ","%char); [reflexivity|discriminate|vm_compute; intuition discriminate].
  - apply (X [] "."%char); [reflexivity|discriminate|vm_compute; intuition discriminate].
Qed.
Lemma print_unix toks : Forall valid_tok toks -> line_wise toks -> forall sp out, print_tokens_ sp toks = Ok out -> unix out = out.
Proof.
  induction 1 as [|t toks Ht _ IH]; intros Hw sp out; cbn [print_tokens_]; [intros [= <-]; reflexivity|].
  assert (Hw' : line_wise toks) by (intros x Hx; apply Hw; right; exact Hx).
  unfold print_token. destruct (token_show t) as [w|] eqn:Et; [|discriminate].
  destruct (token_end t w Ht (proj2 (Hw t (or_introl eq_refl))) Et) as (W1 & W2 & W3).
  destruct (print_tokens_ (negb (no_space_after t)) toks) as [o| | |] eqn:E; try discriminate. intros [= <-].
  specialize (IH Hw' _ _ E).
  set (sps := if sp && negb (no_space_before t) then $" " else []) in *.
  assert (Hs : ~ In LF (sps ++ w)).
  { intros Hi. apply in_app_or in Hi as [Hi|Hi]; [|exact (W3 Hi)]. subst sps. destruct (sp && _); [destruct Hi as [Hi|[]]; discriminate|destruct Hi]. }
  assert (He : no_cr_end (sps ++ w)) by (apply no_cr_app; assumption).
  set (tail := match t with TDot => ["010"%char] | _ => [] end).
  assert (Ho : unix (tail ++ o) = tail ++ o).
  { subst tail. destruct t; try exact IH. cbn [app]. destruct o as [|d o]; [reflexivity|]. rewrite unix_step by reflexivity. rewrite IH. reflexivity. }
  rewrite <- !app_assoc. rewrite app_assoc. rewrite unix_part by assumption. rewrite Ho. reflexivity.
Qed.

(** ** Sources *)
Lemma formats_unix junk text text' : formats junk text text' -> in_lines junk text -> in_lines junk text'.
Proof.
  intros H [Hw _]. split; [rewrite (formats_lex _ _ _ H); exact Hw|]. apply formats_print in H as [H1 H2].
  refine (print_unix (lex junk text) _ Hw false text' H2).
  apply Forall_forall. intros t Ht. destruct (H1 t Ht) as [N1 N2].
  pose proof (proj1 (Forall_forall _ _) (lex_lexed junk text) t Ht) as H3. destruct t; cbn in *; auto. exact (N2 open eq_refl).
Qed.
Lemma in_lines_read junk text toks : in_lines junk text -> (read_as junk text toks <-> toks = lex junk text).
Proof.
  intros [Hw Hu]. unfold read_as. rewrite Hu. split.
  - intros (lines & Hs & Hr). apply (main_reads junk text lines toks Hs Hw). exact Hr.
  - intros ->. exists (text_lines text). pose proof (text_splits text) as Hs. rewrite Hu in Hs. split; [exact Hs|].
    apply (main_reads junk text _ _ Hs Hw). reflexivity.
Qed.
Lemma formatted_source junk i i' src : formatted junk i i' -> (source_of junk i src <-> source_of junk i' src).
Proof.
  intros [Hp H]. unfold source_of. rewrite <- Hp. destruct i as [p [text|]], i' as [p' [text'|]]; cbn [fst snd] in *; try contradiction; [|subst p'; apply iff_refl].
  destruct H as [Hf Hl]. assert (Hl' := formats_unix _ _ _ Hf Hl).
  assert (R : forall toks, read_as junk text toks <-> read_as junk text' toks).
  { intros toks. rewrite !in_lines_read by assumption. rewrite (formats_lex _ _ _ Hf). reflexivity. }
  split; intros (x & toks & [= <-] & Hm & Hr & Hg); eexists _, toks; (split; [reflexivity|]); (split; [exact Hm|]); (split; [apply R; exact Hr|exact Hg]).
Qed.
Lemma formatted_sources junk inputs inputs' : Forall2 (formatted junk) inputs inputs' -> forall srcs,
  Forall2 (source_of junk) inputs srcs <-> Forall2 (source_of junk) inputs' srcs.
Proof.
  induction 1 as [|i i' inputs inputs' H _ IH]; intros srcs; [reflexivity|].
  split; intros X; inversion X; subst; (constructor; [apply (formatted_source _ _ _ _ H); assumption|apply IH; assumption]).
Qed.
Lemma main_format_accepted junk K o channel inputs inputs' : Forall2 (formatted junk) inputs inputs' ->
  (kocheck junk K o channel inputs (Ok tt) <-> kocheck junk K o channel inputs' (Ok tt)).
Proof.
  intros H. rewrite !kocheck_events. split; intros (srcs & Hs & Hc); exists srcs; (split; [apply (formatted_sources _ _ _ H); exact Hs|exact Hc]).
Qed.

(** ** All results, if the files are in the grammar *)
Lemma opens_det junk i f f' : opens junk i f -> opens junk i f' -> f' = f.
Proof.
  intros H H'. destruct H as [path contents Hp|path m Hp|path text m stdin items Hp Hi];
    inversion H' as [? ? Hp'|? ? Hp'|? ? ? ? ? Hp' Hi']; subst; try congruence.
  rewrite Hp in Hp'. injection Hp' as <- _. f_equal. eapply results_det; eassumption.
Qed.
Lemma opens_all_det junk inputs : forall files files', Forall2 (opens junk) inputs files -> Forall2 (opens junk) inputs files' -> files' = files.
Proof.
  induction inputs as [|i inputs IH]; intros files files' H H'; inversion H; inversion H'; subst; [reflexivity|].
  f_equal; [eapply opens_det; eassumption|apply IH; assumption].
Qed.
Lemma sources_files junk srcs : exists files, forall inputs, Forall2 (source_of junk) inputs srcs -> Forall2 (opens junk) inputs files.
Proof.
  exists (map (fun src => (Ok (fst src), map Ok (map scope_command (snd src)))) srcs). intros inputs H.
  induction H as [|[path contents] [m cs] inputs srcs H _ IH]; [constructor|]. cbn [map fst snd]. constructor; [|exact IH].
  destruct H as (text & toks & Ht & Hm & Hr & Hg). cbn in Ht, Hm, Hg. subst contents. apply MainPath.main_module_path in Hm.
  eapply opens_text; [unfold ModelPath.path_read; rewrite Hm; reflexivity|]. apply parse_text_source. eauto.
Qed.
Lemma main_same_sources junk K o channel inputs inputs' srcs r : Forall2 (source_of junk) inputs srcs -> Forall2 (source_of junk) inputs' srcs ->
  (kocheck junk K o channel inputs r <-> kocheck junk K o channel inputs' r).
Proof.
  intros H H'. destruct (sources_files junk srcs) as [files Hf]. apply Hf in H, H'.
  split; intros (fs & X & Y); [rewrite (opens_all_det _ _ _ _ H X) in Y|rewrite (opens_all_det _ _ _ _ H' X) in Y]; exists files; auto.
Qed.
Lemma main_format_verdict junk K o channel inputs inputs' srcs r : Forall2 (formatted junk) inputs inputs' -> Forall2 (source_of junk) inputs srcs ->
  (kocheck junk K o channel inputs r <-> kocheck junk K o channel inputs' r).
Proof. intros H Hs. eapply main_same_sources; [exact Hs|]. apply (formatted_sources _ _ _ H). exact Hs. Qed.

(** ** koweb *)
Lemma web_formatted_produce junk m m' evs : web_formatted junk m m' -> (web_produce junk m evs <-> web_produce junk m' evs).
Proof.
  destruct m as [n text], m' as [n' text']. intros [E H]. cbn in E, H. subst n'. apply formats_lex in H.
  assert (S : @strict_new atom junk text' = strict_new junk text) by (unfold strict_new; rewrite H; reflexivity).
  split; intros X; inversion X as [? ? items Hi]; subst; constructor; [rewrite S|rewrite S in Hi]; exact Hi.
Qed.
Lemma main_format_web junk K o modules modules' r : Forall2 (web_formatted junk) modules modules' ->
  (web_check junk K o modules r <-> web_check junk K o modules' r).
Proof.
  intros H. unfold web_check.
  assert (X : forall evss, Forall2 (web_produce junk) modules evss <-> Forall2 (web_produce junk) modules' evss).
  { induction H as [|m m' ms ms' H _ IH]; intros evss; [reflexivity|].
    split; intros X; inversion X; subst; (constructor; [apply (web_formatted_produce _ _ _ _ H); assumption|apply IH; assumption]). }
  split; intros (evss & H1 & H2); exists evss; (split; [apply X; exact H1|exact H2]).
Qed.
