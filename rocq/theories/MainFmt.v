(** * Printing and reading again *)

From Verif Require Import Base ModelSyntax ModelCommand ModelLex ModelParse ModelFmt ParseAuto
  SpecParse SpecSyntax ParseLex ParseTerm ParseCmd ParsePrint.

(** ** Token formatting *)
Section Fmt.
Variable junk : str -> nat.

Lemma valid_part_head p : valid_part p -> exists c t, p = c :: t /\ (ident_head c = true \/ c = "{"%char).
Proof.
  intros [(c & t & -> & Hc & _)%ident_iff|(inner & -> & _)]; [eauto 6|].
  exists "{"%char, ("|"%char :: inner ++ $"|}"). auto.
Qed.
Lemma valid_symb_head s : valid_symb s -> exists c t, symb_show s = c :: t /\ (ident_head c = true \/ c = "{"%char).
Proof.
  destruct s as [[|p path] name]; unfold valid_symb; cbn [sy_path sy_name].
  - intros [H _]. exact (valid_part_head _ H).
  - intros ([H _] & _ & _). destruct (valid_part_head _ H) as (c & t & -> & Hc).
    rewrite symb_show_dotted. cbn [app]. eauto.
Qed.

Lemma show_head t w : token_show t = Some w -> valid_tok t -> exists c w', w = c :: w' /\ c <> ";"%char.
Proof.
  intros Hw Hv. destruct t; try contradiction; injection Hw as <-;
    try (eexists; eexists; split; [reflexivity|discriminate]).
  destruct (valid_symb_head _ Hv) as (c & t & -> & Hc). exists c, t. split; [reflexivity|].
  intros ->. destruct Hc; discriminate.
Qed.

Lemma valid_show t : valid_tok t -> exists w, token_show t = Some w.
Proof. destruct t; try contradiction; cbn; eauto. Qed.

(** every token ends before white space, a closing bracket, a comma or the end of the text *)
Definition stop (r : str) : Prop := forall t, follows t r.

Lemma stop_char c r : ident_tail c = false -> c <> "."%char -> c <> "="%char -> c <> ";"%char -> stop (c :: r).
Proof.
  intros H1 H2 H3 H4 t.
  destruct t; cbn; auto; try congruence. split; [exact H1|].
  unfold next_part. destruct c as [[] [] [] [] [] [] [] []]; try reflexivity; congruence.
Qed.
Lemma stop_nil : stop [].
Proof. intros t. destruct t; cbn; auto; discriminate. Qed.
Lemma stop_dot_nl r : stop ("."%char :: "010"%char :: r).
Proof. intros t. destruct t; cbn; auto; discriminate. Qed.
Lemma stop_dot : stop ["."%char].
Proof. intros t. destruct t; cbn; auto; discriminate. Qed.

Lemma print_ok toks : Forall valid_tok toks -> forall sp, exists out, print_tokens_ sp toks = Ok out.
Proof.
  intros H. induction H as [|t toks Ht H IH]; intros sp; cbn [print_tokens_]; [eauto|].
  destruct (valid_show t Ht) as [w Hw]. unfold print_token. rewrite Hw.
  destruct (IH (negb (no_space_after t))) as [out ->]. eauto.
Qed.

Lemma print_next toks out : Forall valid_tok toks -> print_tokens_ true toks = Ok out -> stop out.
Proof.
  intros H. destruct H as [|t toks Ht H]; cbn [print_tokens_]; [intros [= <-]; apply stop_nil|].
  destruct (valid_show t Ht) as [w Hw]. unfold print_token. rewrite Hw.
  destruct (print_tokens_ (negb (no_space_after t)) toks) as [out'| | |]; try discriminate. intros [= <-].
  destruct t; try contradiction; cbn [no_space_before andb negb];
    try (apply stop_char; [reflexivity|discriminate|discriminate|discriminate]);
    injection Hw as <-;
    try (apply stop_char; [reflexivity|discriminate|discriminate|discriminate]).
  apply stop_dot_nl.
Qed.

Lemma print_first toks out : Forall valid_tok toks -> print_tokens_ false toks = Ok out -> headed out <> Some ";"%char.
Proof.
  intros H. destruct H as [|t toks Ht H]; cbn [print_tokens_]; [intros [= <-]; discriminate|].
  destruct (valid_show t Ht) as [w Hw]. unfold print_token. rewrite Hw.
  destruct (print_tokens_ (negb (no_space_after t)) toks) as [out'| | |]; try discriminate. intros [= <-].
  destruct (show_head t w Hw Ht) as (c & w' & -> & Hc). cbn. congruence.
Qed.

Lemma relex toks : Forall valid_tok toks -> forall sp out, print_tokens_ sp toks = Ok out -> lex junk out = toks.
Proof.
  intros H. induction H as [|t toks Ht H IH]; intros sp out; cbn [print_tokens_]; [intros [= <-]; reflexivity|].
  destruct (valid_show t Ht) as [w Hw]. unfold print_token. rewrite Hw.
  destruct (print_tokens_ (negb (no_space_after t)) toks) as [out'| | |] eqn:E; try discriminate. intros [= <-].
  assert (HL : lex junk ((w ++ match t with TDot => ["010"%char] | _ => [] end) ++ out') = t :: toks).
  { rewrite <- app_assoc. specialize (IH _ _ E). rewrite <- IH.
    destruct t; try contradiction; cbn [app];
      try (apply lex_show; [exact Hw|exact Ht|]; cbn [no_space_after negb] in E;
           try exact I;
           first [apply (print_next _ _ H E) with (t := TDef) | apply (print_next _ _ H E) with (t := TColon)
                 | apply (print_first _ _ H E) | apply (print_next _ _ H E) with (t := TSymb s)]).
    apply lex_show_space; [exact Hw|exact Ht|reflexivity]. }
  destruct (sp && negb (no_space_before t)).
  - rewrite <- HL. rewrite <- !app_assoc. exact (lex_white junk " "%char _ eq_refl).
  - exact HL.
Qed.

Lemma main_fmt s out : (forall t, In t (lex junk s) -> t <> TError /\ forall n, t <> TComment n) ->
  print_tokens (lex junk s) = Ok out -> lex junk out = lex junk s /\ print_tokens (lex junk out) = Ok out.
Proof.
  intros Hs Hp.
  assert (Hv : Forall valid_tok (lex junk s)).
  { apply Forall_forall. intros t Ht. destruct (Hs t Ht) as [H1 H2].
    pose proof (proj1 (Forall_forall _ _) (lex_lexed junk s) t Ht) as H3.
    destruct t; cbn in *; auto. exact (H2 open eq_refl). }
  pose proof (relex _ Hv _ _ Hp) as E. split; [exact E|]. rewrite E. exact Hp.
Qed.

Lemma main_fmt_total s : (forall t, In t (lex junk s) -> t <> TError /\ forall n, t <> TComment n) ->
  exists out, print_tokens (lex junk s) = Ok out.
Proof.
  intros Hs. apply print_ok. apply Forall_forall. intros t Ht. destruct (Hs t Ht) as [H1 H2].
  pose proof (proj1 (Forall_forall _ _) (lex_lexed junk s) t Ht) as H3.
  destruct t; cbn in *; auto. exact (H2 open eq_refl).
Qed.

(** ** Terms *)
(** [lexp w ts]: the text [w] is read as the tokens [ts], whatever follows *)
Definition lexp (w : str) (ts : list token) : Prop := forall r, stop r -> lex junk (w ++ r) = ts ++ lex junk r.

Lemma lexp_nil : lexp [] [].
Proof. intros r _. reflexivity. Qed.
Lemma lexp_tok t w : token_show t = Some w -> valid_tok t -> lexp w [t].
Proof. intros H1 H2 r Hr. apply lex_show; auto. Qed.
Lemma lexp_app w1 ts1 w2 ts2 : lexp w1 ts1 -> lexp w2 ts2 -> (forall r, stop r -> stop (w2 ++ r)) ->
  lexp (w1 ++ w2) (ts1 ++ ts2).
Proof. intros H1 H2 H3 r Hr. rewrite <- !app_assoc. rewrite H1 by auto. rewrite H2 by exact Hr. reflexivity. Qed.
Lemma lexp_sp w ts : lexp w ts -> lexp ($" " ++ w) ts.
Proof.
  intros H r Hr. change (($" " ++ w) ++ r) with (" "%char :: w ++ r). rewrite lex_white by reflexivity. auto.
Qed.
(** an operator between spaces *)
Lemma lexp_op t o w ts : token_show t = Some o -> valid_tok t -> lexp w ts -> lexp ($" " ++ o ++ $" " ++ w) (t :: ts).
Proof.
  intros H1 H2 H r Hr. rewrite <- !app_assoc. change ($" " ++ o ++ $" " ++ w ++ r) with (" "%char :: o ++ " "%char :: w ++ r).
  rewrite lex_white by reflexivity. rewrite (lex_show_space junk t o " "%char (w ++ r) H1 H2 eq_refl). rewrite H by exact Hr. reflexivity.
Qed.
Lemma lexp_lpar w ts : lexp w ts -> (forall r, headed (w ++ r) <> Some ";"%char) -> lexp ($"(" ++ w) (TLPar :: ts).
Proof.
  intros H Hh r Hr. change (($"(" ++ w) ++ r) with ($"(" ++ w ++ r).
  rewrite (lex_show junk TLPar ($"(") (w ++ r) eq_refl I (Hh r)). rewrite H by exact Hr. reflexivity.
Qed.
Lemma lexp_symb s : valid_symb s -> lexp (symb_show s) [TSymb s].
Proof. intros H. apply lexp_tok; [reflexivity|exact H]. Qed.
Lemma lexp_name x : valid_name x -> lexp x [name_tok x].
Proof. intros H. apply (lexp_symb (symb_new x)). exact H. Qed.

Lemma stop_sp w r : stop (($" " ++ w) ++ r).
Proof. apply stop_char; [reflexivity|discriminate|discriminate|discriminate]. Qed.
Lemma stop_rpar r : stop ($")" ++ r).
Proof. apply stop_char; [reflexivity|discriminate|discriminate|discriminate]. Qed.

Lemma good_all args :
  (fix all args := match args with [] => True | a :: args => good_term a /\ all args end) args <-> Forall good_term args.
Proof.
  induction args as [|a args IH]; [split; auto|]. rewrite IH. split.
  - intros [H1 H2]. constructor; assumption.
  - intros H. inversion H. auto.
Qed.

Fixpoint term_toks (t : pterm symb) : list token :=
  let '(PTm h args) := t in
  let head :=
    match h with
    | HAtom a => [TSymb a]
    | HAbst x (Some ty) tm => TLPar :: name_tok x :: TColon :: term_toks ty ++ TFatArrow :: term_toks tm ++ [TRPar]
    | HAbst x None tm => TLPar :: name_tok x :: TFatArrow :: term_toks tm ++ [TRPar]
    | HProd None ty tm => TLPar :: term_toks ty ++ TArrow :: term_toks tm ++ [TRPar]
    | HProd (Some x) ty tm => TLPar :: name_tok x :: TColon :: term_toks ty ++ TArrow :: term_toks tm ++ [TRPar]
    end in
  match args with
  | [] => head
  | _ :: _ => TLPar :: head ++ flat_map term_toks args ++ [TRPar]
  end.

Lemma term_head t : good_term t -> exists c w, term_show symb_show t = c :: w /\ c <> ";"%char.
Proof.
  destruct t as [h args]. intros [Hh _].
  assert (G : exists c w, (match h with
    | HAtom a => symb_show a
    | HAbst x (Some ty) tm => $"(" ++ x ++ $" : " ++ term_show symb_show ty ++ $" => " ++ term_show symb_show tm ++ $")"
    | HAbst x None tm => $"(" ++ x ++ $" => " ++ term_show symb_show tm ++ $")"
    | HProd None ty tm => $"(" ++ term_show symb_show ty ++ $" -> " ++ term_show symb_show tm ++ $")"
    | HProd (Some x) ty tm => $"(" ++ x ++ $" : " ++ term_show symb_show ty ++ $" -> " ++ term_show symb_show tm ++ $")"
    end) = c :: w /\ c <> ";"%char).
  { destruct h as [s|x [ty|] tm|[x|] ty tm];
      try (eexists; eexists; split; [reflexivity|discriminate]).
    destruct (valid_symb_head s Hh) as (c & w & -> & Hc). exists c, w. split; [reflexivity|].
    intros ->. destruct Hc; discriminate. }
  cbn [term_show]. destruct args; [exact G|]. eexists. eexists. split; [reflexivity|discriminate].
Qed.
Lemma name_head x : valid_name x -> exists c w, x = c :: w /\ c <> ";"%char.
Proof.
  intros [H _]. destruct (valid_part_head x H) as (c & w & -> & Hc). exists c, w. split; [reflexivity|].
  intros ->. destruct Hc; discriminate.
Qed.

Lemma lexp_close w ts : lexp w ts -> lexp (w ++ $")") (ts ++ [TRPar]).
Proof.
  intros H. apply lexp_app; [exact H|apply lexp_tok; [reflexivity|exact I]|]. intros r _. apply stop_rpar.
Qed.
(** [w1 op w2] *)
Lemma lexp_bin w1 ts1 t o w2 ts2 : lexp w1 ts1 -> token_show t = Some o -> valid_tok t -> lexp w2 ts2 ->
  lexp (w1 ++ $" " ++ o ++ $" " ++ w2) (ts1 ++ t :: ts2).
Proof.
  intros H1 Ho Hv H2. apply lexp_app; [exact H1|apply lexp_op; assumption|]. intros r _. apply stop_sp.
Qed.

Ltac heads := intros ?r; match goal with H : exists c w, ?x = c :: w /\ _ |- _ =>
    destruct H as (? & ? & -> & ?); cbn; congruence end.

Lemma lexp_term t : good_term t -> lexp (term_show symb_show t) (term_toks t).
Proof.
  induction t as [h args Hh Ha] using pterm_ind'. intros [Gh Ga]. apply good_all in Ga.
  cbn [term_show term_toks].
  set (hw := match h with HAtom a => symb_show a | _ => _ end).
  set (ht := match h with HAtom a => [TSymb a] | _ => _ end).
  assert (HH : lexp hw ht /\ exists c w, hw = c :: w /\ c <> ";"%char).
  { destruct (term_head (PTm h []) (conj Gh I)) as (c & w & E & Hc).
    split; [|exists c, w; split; [exact E|exact Hc]]. clear c w E Hc. subst hw ht.
    destruct h as [s|x [ty|] tm|[x|] ty tm]; cbn in Hh.
    - apply lexp_symb. exact Gh.
    - destruct Gh as (G1 & G2 & G3). destruct Hh as [H1 H2]. pose proof (name_head x G1) as Hx.
      apply lexp_lpar; [|heads].
      change ($" : " ++ term_show symb_show ty ++ $" => " ++ term_show symb_show tm ++ $")")
        with ($" " ++ $":" ++ $" " ++ term_show symb_show ty ++ $" " ++ $"=>" ++ $" " ++ term_show symb_show tm ++ $")").
      apply (lexp_bin x [name_tok x] TColon); [apply lexp_name; exact G1|reflexivity|exact I|].
      apply lexp_bin; [apply H1; exact G2|reflexivity|exact I|]. apply lexp_close. apply H2. exact G3.
    - destruct Gh as (G1 & _ & G3). destruct Hh as [_ H2]. pose proof (name_head x G1) as Hx.
      apply lexp_lpar; [|heads].
      change ($" => " ++ term_show symb_show tm ++ $")")
        with ($" " ++ $"=>" ++ $" " ++ term_show symb_show tm ++ $")").
      apply (lexp_bin x [name_tok x] TFatArrow); [apply lexp_name; exact G1|reflexivity|exact I|].
      apply lexp_close. apply H2. exact G3.
    - destruct Gh as (G1 & G2 & G3). destruct Hh as [H1 H2]. pose proof (name_head x G1) as Hx.
      apply lexp_lpar; [|heads].
      change ($" : " ++ term_show symb_show ty ++ $" -> " ++ term_show symb_show tm ++ $")")
        with ($" " ++ $":" ++ $" " ++ term_show symb_show ty ++ $" " ++ $"->" ++ $" " ++ term_show symb_show tm ++ $")").
      apply (lexp_bin x [name_tok x] TColon); [apply lexp_name; exact G1|reflexivity|exact I|].
      apply lexp_bin; [apply H1; exact G2|reflexivity|exact I|]. apply lexp_close. apply H2. exact G3.
    - destruct Gh as (_ & G2 & G3). destruct Hh as [H1 H2]. pose proof (term_head ty G2) as Hx.
      apply lexp_lpar; [|heads].
      change ($" -> " ++ term_show symb_show tm ++ $")")
        with ($" " ++ $"->" ++ $" " ++ term_show symb_show tm ++ $")").
      apply lexp_bin; [apply H1; exact G2|reflexivity|exact I|]. apply lexp_close. apply H2. exact G3. }
  destruct HH as [HH Hx]. destruct args as [|a0 args0] eqn:Ea; [exact HH|]. rewrite <- Ea in *. clear a0 args0 Ea.
  apply lexp_lpar; [|heads].
  assert (HA : lexp (flat_map (fun a => $" " ++ term_show symb_show a) args ++ $")") (flat_map term_toks args ++ [TRPar])
    /\ forall r, stop ((flat_map (fun a => $" " ++ term_show symb_show a) args ++ $")") ++ r)).
  { clear Hx HH hw ht Gh Hh h. induction args as [|a args IH].
    - cbn [flat_map app]. split; [apply lexp_tok; [reflexivity|exact I]|]. intros r. apply stop_rpar.
    - inversion Ga; subst. inversion Ha; subst. destruct IH as [IH1 IH2]; auto. cbn [flat_map].
      rewrite <- !app_assoc. split.
      + apply lexp_sp. apply lexp_app; auto.
      + intros r. rewrite <- !app_assoc. rewrite <- (app_nil_r ($" " ++ _)). apply stop_sp. }
  apply lexp_app; [exact HH|exact (proj1 HA)|]. intros r _. apply (proj2 HA).
Qed.

Lemma gatom_args args : Forall (fun a => gatom (term_toks a) a) args -> forall ts h as0, gapp ts (PTm h as0) ->
  gapp (ts ++ flat_map term_toks args) (PTm h (as0 ++ args)).
Proof.
  intros H. induction H as [|a args Ha H IH]; intros ts h as0 Ht; cbn [flat_map].
  - rewrite !app_nil_r. exact Ht.
  - rewrite app_assoc. replace (as0 ++ a :: args) with ((as0 ++ [a]) ++ args) by (rewrite <- app_assoc; reflexivity).
    apply IH. exact (ga_more _ _ _ _ Ht Ha).
Qed.

Lemma gatom_term t : gatom (term_toks t) t.
Proof.
  induction t as [h args Hh Ha] using pterm_ind'. cbn [term_toks].
  set (ht := match h with HAtom a => [TSymb a] | _ => _ end).
  assert (HH : gatom ht (PTm h [])).
  { subst ht. destruct h as [s|x [ty|] tm|[x|] ty tm]; cbn in Hh.
    - constructor.
    - destruct Hh as [H1 H2].
      replace (TLPar :: name_tok x :: TColon :: term_toks ty ++ TFatArrow :: term_toks tm ++ [TRPar])
        with (TLPar :: (name_tok x :: TColon :: term_toks ty ++ TFatArrow :: term_toks tm) ++ [TRPar]) by listeq.
      apply gat_par. apply g_abs_of; [apply ga_one; exact H1|]. apply g_app. apply ga_one. exact H2.
    - destruct Hh as [_ H2].
      change (TLPar :: name_tok x :: TFatArrow :: term_toks tm ++ [TRPar])
        with (TLPar :: (name_tok x :: TFatArrow :: term_toks tm) ++ [TRPar]).
      apply gat_par. apply g_abs. apply g_app. apply ga_one. exact H2.
    - destruct Hh as [H1 H2].
      replace (TLPar :: name_tok x :: TColon :: term_toks ty ++ TArrow :: term_toks tm ++ [TRPar])
        with (TLPar :: (name_tok x :: TColon :: term_toks ty ++ TArrow :: term_toks tm) ++ [TRPar]) by listeq.
      apply gat_par. apply g_prod_of; [apply ga_one; exact H1|]. apply g_app. apply ga_one. exact H2.
    - destruct Hh as [H1 H2].
      replace (TLPar :: term_toks ty ++ TArrow :: term_toks tm ++ [TRPar])
        with (TLPar :: (term_toks ty ++ TArrow :: term_toks tm) ++ [TRPar]) by listeq.
      apply gat_par. apply g_prod; [apply ga_one; exact H1|]. apply g_app. apply ga_one. exact H2. }
  destruct args as [|a0 args0] eqn:Ea; [exact HH|]. rewrite <- Ea in *. clear a0 args0 Ea.
  rewrite app_assoc. apply gat_par. apply g_app.
  apply (gatom_args args Ha ht h []). apply ga_one. exact HH.
Qed.
Lemma gterm_toks t : gterm (term_toks t) t.
Proof. apply g_app. apply ga_one. apply gatom_term. Qed.

(** ** Commands *)
Definition args_toks (args : list (str * pterm symb)) : list token :=
  flat_map (fun a => TLPar :: name_tok (fst a) :: TColon :: term_toks (snd a) ++ [TRPar]) args.
Definition opt_toks (t : token) (ty : option (pterm symb)) : list token :=
  match ty with Some ty => t :: term_toks ty | None => [] end.
Fixpoint vars_toks (ctx : list (str * option (pterm symb))) : list token :=
  match ctx with
  | [] => []
  | (x, ty) :: ctx =>
      name_tok x :: opt_toks TColon ty ++ (match ctx with [] => [] | _ :: _ => [TComma] end) ++ vars_toks ctx
  end.
Definition rule_toks (r : prule_ (pterm symb)) : list token :=
  TLBrk :: vars_toks (pr_ctx r) ++ TRBrk :: term_toks (pr_lhs r) ++ TLongArrow :: term_toks (pr_rhs r).
Definition intro_toks (it : intro_ (pterm symb) (pterm symb)) : list token :=
  match it with
  | IDefinition ty tm => opt_toks TColon ty ++ opt_toks TColonEq tm
  | ITheorem ty tm => TColon :: term_toks ty ++ TColonEq :: term_toks tm
  | IDeclaration _ ty => TColon :: term_toks ty
  end.
Definition intro_pre (it : intro_ (pterm symb) (pterm symb)) : list token :=
  match it with
  | ITheorem _ _ => [TThm]
  | IDefinition _ _ => [TDef]
  | IDeclaration true _ => [TInj]
  | IDeclaration false _ => []
  end.
Definition cmd_toks (c : pcommand (pterm symb)) : list token :=
  match c with
  | PIntro x args it => intro_pre it ++ name_tok x :: args_toks args ++ intro_toks it
  | PRules rules => flat_map rule_toks rules
  end.

(** text that starts with a character that ends every token *)
Definition stops (w : str) : Prop := forall r, stop r -> stop (w ++ r).
Lemma stops_nil : stops [].
Proof. intros r H. exact H. Qed.
Lemma stops_sp w : stops ($" " ++ w).
Proof. intros r _. apply stop_sp. Qed.
Lemma stops_char c w : ident_tail c = false -> c <> "."%char -> c <> "="%char -> c <> ";"%char -> stops (c :: w).
Proof. intros H1 H2 H3 H4 r _. apply stop_char; assumption. Qed.
Lemma stops_app w1 w2 : stops w1 -> stops w2 -> stops (w1 ++ w2).
Proof. intros H1 H2 r Hr. rewrite <- app_assoc. auto. Qed.

Lemma lexp_opt t o ty : token_show t = Some o -> valid_tok t -> good_opt ty ->
  lexp (opt_show (term_show symb_show) ($" " ++ o ++ $" ") ty) (opt_toks t ty) /\
  stops (opt_show (term_show symb_show) ($" " ++ o ++ $" ") ty).
Proof.
  intros H1 H2 H3. destruct ty as [ty|]; cbn [opt_show opt_toks].
  - replace (($" " ++ o ++ $" ") ++ term_show symb_show ty) with ($" " ++ o ++ $" " ++ term_show symb_show ty)
      by (rewrite <- !app_assoc; reflexivity).
    split; [|apply stops_sp]. apply lexp_op; [exact H1|exact H2|]. apply lexp_term. exact H3.
  - split; [apply lexp_nil|apply stops_nil].
Qed.

Lemma lexp_args args : Forall good_arg args ->
  lexp (flat_map (fun a => $" (" ++ fst a ++ $" : " ++ term_show symb_show (snd a) ++ $")") args) (args_toks args)
  /\ stops (flat_map (fun a => $" (" ++ fst a ++ $" : " ++ term_show symb_show (snd a) ++ $")") args).
Proof.
  intros H. induction H as [|[x ty] args [Hx Ht] H [IH1 IH2]]; [split; [apply lexp_nil|apply stops_nil]|].
  cbn [fst snd] in *. unfold args_toks. cbn [flat_map fst snd]. fold (args_toks args). split.
  - apply (lexp_app _ (TLPar :: name_tok x :: TColon :: term_toks ty ++ [TRPar])); [|exact IH1|exact IH2].
    change ($" (" ++ x ++ $" : " ++ term_show symb_show ty ++ $")")
      with ($" " ++ $"(" ++ x ++ $" " ++ $":" ++ $" " ++ term_show symb_show ty ++ $")").
    apply lexp_sp. pose proof (name_head x Hx) as Hh. apply lexp_lpar; [|heads].
    apply (lexp_bin x [name_tok x] TColon); [apply lexp_name; exact Hx|reflexivity|exact I|].
    apply lexp_close. apply lexp_term. exact Ht.
  - change ($" (" ++ x ++ $" : " ++ term_show symb_show ty ++ $")")
      with ($" " ++ $"(" ++ x ++ $" : " ++ term_show symb_show ty ++ $")"). rewrite <- app_assoc. apply stops_sp.
Qed.

(** tokens that end at any character *)
Lemma lexp_any t w w2 ts2 : token_show t = Some w -> valid_tok t -> (forall r, follows t r) -> lexp w2 ts2 ->
  lexp (w ++ w2) (t :: ts2).
Proof.
  intros H1 H2 H3 H r Hr. rewrite <- app_assoc. rewrite (lex_show junk t w (w2 ++ r) H1 H2 (H3 _)). rewrite H by exact Hr.
  reflexivity.
Qed.

Lemma lexp_colon ty : good_opt ty ->
  lexp (opt_show (term_show symb_show) ($": ") ty) (opt_toks TColon ty) /\ stops (opt_show (term_show symb_show) ($": ") ty).
Proof.
  intros H. destruct ty as [ty|]; cbn [opt_show opt_toks]; [|split; [apply lexp_nil|apply stops_nil]].
  split; [|apply stops_char; [reflexivity|discriminate|discriminate|discriminate]].
  intros r Hr. change (($": " ++ term_show symb_show ty) ++ r) with ($":" ++ " "%char :: term_show symb_show ty ++ r).
  rewrite (lex_show_space junk TColon _ " "%char _ eq_refl I eq_refl). rewrite (lexp_term ty H) by exact Hr. reflexivity.
Qed.

Lemma lexp_vars ctx : Forall good_var ctx -> lexp (vars_show (term_show symb_show) ctx) (vars_toks ctx).
Proof.
  intros H. induction H as [|[x ty] ctx [Hx Ht] H IH]; [apply lexp_nil|]. cbn [fst snd] in *.
  cbn [vars_show vars_toks]. destruct (lexp_colon ty Ht) as [H1 H2].
  apply (lexp_app x [name_tok x]); [apply lexp_name; exact Hx| |].
  - apply lexp_app; [exact H1| |].
    + destruct ctx as [|v ctx]; [exact IH|].
      intros r Hr. rewrite <- !app_assoc.
      change ($", " ++ vars_show (term_show symb_show) (v :: ctx) ++ r)
        with ($"," ++ " "%char :: vars_show (term_show symb_show) (v :: ctx) ++ r).
      rewrite (lex_show_space junk TComma _ " "%char _ eq_refl I eq_refl). rewrite IH by exact Hr. reflexivity.
    + destruct ctx as [|v ctx]; [intros r Hr; exact Hr|]. apply stops_char; [reflexivity|discriminate|discriminate|discriminate].
  - apply stops_app; [exact H2|]. destruct ctx as [|v ctx]; [intros r Hr; exact Hr|].
    apply stops_char; [reflexivity|discriminate|discriminate|discriminate].
Qed.

Lemma lexp_rule r : good_rule r -> lexp (rule_show (term_show symb_show) r) (rule_toks r).
Proof.
  intros (H1 & H2 & H3). unfold rule_show, rule_toks.
  apply (lexp_any TLBrk); [reflexivity|exact I|intros; exact I|].
  apply lexp_app; [apply lexp_vars; exact H1| |apply stops_char; [reflexivity|discriminate|discriminate|discriminate]].
  intros x Hx.
  change (($"] " ++ term_show symb_show (pr_lhs r) ++ $" --> " ++ term_show symb_show (pr_rhs r)) ++ x)
    with ($"]" ++ ($" " ++ term_show symb_show (pr_lhs r) ++ $" " ++ $"-->" ++ $" " ++ term_show symb_show (pr_rhs r)) ++ x).
  rewrite (lex_show junk TRBrk ($"]") _ eq_refl I I). cbn [app]. f_equal.
  apply (lexp_sp _ (term_toks (pr_lhs r) ++ TLongArrow :: term_toks (pr_rhs r))); [|exact Hx].
  apply lexp_bin; [apply lexp_term; exact H2|reflexivity|exact I|apply lexp_term; exact H3].
Qed.

Lemma stops_rules rules : stops (flat_map (rule_show (term_show symb_show)) rules).
Proof.
  destruct rules as [|r rules]; [apply stops_nil|]. cbn [flat_map]. unfold rule_show at 1. rewrite <- !app_assoc.
  apply stops_char; [reflexivity|discriminate|discriminate|discriminate].
Qed.

Lemma lexp_cmd c : good_command c -> lexp (cmd_show (term_show symb_show) c) (cmd_toks c).
Proof.
  destruct c as [x args it|rules]; cbn [good_command cmd_show cmd_toks].
  - intros (Hx & Ha & Hi). destruct (lexp_args args Ha) as [A1 A2].
    assert (HI : exists w, w = (match it with
         | IDefinition ty tm => opt_show (term_show symb_show) ($" : ") ty ++ opt_show (term_show symb_show) ($" := ") tm
         | ITheorem ty tm => $" : " ++ term_show symb_show ty ++ $" := " ++ term_show symb_show tm
         | IDeclaration _ ty => $" : " ++ term_show symb_show ty
         end) /\ lexp w (intro_toks it) /\ stops w).
    { eexists. split; [reflexivity|]. destruct it as [ty tm|ty tm|inj ty]; cbn [intro_toks good_intro] in *.
      - destruct Hi as (H1 & H2 & _).
        destruct (lexp_opt TColon ($":") ty eq_refl I H1) as [B1 B2].
        destruct (lexp_opt TColonEq ($":=") tm eq_refl I H2) as [C1 C2].
        split; [apply lexp_app; assumption|apply stops_app; assumption].
      - destruct Hi as (H1 & H2). split; [|apply stops_sp with (w := $": " ++ _)].
        change ($" : " ++ term_show symb_show ty ++ $" := " ++ term_show symb_show tm)
          with ($" " ++ $":" ++ $" " ++ term_show symb_show ty ++ $" " ++ $":=" ++ $" " ++ term_show symb_show tm).
        apply lexp_op; [reflexivity|exact I|]. apply lexp_bin; [apply lexp_term; exact H1|reflexivity|exact I|apply lexp_term; exact H2].
      - split; [|apply stops_sp with (w := $": " ++ _)].
        apply (lexp_op TColon ($":")); [reflexivity|exact I|apply lexp_term; exact Hi]. }
    destruct HI as (w & <- & I1 & I2).
    assert (HB : lexp (x ++ flat_map (fun a => $" (" ++ fst a ++ $" : " ++ term_show symb_show (snd a) ++ $")") args ++ w)
                      (name_tok x :: args_toks args ++ intro_toks it)).
    { apply (lexp_app x [name_tok x]); [apply lexp_name; exact Hx| |apply stops_app; assumption].
      apply lexp_app; assumption. }
    destruct it as [ty tm|ty tm|[|] ty]; cbn [intro_pre app]; [| | |exact HB].
    + intros r Hr. rewrite <- app_assoc.
      change ($"def " ++ (x ++ flat_map (fun a => $" (" ++ fst a ++ $" : " ++ term_show symb_show (snd a) ++ $")") args ++ w) ++ r)
        with ($"def" ++ " "%char :: (x ++ flat_map (fun a => $" (" ++ fst a ++ $" : " ++ term_show symb_show (snd a) ++ $")") args ++ w) ++ r).
      rewrite (lex_show_space junk TDef _ " "%char _ eq_refl I eq_refl). rewrite HB by exact Hr. reflexivity.
    + intros r Hr. rewrite <- app_assoc.
      change ($"thm " ++ (x ++ flat_map (fun a => $" (" ++ fst a ++ $" : " ++ term_show symb_show (snd a) ++ $")") args ++ w) ++ r)
        with ($"thm" ++ " "%char :: (x ++ flat_map (fun a => $" (" ++ fst a ++ $" : " ++ term_show symb_show (snd a) ++ $")") args ++ w) ++ r).
      rewrite (lex_show_space junk TThm _ " "%char _ eq_refl I eq_refl). rewrite HB by exact Hr. reflexivity.
    + intros r Hr. rewrite <- app_assoc.
      change ($"injective " ++ (x ++ flat_map (fun a => $" (" ++ fst a ++ $" : " ++ term_show symb_show (snd a) ++ $")") args ++ w) ++ r)
        with ($"injective" ++ " "%char :: (x ++ flat_map (fun a => $" (" ++ fst a ++ $" : " ++ term_show symb_show (snd a) ++ $")") args ++ w) ++ r).
      rewrite (lex_show_space junk TInj _ " "%char _ eq_refl I eq_refl). rewrite HB by exact Hr. reflexivity.
  - intros [_ H]. induction H as [|r rules Hr H IH]; [apply lexp_nil|]. cbn [flat_map].
    apply lexp_app; [apply lexp_rule; exact Hr|exact IH|apply stops_rules].
Qed.

(** ** The printed command is derived by the grammar *)
Lemma gargs_toks args : gargs (args_toks args) args.
Proof.
  induction args as [|[x ty] args IH]; [constructor|]. unfold args_toks. cbn [flat_map fst snd]. fold (args_toks args).
  cbn [app]. rewrite <- app_assoc. cbn [app]. constructor; [apply gterm_toks|exact IH].
Qed.
Lemma gvars_toks ctx : gvars (vars_toks ctx ++ [TRBrk]) ctx.
Proof.
  induction ctx as [|[x ty] ctx IH]; [constructor|]. cbn [vars_toks].
  assert (Hv : gvar (name_tok x :: opt_toks TColon ty) (x, ty)).
  { destruct ty as [ty|]; constructor. apply gterm_toks. }
  destruct ctx as [|v ctx].
  - cbn [app vars_toks]. rewrite app_nil_r. apply (gvars_last (name_tok x :: opt_toks TColon ty)). exact Hv.
  - replace ((name_tok x :: opt_toks TColon ty ++ [TComma] ++ vars_toks (v :: ctx)) ++ [TRBrk])
      with ((name_tok x :: opt_toks TColon ty) ++ TComma :: (vars_toks (v :: ctx) ++ [TRBrk])) by listeq.
    apply gvars_more; assumption.
Qed.
Lemma grules_toks rules : rules <> [] -> grules (flat_map rule_toks rules ++ [TDot]) rules.
Proof.
  induction rules as [|[ctx l r] rules IH]; [congruence|]. intros _. cbn [flat_map]. unfold rule_toks at 1. cbn [pr_ctx pr_lhs pr_rhs].
  destruct rules as [|r1 rules].
  - cbn [flat_map app]. rewrite app_nil_r.
    replace (TLBrk :: (vars_toks ctx ++ TRBrk :: term_toks l ++ TLongArrow :: term_toks r) ++ [TDot])
      with (TLBrk :: (vars_toks ctx ++ [TRBrk]) ++ term_toks l ++ TLongArrow :: term_toks r ++ [TDot]) by listeq.
    constructor; [apply gvars_toks|apply gterm_toks|apply gterm_toks].
  - replace (((TLBrk :: vars_toks ctx ++ TRBrk :: term_toks l ++ TLongArrow :: term_toks r) ++ flat_map rule_toks (r1 :: rules)) ++ [TDot])
      with (TLBrk :: (vars_toks ctx ++ [TRBrk]) ++ term_toks l ++ TLongArrow :: term_toks r ++ (flat_map rule_toks (r1 :: rules) ++ [TDot]))
      by (cbn [flat_map]; listeq).
    constructor; [apply gvars_toks|apply gterm_toks|apply gterm_toks|]. apply IH. discriminate.
Qed.
Lemma gcommand_toks c : good_command c -> gcommand (cmd_toks c ++ [TDot]) c.
Proof.
  destruct c as [x args it|rules]; cbn [good_command cmd_toks].
  - intros (_ & _ & Hi).
    replace ((intro_pre it ++ name_tok x :: args_toks args ++ intro_toks it) ++ [TDot])
      with (intro_pre it ++ name_tok x :: args_toks args ++ (intro_toks it ++ [TDot])) by listeq.
    constructor; [|apply gargs_toks].
    destruct it as [[ty|] [tm|]|ty tm|[|] ty]; cbn [intro_pre intro_toks opt_toks app].
    + replace (TColon :: (term_toks ty ++ TColonEq :: term_toks tm) ++ [TDot])
        with (TColon :: term_toks ty ++ TColonEq :: term_toks tm ++ [TDot]) by listeq.
      constructor; apply gterm_toks.
    + rewrite app_nil_r. constructor. apply gterm_toks.
    + constructor. apply gterm_toks.
    + destruct Hi as (_ & _ & [H|H]); congruence.
    + replace (TColon :: (term_toks ty ++ TColonEq :: term_toks tm) ++ [TDot])
        with (TColon :: term_toks ty ++ TColonEq :: term_toks tm ++ [TDot]) by listeq.
      constructor; apply gterm_toks.
    + constructor. apply gterm_toks.
    + constructor. apply gterm_toks.
  - intros [H _]. constructor. apply grules_toks. exact H.
Qed.

(** ** Printing commands and parsing them again *)
Lemma lex_cmd c r : good_command c -> stop ($"." ++ r) ->
  lex junk (cmd_show (term_show symb_show) c ++ $"." ++ r) = (cmd_toks c ++ [TDot]) ++ lex junk r.
Proof.
  intros H Hr. rewrite (lexp_cmd c H) by exact Hr. rewrite (lex_show junk TDot ($".") r eq_refl I I).
  rewrite <- app_assoc. reflexivity.
Qed.

(** commands printed one per line, each followed by a dot *)
Definition dotted_lines (cs : list (pcommand (pterm symb))) : str :=
  flat_map (fun c => cmd_show (term_show symb_show) c ++ ["."%char; "010"%char]) cs.

Lemma lex_cmds cs : Forall good_command cs -> gfile (lex junk (dotted_lines cs)) cs.
Proof.
  intros H. induction H as [|c cs Hc H IH]; [constructor|].
  unfold dotted_lines. cbn [flat_map]. fold (dotted_lines cs). rewrite <- app_assoc. cbn [app].
  change ("."%char :: "010"%char :: dotted_lines cs) with ($"." ++ "010"%char :: dotted_lines cs).
  rewrite lex_cmd; [|exact Hc|apply stop_dot_nl]. rewrite lex_white by reflexivity.
  apply (gf_cons [] (cmd_toks c ++ [TDot])); [constructor|apply gcommand_toks; exact Hc|exact IH].
Qed.

Lemma main_print c : good_command c ->
  yields (strict_next scope_symb) (strict_new junk (cmd_show (term_show symb_show) c ++ $".")) [inl c].
Proof.
  intros H. apply (main_grammar_file [c]); [apply lex_no_comment0|].
  pose proof (lex_cmd c [] H stop_dot) as E. change ($"." ++ []) with ($".") in E. rewrite E.
  apply (gf_cons [] (cmd_toks c ++ [TDot]) c (lex junk []) []); [constructor|apply gcommand_toks; exact H|constructor].
Qed.
Lemma main_print_list cs : Forall good_command cs ->
  yields (strict_next scope_symb) (strict_new junk (dotted_lines cs)) (map inl cs).
Proof. intros H. apply main_grammar_file; [apply lex_no_comment0|]. apply lex_cmds. exact H. Qed.
End Fmt.

(** ** Parsed commands have valid names *)
Definition tok_ok (t : token) : Prop := match t with TSymb s => valid_symb s | _ => True end.
Notation oks := (Forall tok_ok).

Ltac split_oks := repeat match goal with
  | H : oks (_ ++ _) |- _ => apply Forall_app in H as [? ?]
  | H : oks (_ :: _) |- _ => inversion H; clear H; subst
  end.

Lemma good_push t u : good_term t -> good_term u -> good_term (gpush t u).
Proof.
  destruct t as [h args]. cbn [gpush good_term]. rewrite !good_all. intros [H1 H2] Hu. split; [exact H1|].
  apply Forall_app. auto.
Qed.

Lemma good_parsed :
  (forall ts t, gterm ts t -> oks ts -> good_term t) /\
  (forall ts t, gapp ts t -> oks ts -> good_term t) /\
  (forall ts t, gatom ts t -> oks ts -> good_term t).
Proof.
  apply gsyn_mind; intros; split_oks; auto.
  - split; [|exact I]. split; [assumption|]. split; [exact I|auto].
  - split; [|exact I]. split; [assumption|]. auto.
  - split; [|exact I]. split; [assumption|]. auto.
  - split; [|exact I]. split; [exact I|]. auto.
  - apply good_push; auto.
  - cbn. auto.
Qed.
Definition good_gterm := proj1 good_parsed.

Lemma good_gargs ts args : gargs ts args -> oks ts -> Forall good_arg args.
Proof.
  intros H. induction H as [|x ts ty ts' args Ht H IH]; intros Ho; [constructor|]. split_oks. constructor; [|auto].
  split; [assumption|]. eapply good_gterm; eassumption.
Qed.
Lemma good_gvar ts v : gvar ts v -> oks ts -> good_var v.
Proof.
  intros H Ho. destruct H as [x|x ts ty Ht]; split_oks; (split; [assumption|]); [exact I|]. eapply good_gterm; eassumption.
Qed.
Lemma good_gvars ts vs : gvars ts vs -> oks ts -> Forall good_var vs.
Proof.
  intros H. induction H as [|ts v Hv|ts v ts' vs Hv H IH]; intros Ho; split_oks;
    [constructor|constructor; [eapply good_gvar; eassumption|constructor]|].
  constructor; [eapply good_gvar; eassumption|auto].
Qed.
Lemma good_grules ts rules : grules ts rules -> oks ts -> rules <> [] /\ Forall good_rule rules.
Proof.
  intros H. induction H as [vts vs lts l rts r Hv Hl Hr|vts vs lts l rts r ts rules Hv Hl Hr H IH]; intros Ho; split_oks;
    (split; [discriminate|]).
  - constructor; [|constructor]. split; [eapply good_gvars; eassumption|split; eapply good_gterm; eassumption].
  - constructor; [split; [eapply good_gvars; eassumption|split; eapply good_gterm; eassumption]|]. apply IH. assumption.
Qed.
Lemma good_gintro pre ts it : gintro pre ts it -> oks ts -> good_intro it.
Proof.
  intros H Ho. destruct H; split_oks; cbn; repeat split; try (eapply good_gterm; eassumption); auto;
    try (left; discriminate); right; discriminate.
Qed.
Lemma good_gcommand ts c : gcommand ts c -> oks ts -> good_command c.
Proof.
  intros H Ho. destruct H as [pre x ats args ts it Hi Ha|ts rules Hr]; split_oks; cbn.
  - split; [assumption|]. split; [eapply good_gargs; eassumption|eapply good_gintro; eassumption].
  - eapply good_grules; eassumption.
Qed.
Lemma good_gfile ts cs : gfile ts cs -> oks ts -> Forall good_command cs.
Proof.
  intros H. induction H as [|ps ts c ts' cs Hp Hc H IH]; intros Ho; split_oks; constructor; auto.
  eapply good_gcommand; eassumption.
Qed.

Lemma lexed_oks ts : Forall lexed_tok ts -> oks ts.
Proof. intros H. eapply Forall_impl; [|exact H]. intros t Ht. destruct t; cbn in *; auto. Qed.

(** commands before the first error *)
Lemma outcome_good junk s l r : outcome (strict_next scope_symb) (strict_new junk s) l r -> Forall good_command l.
Proof.
  unfold strict_new. pose proof (lexed_oks _ (lex_lexed junk s)) as Ho.
  pose proof (lex_no_comment0 junk s) as Hn. revert Ho Hn. generalize (lex junk s) as toks.
  intros toks Ho Hn H. remember (MkStrict toks tctx_default) as p eqn:Ep. revert toks Ho Hn Ep.
  induction H as [p H|p e H|p i p1 l r E H IH]; intros toks Ho Hn ->; try constructor.
  - destruct p1 as [rest ctx]. destruct (proj1 (main_grammar toks i rest Hn) (ex_intro _ _ E)) as (ps & ts & -> & Hp & Hc).
    split_oks. eapply good_gcommand; eassumption.
  - destruct p1 as [rest ctx]. pose proof (strict_next_clean _ _ _ _ Hn E) as ->.
    destruct (proj1 (main_grammar toks i rest Hn) (ex_intro _ _ E)) as (ps & ts & -> & Hp & Hc).
    split_oks. apply (IH rest); auto. intros Hi. apply Hn. apply in_or_app. right. apply in_or_app. auto.
Qed.

Lemma main_print_parsed junk s l r c :
  outcome (strict_next scope_symb) (strict_new junk s) l r -> In c l ->
  yields (strict_next scope_symb) (strict_new junk (cmd_show (term_show symb_show) c ++ $".")) [inl c].
Proof.
  intros H Hc. apply main_print. pose proof (outcome_good _ _ _ _ H) as Hg. rewrite Forall_forall in Hg. auto.
Qed.
Lemma main_print_file junk s cs :
  yields (strict_next scope_symb) (strict_new junk s) (map inl cs) ->
  yields (strict_next scope_symb) (strict_new junk (dotted_lines cs)) (map inl cs).
Proof.
  intros H. apply main_print_list. apply main_grammar_file in H; [|apply lex_no_comment0].
  eapply good_gfile; [exact H|]. apply lexed_oks. apply lex_lexed.
Qed.
