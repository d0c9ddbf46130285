(** * Lemmas for C25-C27 *)

From Verif Require Import Base ModelTerm ModelGctx ModelCommand ModelInfer ModelSyntax ModelSymbols ModelShare
  SpecTerm SpecConv SpecConvFacts SpecQuery SpecShare Erase.

(** Results that are [Ok], or the error of the first unresolved constant *)
Section Share.
  Variable syms : symbols.
  Notation R := (resolve syms).
  Notation first_unresolved := (first_unresolved syms).
  Notation den_opt := (den_opt syms).
  Notation den_intro := (den_intro syms).
  Definition shares {A} (l : list symb) (r : sres A) (P : A -> Prop) : Prop :=
    match r with
    | Ok a => Forall (fun s => R s <> None) l /\ P a
    | Err e => first_unresolved l e
    | _ => False
    end.

  Lemma unresolved_app_l l l' e : first_unresolved l e -> first_unresolved (l ++ l') e.
  Proof. intros (pre & s & post & -> & H). exists pre, s, (post ++ l'). rewrite <- app_assoc. auto. Qed.
  Lemma unresolved_app_r l l' e : Forall (fun s => R s <> None) l -> first_unresolved l' e -> first_unresolved (l ++ l') e.
  Proof.
    intros Hl (pre & s & post & -> & H & H'). exists (l ++ pre), s, post. rewrite <- app_assoc. split; [reflexivity|].
    split; [apply Forall_app; auto|exact H'].
  Qed.
  Lemma shares_bind {A B} l l' (r : sres A) (k : A -> sres B) P Q :
    shares l r P -> (forall a, P a -> shares l' (k a) Q) -> shares (l ++ l') (res_bind r k) Q.
  Proof.
    destruct r as [a|e| |]; cbn; try contradiction.
    - intros [Hl Ha] Hk. specialize (Hk a Ha). destruct (k a) as [b|e| |]; cbn in *; try contradiction.
      + destruct Hk. split; [apply Forall_app; auto|auto].
      + apply unresolved_app_r; auto.
    - intros H _. apply unresolved_app_l; auto.
  Qed.
  Lemma shares_ret {A} (a : A) (P : A -> Prop) : P a -> shares [] (Ok a) P.
  Proof. intros H. split; [constructor|exact H]. Qed.
  Lemma shares_map {A B} l (r : sres A) (f : A -> B) (P : A -> Prop) (Q : B -> Prop) :
    shares l r P -> (forall a, P a -> Q (f a)) -> shares l (res_map f r) Q.
  Proof. destruct r; cbn; try contradiction; auto. intros [H1 H2] H. auto. Qed.
  Lemma shares_impl {A} l (r : sres A) (P Q : A -> Prop) : shares l r P -> (forall a, P a -> Q a) -> shares l r Q.
  Proof. destruct r; cbn; try contradiction; auto. intros [H1 H2] H. auto. Qed.
  Lemma shares_map_res {A B} (f : A -> sres B) (c : A -> list symb) (P : A -> B -> Prop) l :
    Forall (fun a => shares (c a) (f a) (P a)) l -> shares (flat_map c l) (map_res f l) (Forall2 P l).
  Proof.
    intros H. induction H as [|a l Ha _ IH]; cbn [map_res flat_map]; [apply shares_ret; constructor|].
    eapply shares_bind; [exact Ha|]. intros b Hb. rewrite <- (app_nil_r (flat_map c l)).
    eapply shares_bind; [exact IH|]. intros bs Hbs. apply shares_ret. constructor; auto.
  Qed.

  (** what is known of a shared term *)
  Definition shared_term (t : pterm atom) (u : lterm) : Prop :=
    denotes R t (erl u) /\ proper_l u /\ lbinders u = binders t.

  Lemma forall_comb_appl (P : lterm -> Prop) h args : P h -> Forall P args -> forall_comb P (Appl h args).
  Proof.
    intros Hh Ha. cbn. split; [exact Hh|]. induction Ha; cbn; auto.
  Qed.

  Lemma share_term_ok t : shares (consts t) (share_term syms t) (shared_term t).
  Proof.
    induction t as [h args Hh Hargs] using pterm_ind'.
    cbn [share_term consts]. eapply shares_bind with (P := fun u => den_head R h (erl u) /\ proper_l u /\ lbinders u = head_binders binders h).
    - destruct h as [[c|v|]|x [ty|] tm|x ty tm]; cbn [share_apph head_consts apph_all opt_res] in *.
      + unfold share_symb, resolve. destruct (symbols_get syms _ _) as [s|] eqn:E; cbn.
        * split; [constructor; [unfold resolve; congruence|constructor]|]. repeat split. constructor. exact E.
        * exists [], c, []. repeat split; [constructor|]. exact E.
      + apply shares_ret. repeat split. constructor.
      + apply shares_ret. repeat split. constructor.
      + destruct Hh as [H1 H2]. eapply shares_bind.
        { eapply shares_map with (Q := fun o => exists u, o = Some u /\ shared_term ty u); [exact H1|]. eauto. }
        intros ? (u & -> & Hu). rewrite <- (app_nil_r (consts tm)). eapply shares_bind; [exact H2|]. intros v Hv. apply shares_ret.
        destruct Hu as (A1 & A2 & A3), Hv as (B1 & B2 & B3). cbn. rewrite A3, B3. repeat split; auto. constructor; auto.
      + destruct Hh as [_ H2]. cbn [res_bind]. rewrite <- (app_nil_r (consts tm)).
        eapply shares_bind; [exact H2|]. intros v Hv. apply shares_ret.
        destruct Hv as (B1 & B2 & B3). cbn. rewrite B3. repeat split; auto. constructor; auto.
      + destruct Hh as [H1 H2]. eapply shares_bind; [exact H1|]. intros u Hu. rewrite <- (app_nil_r (consts tm)).
        eapply shares_bind; [exact H2|]. intros v Hv. apply shares_ret.
        destruct Hu as (A1 & A2 & A3), Hv as (B1 & B2 & B3). cbn. rewrite A3, B3. repeat split; auto. constructor; auto.
    - intros u (U1 & U2 & U3). destruct args as [|a args].
      + apply shares_ret. split; [|split]; auto.
        * change (erl u) with (apps (erl u) []). constructor; auto.
        * cbn. rewrite app_nil_r. auto.
      + rewrite <- (app_nil_r (flat_map _ _)). eapply shares_bind; [apply shares_map_res; exact Hargs|].
        intros us Hus. apply shares_ret. split; [|split].
        * cbn [erl er_comb]. constructor; [exact U1|]. clear Hargs. induction Hus; constructor; auto. apply H.
        * split; [inversion Hus; exact I|]. apply forall_comb_appl; [exact U2|]. clear Hargs. induction Hus; constructor; auto. apply H.
        * cbn [lbinders binders]. rewrite U3. f_equal. clear Hargs. induction Hus as [|? ? ? ? (_ & _ & E) _ IH]; cbn in *; [auto|]. rewrite E, IH. reflexivity.
  Qed.

  Lemma opt_res_ok o : shares (opt_consts o) (opt_res (share_term syms) o)
    (fun o' => match o, o' with Some t, Some u => shared_term t u | None, None => True | _, _ => False end).
  Proof.
    destruct o as [t|]; cbn; [|auto using shares_ret]. eapply shares_map; [apply share_term_ok|]. auto.
  Qed.

  (** *** Denotation is a function; sharing is complete for it *)
  Lemma denotes_det t : forall u v, denotes R t u -> denotes R t v -> u = v.
  Proof.
    induction t as [h args Hh Hargs] using pterm_ind'. intros u v Hu Hv.
    inversion Hu as [h1 args1 t ts D1 F1]; subst. inversion Hv as [h1 args1 t0 ts0 D2 F2]; subst.
    assert (E1 : t = t0).
    { clear Hu Hv. destruct h as [[c|n|]|x [ty|] tm|x ty tm]; cbn in Hh; inversion D1; subst; inversion D2; subst; try reflexivity; try congruence;
        destruct Hh; f_equal; eauto. }
    assert (E2 : ts = ts0).
    { clear - Hargs F1 F2. revert ts0 F2. induction F1 as [|a args b ts Hab _ IH]; intros ts0 F2; inversion F2; subst; [reflexivity|].
      inversion Hargs; subst. f_equal; eauto. }
    congruence.
  Qed.
  Lemma denotes_resolved t : forall u, denotes R t u -> Forall (fun s => R s <> None) (consts t).
  Proof.
    induction t as [h args Hh Hargs] using pterm_ind'. intros u Hu.
    inversion Hu as [h1 args1 t ts D1 F1]; subst. clear Hu. cbn [consts]. apply Forall_app. split.
    - destruct h as [[c|n|]|x [ty|] tm|x ty tm]; cbn in Hh |- *; inversion D1; subst;
        [constructor; [congruence|constructor]|constructor|constructor| | |]; destruct Hh; try (apply Forall_app; split); eauto.
    - clear - Hargs F1. induction F1; cbn; [constructor|]. inversion Hargs; subst. apply Forall_app; eauto.
  Qed.

  (** C25: the result of sharing a term *)
  Lemma main_share_ok t : (exists u, share_term syms t = Ok u) <-> Forall (fun s => R s <> None) (consts t).
  Proof.
    pose proof (share_term_ok t) as H. destruct (share_term syms t) as [u|e| |]; cbn in H; try contradiction.
    - destruct H. split; eauto.
    - split; [intros (u & [=])|]. intros H'. destruct H as (pre & s & post & E & _ & Hs & _). rewrite E in H'.
      apply Forall_app in H' as [_ H']. inversion H'. congruence.
  Qed.
  Lemma main_share_struct t u : share_term syms t = Ok u ->
    denotes R t (erl u) /\ proper_l u /\ lbinders u = binders t.
  Proof. intros E. pose proof (share_term_ok t) as H. rewrite E in H. apply H. Qed.
  Lemma main_share_err t :
    (forall e, share_term syms t = Err e <-> first_unresolved (consts t) e) /\ share_term syms t <> Panic /\ share_term syms t <> Fuel.
  Proof.
    pose proof (share_term_ok t) as H. destruct (share_term syms t) as [u|e| |] eqn:E; cbn in H; try contradiction.
    - repeat split; try discriminate. intros (pre & s & post & E' & _ & Hs & _). destruct H as [H _]. rewrite E' in H.
      apply Forall_app in H as [_ H]. inversion H. congruence.
    - repeat split; try discriminate; [intros [= <-]; exact H|].
      intros (pre & s & post & E1 & Hp & Hs & ->). destruct H as (pre' & s' & post' & E2 & Hp' & Hs' & ->).
      f_equal. assert (X : s' = s); [|congruence]. clear E.
      rewrite E1 in E2. clear E1. revert pre' E2 Hp'. induction Hp as [|a pre Ha Hp IH]; intros [|b pre'] E2 Hp'; cbn in E2.
      + congruence.
      + injection E2 as -> _. inversion Hp'. congruence.
      + injection E2 as -> _. congruence.
      + injection E2 as _ E2. inversion Hp'; subst. eapply IH; eauto.
  Qed.

  (** C26 *)
  Lemma share_prod x a b : share_term syms (PTm (HProd (Some x) a b) []) =
    res_bind (share_term syms a) (fun a => res_bind (share_term syms b) (fun b => Ok (LComb (Prod x a b)))).
  Proof.
    cbn [share_term share_apph]. destruct (share_term syms a); cbn; try reflexivity. destruct (share_term syms b); reflexivity.
  Qed.
  Lemma share_abst x a b : share_term syms (PTm (HAbst x (Some a) b) []) =
    res_bind (share_term syms a) (fun a => res_bind (share_term syms b) (fun b => Ok (LComb (Abst x (Some a) b)))).
  Proof.
    cbn [share_term share_apph opt_res]. destruct (share_term syms a); cbn; try reflexivity. destruct (share_term syms b); reflexivity.
  Qed.
  (** wrapping a shared term in products *)
  Fixpoint lprods (args : list (str * lterm)) (t : lterm) : lterm :=
    match args with [] => t | (x, a) :: args => LComb (Prod x a (lprods args t)) end.
  Fixpoint labsts (args : list (str * lterm)) (t : lterm) : lterm :=
    match args with [] => t | (x, a) :: args => LComb (Abst x (Some a) (labsts args t)) end.
  Definition share_arg : str * pterm atom -> sres (str * lterm) := fun '(x, a) => res_map (fun a => (x, a)) (share_term syms a).

  Lemma share_nest_prods args : forall t u,
    share_term syms (nest_prods args t) = Ok u <->
    exists args' t', map_res share_arg args = Ok args' /\ share_term syms t = Ok t' /\ u = lprods args' t'.
  Proof.
    induction args as [|[x a] args IH]; intros t u; cbn [nest_prods map_res].
    - split; [intros E; exists [], u; auto|]. intros (args' & t' & [= <-] & E & ->). exact E.
    - rewrite share_prod. unfold share_arg at 1. destruct (share_term syms a) as [a'|e| |]; cbn [res_map res_bind];
        try (split; [discriminate|intros (? & ? & [=] & _)]).
      split.
      + destruct (share_term syms (nest_prods args t)) as [v|e| |] eqn:E; cbn [res_bind]; try discriminate.
        intros [= <-]. apply IH in E as (args' & t' & -> & E & ->). exists ((x, a') :: args'), t'. auto.
      + intros (args' & t' & E & Et & ->). destruct (map_res share_arg args) as [as'|e| |] eqn:Ea; cbn in E; try discriminate.
        injection E as <-. assert (N : share_term syms (nest_prods args t) = Ok (lprods as' t')) by (apply IH; eauto).
        rewrite N. reflexivity.
  Qed.
  Lemma share_nest_absts args : forall t u,
    share_term syms (nest_absts args t) = Ok u <->
    exists args' t', map_res share_arg args = Ok args' /\ share_term syms t = Ok t' /\ u = labsts args' t'.
  Proof.
    induction args as [|[x a] args IH]; intros t u; cbn [nest_absts map_res].
    - split; [intros E; exists [], u; auto|]. intros (args' & t' & [= <-] & E & ->). exact E.
    - rewrite share_abst. unfold share_arg at 1. destruct (share_term syms a) as [a'|e| |]; cbn [res_map res_bind];
        try (split; [discriminate|intros (? & ? & [=] & _)]).
      split.
      + destruct (share_term syms (nest_absts args t)) as [v|e| |] eqn:E; cbn [res_bind]; try discriminate.
        intros [= <-]. apply IH in E as (args' & t' & -> & E & ->). exists ((x, a') :: args'), t'. auto.
      + intros (args' & t' & E & Et & ->). destruct (map_res share_arg args) as [as'|e| |] eqn:Ea; cbn in E; try discriminate.
        injection E as <-. assert (N : share_term syms (nest_absts args t) = Ok (labsts as' t')) by (apply IH; eauto).
        rewrite N. reflexivity.
  Qed.

  Definition wrap (args : list (str * lterm)) (it : intro) : intro :=
    map_term (labsts args) (map_type (lprods args) it).
  Lemma lprods_snoc args x a t : lprods (args ++ [(x, a)]) t = lprods args (LComb (Prod x a t)).
  Proof. induction args as [|[y b] args IH]; cbn; [reflexivity|]. rewrite IH. reflexivity. Qed.
  Lemma labsts_snoc args x a t : labsts (args ++ [(x, a)]) t = labsts args (LComb (Abst x (Some a) t)).
  Proof. induction args as [|[y b] args IH]; cbn; [reflexivity|]. rewrite IH. reflexivity. Qed.
  Lemma map_res_snoc {E A B} (f : A -> res E B) l a bs :
    map_res f (l ++ [a]) = Ok bs <-> exists bs' b, map_res f l = Ok bs' /\ f a = Ok b /\ bs = bs' ++ [b].
  Proof.
    revert bs. induction l as [|c l IH]; intros bs; cbn [map_res app].
    - split.
      + destruct (f a) as [b|e| |]; cbn; try discriminate. intros [= <-]. exists [], b. auto.
      + intros (? & ? & [= <-] & -> & ->). reflexivity.
    - destruct (f c) as [d|e| |]; cbn [res_bind]; try (split; [discriminate|intros (? & ? & [=] & _)]).
      split.
      + destruct (map_res f (l ++ [a])) as [ds|e| |] eqn:E'; cbn [res_bind]; try discriminate. intros [= <-].
        destruct (proj1 (IH ds) eq_refl) as (bs' & b & -> & Hb & ->). exists (d :: bs'), b. auto.
      + intros (bs' & b & E1 & Hb & ->). destruct (map_res f l) as [ds|e| |] eqn:El; cbn in E1; try discriminate. injection E1 as <-.
        rewrite (proj2 (IH (ds ++ [b]))); [reflexivity|eauto].
  Qed.
  Lemma wrap_snoc args x a it : wrap (args ++ [(x, a)]) it =
    wrap args (map_term (fun tm => LComb (Abst x (Some a) tm)) (map_type (fun ty => LComb (Prod x a ty)) it)).
  Proof.
    unfold wrap. destruct it as [[ty|] [tm|]|ty tm|inj ty]; cbn; rewrite ?lprods_snoc, ?labsts_snoc; reflexivity.
  Qed.
  Lemma share_args_ok args : forall it r,
    share_args syms it (rev args) = Ok r <-> exists args', map_res share_arg args = Ok args' /\ r = wrap args' it.
  Proof.
    induction args as [|[x a] args IH] using rev_ind; intros it r.
    - cbn. split; [intros [= ->]; exists []; split; auto; unfold wrap; destruct r as [[ty|] [tm|]|ty tm|inj ty]; reflexivity|].
      intros (args' & [= <-] & ->). unfold wrap. destruct it as [[ty|] [tm|]|ty tm|inj ty]; reflexivity.
    - rewrite rev_app_distr. cbn [rev app share_args].
      destruct (share_term syms a) as [a'|e| |] eqn:Ea; cbn [res_bind];
        try (split; [discriminate|]; intros (? & E & _); apply map_res_snoc in E as (? & ? & _ & E & _); unfold share_arg in E; rewrite Ea in E; discriminate).
      rewrite IH. split.
      + intros (args' & E & ->). exists (args' ++ [(x, a')]). split; [|rewrite wrap_snoc; reflexivity].
        apply map_res_snoc. exists args', (x, a'). unfold share_arg at 2. rewrite Ea. auto.
      + intros (args' & E & ->). apply map_res_snoc in E as (bs & b & E & Eb & ->). unfold share_arg in Eb. rewrite Ea in Eb. injection Eb as <-.
        exists bs. split; [exact E|]. rewrite wrap_snoc. reflexivity.
  Qed.
  Lemma res_bind_ok {E A B} (r : res E A) (k : A -> res E B) b : res_bind r k = Ok b <-> exists a, r = Ok a /\ k a = Ok b.
  Proof. split; [destruct r; cbn; try discriminate; eauto|]. intros (? & -> & H). exact H. Qed.
  Lemma res_map_ok {E A B} (r : res E A) (f : A -> B) b : res_map f r = Ok b <-> exists a, r = Ok a /\ f a = b.
  Proof. split; [destruct r; cbn; try discriminate; intros [= <-]; eauto|]. intros (? & -> & <-). reflexivity. Qed.

  Lemma main_params x args it r : it <> IDefinition None None ->
    (share_command syms (PIntro x args it) = Ok r <-> share_command syms (PIntro x [] (nest args it)) = Ok r).
  Proof.
    intros Hit. cbn [share_command rev share_args].
    rewrite (res_bind_ok (share_intro syms it)), (res_bind_ok (share_intro syms (nest args it))).
    transitivity (exists it' args', share_intro syms it = Ok it' /\ map_res share_arg args = Ok args' /\ r = CIntro x (wrap args' it')).
    { split.
      - intros (it' & E & H). apply res_bind_ok in H as (it'' & H & [= <-]). apply share_args_ok in H as (args' & Ea & ->). eauto.
      - intros (it' & args' & E & Ea & ->). exists it'. split; [exact E|]. apply res_bind_ok. exists (wrap args' it'). split; [|reflexivity].
        apply share_args_ok. eauto. }
    transitivity (exists it'', share_intro syms (nest args it) = Ok it'' /\ r = CIntro x it'').
    2:{ split; intros (it'' & E & H); exists it''; (split; [exact E|]); [cbn; congruence|]. cbn in H. congruence. }
    assert (M : forall a1 a2, map_res share_arg args = Ok a1 -> map_res share_arg args = Ok a2 -> a1 = a2) by congruence.
    destruct it as [[ty|] [tm|]|ty tm|inj ty]; cbn [nest share_intro option_map opt_res]; [| | |congruence| |].
    - split.
      + intros (it' & args' & E & Ea & ->). apply res_bind_ok in E as (o1 & E1 & E). apply res_bind_ok in E as (o2 & E2 & [= <-]).
        apply res_map_ok in E1 as (t1 & E1 & <-). apply res_map_ok in E2 as (t2 & E2 & <-). eexists. split; [|reflexivity].
        apply res_bind_ok. exists (Some (lprods args' t1)). split; [apply res_map_ok; eexists; split; [|reflexivity]; apply share_nest_prods; eauto|].
        apply res_bind_ok. exists (Some (labsts args' t2)). split; [apply res_map_ok; eexists; split; [|reflexivity]; apply share_nest_absts; eauto|].
        reflexivity.
      + intros (it'' & E & ->). apply res_bind_ok in E as (o1 & E1 & E). apply res_bind_ok in E as (o2 & E2 & [= <-]).
        apply res_map_ok in E1 as (t1 & E1 & <-). apply res_map_ok in E2 as (t2 & E2 & <-).
        apply share_nest_prods in E1 as (a1 & u1 & A1 & U1 & ->). apply share_nest_absts in E2 as (a2 & u2 & A2 & U2 & ->).
        rewrite <- (M _ _ A1 A2). rewrite U1, U2. exists (IDefinition (Some u1) (Some u2)), a1. auto.
    - split.
      + intros (it' & args' & E & Ea & ->). apply res_bind_ok in E as (o1 & E1 & E). apply res_bind_ok in E as (o2 & E2 & [= <-]).
        apply res_map_ok in E1 as (t1 & E1 & <-). injection E2 as <-. eexists. split; [|reflexivity].
        apply res_bind_ok. exists (Some (lprods args' t1)). split; [apply res_map_ok; eexists; split; [|reflexivity]; apply share_nest_prods; eauto|].
        reflexivity.
      + intros (it'' & E & ->). apply res_bind_ok in E as (o1 & E1 & E). apply res_bind_ok in E as (o2 & E2 & [= <-]).
        apply res_map_ok in E1 as (t1 & E1 & <-). injection E2 as <-.
        apply share_nest_prods in E1 as (a1 & u1 & A1 & U1 & ->). rewrite U1. exists (IDefinition (Some u1) None), a1. auto.
    - split.
      + intros (it' & args' & E & Ea & ->). apply res_bind_ok in E as (o1 & E1 & E). apply res_bind_ok in E as (o2 & E2 & [= <-]).
        injection E1 as <-. apply res_map_ok in E2 as (t2 & E2 & <-). eexists. split; [|reflexivity].
        apply res_bind_ok. exists None. split; [reflexivity|].
        apply res_bind_ok. exists (Some (labsts args' t2)). split; [apply res_map_ok; eexists; split; [|reflexivity]; apply share_nest_absts; eauto|].
        reflexivity.
      + intros (it'' & E & ->). apply res_bind_ok in E as (o1 & E1 & E). apply res_bind_ok in E as (o2 & E2 & [= <-]).
        injection E1 as <-. apply res_map_ok in E2 as (t2 & E2 & <-).
        apply share_nest_absts in E2 as (a2 & u2 & A2 & U2 & ->). rewrite U2. exists (IDefinition None (Some u2)), a2. auto.
    - split.
      + intros (it' & args' & E & Ea & ->). apply res_bind_ok in E as (t1 & E1 & E). apply res_bind_ok in E as (t2 & E2 & [= <-]).
        eexists. split; [|reflexivity]. apply res_bind_ok. exists (lprods args' t1). split; [apply share_nest_prods; eauto|].
        apply res_bind_ok. exists (labsts args' t2). split; [apply share_nest_absts; eauto|reflexivity].
      + intros (it'' & E & ->). apply res_bind_ok in E as (t1 & E1 & E). apply res_bind_ok in E as (t2 & E2 & [= <-]).
        apply share_nest_prods in E1 as (a1 & u1 & A1 & U1 & ->). apply share_nest_absts in E2 as (a2 & u2 & A2 & U2 & ->).
        rewrite <- (M _ _ A1 A2). rewrite U1, U2. exists (ITheorem u1 u2), a1. auto.
    - split.
      + intros (it' & args' & E & Ea & ->). apply res_bind_ok in E as (t1 & E1 & [= <-]).
        eexists. split; [|reflexivity]. apply res_bind_ok. exists (lprods args' t1). split; [apply share_nest_prods; eauto|reflexivity].
      + intros (it'' & E & ->). apply res_bind_ok in E as (t1 & E1 & [= <-]).
        apply share_nest_prods in E1 as (a1 & u1 & A1 & U1 & ->). rewrite U1. exists (IDeclaration inj u1), a1. auto.
  Qed.
  Lemma main_params_none x args r :
    share_command syms (PIntro x args (IDefinition None None)) = Ok r -> r = CIntro x (IDefinition None None).
  Proof.
    cbn. intros H. apply res_bind_ok in H as (it' & H & [= <-]). apply share_args_ok in H as (? & _ & ->). reflexivity.
  Qed.

  (** C25: commands *)
  Lemma resolved_bind {A B} l l' (r : sres A) (k : A -> sres B) :
    shares l r (fun _ => True) -> (forall a, r = Ok a -> shares l' (k a) (fun _ => True)) -> shares (l ++ l') (res_bind r k) (fun _ => True).
  Proof. intros H1 H2. eapply shares_bind with (P := fun a => r = Ok a); [|exact H2]. destruct r; cbn in *; tauto. Qed.
  Lemma shares_True {A} l (r : sres A) P : shares l r P -> shares l r (fun _ => True).
  Proof. intros H. eapply shares_impl; [exact H|auto]. Qed.

  Lemma share_intro_ok it : shares (intro_consts it) (share_intro syms it) (fun it' => den_intro it it' /\ intro_all proper_l it').
  Proof.
    destruct it as [oty otm|ty tm|inj ty]; cbn [share_intro intro_consts].
    - eapply shares_bind; [apply opt_res_ok|]. intros o1 H1. rewrite <- (app_nil_r (opt_consts otm)).
      eapply shares_bind; [apply opt_res_ok|]. intros o2 H2. apply shares_ret.
      destruct oty, o1, otm, o2; cbn in *; try contradiction; unfold shared_term in *; tauto.
    - eapply shares_bind; [apply share_term_ok|]. intros u1 H1. rewrite <- (app_nil_r (consts tm)).
      eapply shares_bind; [apply share_term_ok|]. intros u2 H2. apply shares_ret. unfold shared_term in *. cbn. tauto.
    - rewrite <- (app_nil_r (consts ty)). eapply shares_bind; [apply share_term_ok|]. intros u H. apply shares_ret. unfold shared_term in *. cbn. tauto.
  Qed.
  Lemma share_args_shares args : forall it, intro_all proper_l it ->
    shares (flat_map (fun x => consts (snd x)) args) (share_args syms it args) (intro_all proper_l).
  Proof.
    induction args as [|[x a] args IH]; intros it Hit; cbn [share_args flat_map snd]; [apply shares_ret; exact Hit|].
    eapply shares_bind; [apply share_term_ok|]. intros u (_ & Hu & _). apply IH.
    destruct it as [[ty|] [tm|]|ty tm|inj ty]; cbn in *; repeat split; try apply Hit; auto.
  Qed.
  Lemma share_pintro_ok x args it :
    shares (intro_consts it ++ flat_map (fun x => consts (snd x)) (rev args)) (share_command syms (PIntro x args it))
      (fun c => exists it', c = CIntro x it' /\ intro_all proper_l it').
  Proof.
    cbn [share_command]. eapply shares_bind; [apply share_intro_ok|]. intros it' [_ Hit'].
    rewrite <- (app_nil_r (flat_map _ _)). eapply shares_bind; [apply share_args_shares; exact Hit'|]. intros it'' H.
    apply shares_ret. eauto.
  Qed.
  Lemma shares_cases {A} l (r : sres A) P : shares l r P ->
    ((exists a, r = Ok a) <-> Forall (fun s => R s <> None) l) /\
    (forall e, r = Err e -> exists s, In s l /\ R s = None /\ e = UndeclaredSymbol (symb_show s)) /\ r <> Panic /\ r <> Fuel.
  Proof.
    intros H. destruct r as [a|e| |]; cbn in H; try contradiction.
    - destruct H. repeat split; eauto; discriminate.
    - split; [|split; [|split; discriminate]].
      + split; [intros (? & [=])|]. intros H'. destruct H as (pre & s & post & E & _ & Hs & _). rewrite E in H'.
        apply Forall_app in H' as [_ H']. inversion H'. congruence.
      + intros ? [= <-]. destruct H as (pre & s & post & -> & _ & Hs & ->). exists s. split; [apply in_or_app; cbn; auto|auto].
  Qed.
  Lemma main_share_intro x args it :
    ((exists r, share_command syms (PIntro x args it) = Ok r) <-> Forall (fun s => R s <> None) (command_consts (PIntro x args it))) /\
    (forall e, share_command syms (PIntro x args it) = Err e ->
      exists s, In s (command_consts (PIntro x args it)) /\ R s = None /\ e = UndeclaredSymbol (symb_show s)) /\
    share_command syms (PIntro x args it) <> Panic /\ share_command syms (PIntro x args it) <> Fuel.
  Proof.
    assert (P : forall s, In s (intro_consts it ++ flat_map (fun x => consts (snd x)) (rev args)) <-> In s (command_consts (PIntro x args it))).
    { intros s. cbn [command_consts]. rewrite !in_app_iff, !in_flat_map. setoid_rewrite <- in_rev. tauto. }
    destruct (shares_cases _ _ _ (share_pintro_ok x args it)) as (H1 & H2 & H3). split; [|split; [|exact H3]].
    - rewrite H1, !Forall_forall. split; intros H s Hs; apply H, P; exact Hs.
    - intros e E. destruct (H2 e E) as (s & Hs & Hs'). exists s. split; [apply P; exact Hs|exact Hs'].
  Qed.
  Lemma main_share_intro_struct x it x' it' : share_command syms (PIntro x [] it) = Ok (CIntro x' it') -> x' = x /\ den_intro it it'.
  Proof.
    cbn. intros E. apply res_bind_ok in E as (it1 & E & [= <- <-]). split; [reflexivity|].
    pose proof (share_intro_ok it) as H. rewrite E in H. apply H.
  Qed.

  (** ** C27 *)
  Lemma pat_sound joker u : forall p, pattern_of_lterm u = Ok p -> pat_denotes joker (erp (joke joker p)) (erl u).
  Proof.
    induction u as [|c|n|[h args|id a b|id a b] Hc] using lterm_ind'; intros p E; try discriminate.
    - injection E as <-. apply (pden_symb joker c [] []). constructor.
    - injection E as <-. cbn. destruct (n =? joker) eqn:N.
      + apply Nat.eqb_eq in N as ->. constructor.
      + apply Nat.eqb_neq in N. constructor. exact N.
    - cbn in E. apply res_bind_ok in E as (ph & Eh & E). destruct ph as [s args1|v|]; try discriminate.
      apply res_bind_ok in E as (args2 & Ea & [= <-]). destruct Hc as [Hh Ha]. specialize (Hh _ Eh).
      cbn [joke erp] in Hh |- *. inversion Hh as [c ps ts F Ec Et| |]; subst. cbn [erl er_comb]. rewrite <- Et, <- apps_app, !map_app.
      constructor. apply Forall2_app; [exact F|]. clear - Ha Ea. revert args2 Ea. induction Ha as [|a args Ha _ IH]; intros args2 Ea; cbn in Ea.
      + injection Ea as <-. constructor.
      + apply res_bind_ok in Ea as (p & Ep & Ea). apply res_bind_ok in Ea as (ps & Eps & [= <-]). constructor; auto.
  Qed.
  Lemma apps_inj_r ts : forall us t u, length ts = length us -> apps t ts = apps u us -> t = u /\ ts = us.
  Proof.
    induction ts as [|a ts IH]; intros [|b us] t u L E; try discriminate L; [auto|].
    cbn in E. apply IH in E as [[= -> ->] ->]; [auto|]. cbn in L. lia.
  Qed.
  Fixpoint spine (t : tm) : nat := match t with App t _ => S (spine t) | _ => 0 end.
  Lemma spine_apps ts : forall t, spine (apps t ts) = spine t + length ts.
  Proof. induction ts as [|a ts IH]; intros t; cbn; [lia|]. rewrite IH. cbn. lia. Qed.
  Lemma pat_complete joker u : proper_l u -> forall P, pat_denotes joker P (erl u) -> exists p, pattern_of_lterm u = Ok p /\ erp (joke joker p) = P.
  Proof.
    induction u as [|c|n|[h args|id a b|id [a|] b] Hc] using lterm_ind'; intros Hp P HP.
    - inversion HP as [c ps ts F Ec Et| |]. destruct ts as [|t ts] using rev_ind; [discriminate|]. rewrite apps_app in Et. discriminate.
    - inversion HP as [c' ps ts F Ec Et| |]; subst. destruct ts as [|t ts _] using rev_ind; [|rewrite apps_app in Et; discriminate].
      injection Et as ->. inversion F; subst. exists (PSymb c []). auto.
    - exists (PMVar n). split; [reflexivity|]. cbn. inversion HP as [c' ps ts F Ec Et|m N|]; subst.
      + destruct ts as [|t ts _] using rev_ind; [discriminate|rewrite apps_app in Et; discriminate].
      + apply Nat.eqb_neq in N. rewrite N. reflexivity.
      + rewrite Nat.eqb_refl. reflexivity.
    - destruct Hp as [Hp1 Hp2]. cbn [forall_comb] in Hp2. destruct Hp2 as [Hph Hpa].
      assert (Hpa' : Forall proper_l args). { clear - Hpa. induction args; constructor; [apply Hpa|apply IHargs; apply Hpa]. } clear Hpa.
      destruct Hc as [Hh Ha].
      assert (X : exists c ps ts, P = PatSymb c ps /\ Forall2 (pat_denotes joker) ps ts /\ apps (Const c) ts = apps (erl h) (map erl args)).
      { cbn [erl er_comb] in HP. inversion HP as [c ps ts F Ec Et|m N Ec Et|Ec Et]; subst; [eauto 8| |].
        - destruct args as [|a args].
          + cbn in Hp1. destruct h; try discriminate.
          + apply (f_equal spine) in Et. rewrite spine_apps in Et. cbn in Et. lia.
        - destruct args as [|a args].
          + cbn in Hp1. destruct h; try discriminate.
          + apply (f_equal spine) in Et. rewrite spine_apps in Et. cbn in Et. lia. }
      destruct X as (c & ps & ts & -> & F & Et).
      assert (L : length args <= length ts).
      { apply (f_equal spine) in Et. rewrite !spine_apps in Et. cbn in Et. rewrite map_length in Et. lia. }
      rewrite <- (firstn_skipn (length ts - length args) ts) in Et, F. rewrite apps_app in Et.
      apply apps_inj_r in Et as [Et1 Et2]; [|rewrite skipn_length, map_length; lia].
      apply Forall2_app_inv_r in F as (ps1 & ps2 & F1 & F2 & ->). rewrite Et2 in F2.
      destruct (Hh Hph (PatSymb c ps1)) as (p & Ep & Jp); [rewrite <- Et1; constructor; exact F1|].
      destruct p as [s args1|v|]; cbn [joke erp] in Jp; [| |discriminate].
      2:{ destruct (v =? joker); discriminate. }
      injection Jp as -> Jp.
      assert (Y : exists args2, map_res pattern_of_lterm args = Ok args2 /\ map erp (map (joke joker) args2) = ps2).
      { clear - Ha Hpa' F2. revert ps2 F2. induction Ha as [|a args Ha _ IH]; intros ps2 F2; inversion F2 as [|q ? ps3 ? Q1 Q2]; subst.
        - exists []. auto.
        - inversion Hpa' as [|? ? Hp1 Hp2]; subst. destruct (Ha Hp1 _ Q1) as (p & Ep & Jp). destruct (IH Hp2 _ Q2) as (args2 & Ea & Ja).
          exists (p :: args2). cbn. rewrite Ep, Ea. cbn. rewrite Jp, Ja. auto. }
      destruct Y as (args2 & Ea & Ja). exists (PSymb c (args1 ++ args2)). cbn. rewrite Ep. cbn. rewrite Ea. cbn.
      rewrite !map_app, Jp, Ja. auto.
    - inversion HP as [c ps ts F Ec Et| |]. destruct ts as [|t ts _] using rev_ind; [discriminate|]. rewrite apps_app in Et. discriminate.
    - inversion HP as [c ps ts F Ec Et| |]. destruct ts as [|t ts _] using rev_ind; [discriminate|]. rewrite apps_app in Et. discriminate.
    - inversion HP as [c ps ts F Ec Et| |]. destruct ts as [|t ts _] using rev_ind; [discriminate|]. rewrite apps_app in Et. discriminate.
  Qed.
  Lemma pattern_of_lterm_cases u : (exists p, pattern_of_lterm u = Ok p) \/ pattern_of_lterm u = Err NoPrepattern.
  Proof.
    induction u as [|c|n|[h args|id a b|id a b] Hc] using lterm_ind'; cbn; eauto.
    destruct Hc as [[(p & ->)|Hh] Ha]; [|rewrite Hh; auto]. cbn. destruct p as [s args1|v|]; auto.
    assert (X : (exists ps, map_res pattern_of_lterm args = Ok ps) \/ map_res pattern_of_lterm args = Err NoPrepattern).
    { induction Ha as [|a args [(p & Hp)|Hp] _ IH]; cbn; [eauto| |rewrite Hp; auto]. rewrite Hp. cbn.
      destruct IH as [(ps & ->)| ->]; cbn; eauto. }
    destruct X as [(ps & ->)| ->]; cbn; eauto.
  Qed.
  Lemma pat_vars_below joker P t : pat_denotes joker P t -> vars_below (S joker) t -> Forall (fun m => m < joker) (pat_vars P).
  Proof.
    revert t. induction P as [c ps IH|m|] using pat_ind'; intros t H Hb; inversion H as [c0 ps0 ts HF| |]; subst; cbn.
    - assert (X : Forall (vars_below (S joker)) ts).
      { clear - Hb. assert (G : forall t, vars_below (S joker) (apps t ts) -> vars_below (S joker) t /\ Forall (vars_below (S joker)) ts).
        { clear Hb. induction ts as [|u ts IH]; intros t Ht; cbn in Ht; [split; [exact Ht|constructor]|]. apply IH in Ht as [[H1 H2] H3]. split; [exact H1|constructor; auto]. }
        apply (G _ Hb). }
      clear - IH HF X. induction HF; cbn; [constructor|]. inversion IH; subst. inversion X; subst. apply Forall_app. eauto.
    - cbn in Hb. repeat constructor. lia.
    - constructor.
  Qed.

  Lemma share_ctx_ok ctx : shares (flat_map (fun x => opt_consts (snd x)) ctx)
    (map_res (fun '(id, ty) => res_map (fun ty => (id, ty)) (opt_res (share_term syms) ty)) ctx)
    (Forall2 (fun (x : str * option (pterm atom)) (y : str * option lterm) => fst x = fst y /\ den_opt (snd x) (snd y)) ctx).
  Proof.
    apply shares_map_res. induction ctx as [|[x ty] ctx IH]; constructor; auto.
    eapply shares_map; [apply opt_res_ok|]. intros o H. split; [reflexivity|]. destruct ty, o; cbn in *; auto. apply H.
  Qed.
  Lemma main_share_rule r r' : share_rule syms r = Ok r' ->
    Forall2 (fun (x : str * option (pterm atom)) (y : str * option lterm) => fst x = fst y /\ den_opt (snd x) (snd y)) (pr_ctx r) (r_ctx r') /\
    denotes R (pr_rhs r) (erl (r_rhs r')) /\
    exists lhs, denotes R (pr_lhs r) lhs /\
      pat_denotes (length (pr_ctx r)) (PatSymb (tp_symbol (r_lhs r')) (map erp (tp_args (r_lhs r')))) lhs /\
      (vars_below (S (length (pr_ctx r))) lhs ->
       Forall (fun m => m < length (r_ctx r')) (flat_map pat_vars (map erp (tp_args (r_lhs r'))))).
  Proof.
    unfold share_rule. intros E. apply res_bind_ok in E as (ctx & Ec & E). apply res_bind_ok in E as (lhs & El & E).
    apply res_bind_ok in E as (p & Ep & E). apply res_bind_ok in E as (tp & Et & E). apply res_bind_ok in E as (rhs & Er & [= <-]).
    cbn [r_ctx r_lhs r_rhs]. pose proof (share_ctx_ok (pr_ctx r)) as Hc. rewrite Ec in Hc. destruct Hc as [_ Hc].
    split; [exact Hc|]. split; [apply main_share_struct; exact Er|].
    exists (erl lhs). split; [apply main_share_struct; exact El|].
    apply (pat_sound (length (pr_ctx r))) in Ep. destruct (joke (length (pr_ctx r)) p) as [c args|v|]; cbn in Et; try discriminate.
    injection Et as <-. cbn [tp_symbol tp_args]. split; [exact Ep|]. intros Hb. apply (pat_vars_below _ _ _ Ep) in Hb.
    assert (L : length (pr_ctx r) = length ctx) by (clear - Hc; induction Hc; cbn; congruence).
    rewrite <- L. exact Hb.
  Qed.
  Lemma main_share_rule_complete r lhs c ps :
    Forall (fun s => R s <> None) (rule_consts r) -> denotes R (pr_lhs r) lhs -> pat_denotes (length (pr_ctx r)) (PatSymb c ps) lhs ->
    exists r', share_rule syms r = Ok r' /\ tp_symbol (r_lhs r') = c /\ map erp (tp_args (r_lhs r')) = ps.
  Proof.
    intros Hr Hd HP. unfold rule_consts in Hr. apply Forall_app in Hr as [H1 Hr]. apply Forall_app in Hr as [H2 H3].
    unfold share_rule. pose proof (share_ctx_ok (pr_ctx r)) as Hc. apply shares_cases in Hc as [Hc _].
    destruct (proj2 Hc H1) as [ctx ->]. cbn [res_bind]. destruct (proj2 (main_share_ok _) H2) as [l El]. rewrite El. cbn [res_bind].
    destruct (main_share_struct _ _ El) as (D & Pl & _). rewrite (denotes_det _ _ _ Hd D) in HP.
    destruct (pat_complete _ _ Pl _ HP) as (p & -> & Ep). cbn [res_bind]. destruct (joke (length (pr_ctx r)) p) as [c' args|v|] eqn:J; try discriminate.
    cbn in Ep. injection Ep as -> <-. cbn [top_pattern res_bind]. destruct (proj2 (main_share_ok _) H3) as [rhs ->]. cbn [res_bind].
    eexists. split; [reflexivity|]. auto.
  Qed.
  Lemma main_share_rule_err r e : share_rule syms r = Err e ->
    match e with
    | UndeclaredSymbol x => exists s, In s (rule_consts r) /\ R s = None /\ x = symb_show s
    | NoPrepattern => exists lhs, denotes R (pr_lhs r) lhs /\ forall P, ~ pat_denotes (length (pr_ctx r)) P lhs
    | NoTopPattern => exists v, denotes R (pr_lhs r) (Var v)
    end.
  Proof.
    unfold share_rule, rule_consts. intros E.
    pose proof (share_ctx_ok (pr_ctx r)) as Hc. apply shares_cases in Hc as (_ & Hc & Hc1 & Hc2).
    destruct (map_res _ (pr_ctx r)) as [ctx|e'| |]; try congruence; cbn [res_bind] in E.
    2:{ injection E as ->. destruct (Hc _ eq_refl) as (s & Hs & Hs' & ->). exists s. split; [apply in_or_app; auto|auto]. }
    pose proof (share_term_ok (pr_lhs r)) as Hl. pose proof Hl as Hl0. apply shares_cases in Hl as (_ & Hl & Hl1 & Hl2).
    destruct (share_term syms (pr_lhs r)) as [lhs|e'| |] eqn:El; try congruence; cbn [res_bind] in E.
    2:{ injection E as ->. destruct (Hl _ eq_refl) as (s & Hs & Hs' & ->). exists s. rewrite !in_app_iff; auto. }
    destruct Hl0 as [_ (D & Pl & _)].
    destruct (pattern_of_lterm_cases lhs) as [[p Ep]|Ep]; rewrite Ep in E; cbn [res_bind] in E.
    2:{ injection E as <-. exists (erl lhs). split; [exact D|]. intros P HP. destruct (pat_complete _ _ Pl _ HP) as (p & Ep' & _). congruence. }
    apply (pat_sound (length (pr_ctx r))) in Ep. destruct (joke (length (pr_ctx r)) p) as [c args|v|]; cbn [top_pattern res_bind] in E.
    - pose proof (share_term_ok (pr_rhs r)) as Hr. apply shares_cases in Hr as (_ & Hr & Hr1 & Hr2).
      destruct (share_term syms (pr_rhs r)) as [rhs|e'| |]; try congruence; cbn [res_bind] in E; [discriminate|].
      injection E as ->. destruct (Hr _ eq_refl) as (s & Hs & Hs' & ->). exists s. rewrite !in_app_iff; auto.
    - injection E as <-. inversion Ep; subst. exists v. congruence.
    - injection E as <-. inversion Ep; subst. exists (length (pr_ctx r)). congruence.
  Qed.
  Lemma share_rule_total r : share_rule syms r <> Panic /\ share_rule syms r <> Fuel.
  Proof.
    unfold share_rule.
    pose proof (share_ctx_ok (pr_ctx r)) as Hc. apply shares_cases in Hc as (_ & _ & Hc1 & Hc2).
    destruct (map_res _ (pr_ctx r)) as [ctx|e'| |]; try congruence; cbn [res_bind]; [|split; discriminate].
    destruct (main_share_err (pr_lhs r)) as (_ & Hl1 & Hl2).
    destruct (share_term syms (pr_lhs r)) as [lhs|e'| |]; try congruence; cbn [res_bind]; [|split; discriminate].
    destruct (pattern_of_lterm_cases lhs) as [[p ->]| ->]; cbn [res_bind]; [|split; discriminate].
    destruct (joke _ p); cbn [top_pattern res_bind]; try (split; discriminate).
    destruct (main_share_err (pr_rhs r)) as (_ & Hr1 & Hr2).
    destruct (share_term syms (pr_rhs r)) as [rhs|e'| |]; try congruence; cbn [res_bind]; split; discriminate.
  Qed.
  Lemma main_share_rules rules :
    match share_command syms (PRules rules) with
    | Ok (CRules rules') => Forall2 (fun r r' => share_rule syms r = Ok r') rules rules'
    | Ok (CIntro _ _) => False
    | Err e => exists pre r post, rules = pre ++ r :: post /\ Forall (fun r => exists r', share_rule syms r = Ok r') pre /\ share_rule syms r = Err e
    | _ => False
    end.
  Proof.
    cbn [share_command]. induction rules as [|r rules IH]; cbn [map_res]; [constructor|].
    pose proof (share_rule_total r) as Ht. destruct (share_rule syms r) as [r'|e| |] eqn:Er; try (destruct Ht; congruence); cbn [res_bind].
    - destruct (map_res (share_rule syms) rules) as [rs|e| |]; cbn in IH |- *; auto.
      destruct IH as (pre & r0 & post & -> & H1 & H2). exists (r :: pre), r0, post. split; [reflexivity|]. split; [|exact H2]. constructor; eauto.
    - exists [], r, rules. auto.
  Qed.
End Share.
