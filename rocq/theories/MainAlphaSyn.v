(** * Lemmas for C79: elaboration forgets the names of bound variables *)

From Verif Require Import Base ModelTerm ModelGctx ModelCommand ModelSyntax ModelSymbols ModelShare
  SpecTerm SpecConv SpecSyntax SpecSymbols SpecShare SpecProcess SpecProgram SpecAlpha Erase MainVerify.

Definition anon : str := $"$".
Fixpoint pa (t : pterm atom) : pterm atom :=
  let '(PTm h args) := t in
  PTm (match h with
       | HAtom a => HAtom a
       | HAbst _ ty t => HAbst anon (option_map pa ty) (pa t)
       | HProd _ ty t => HProd None (pa ty) (pa t)
       end) (map pa args).
Definition pa_args (args : list (str * pterm atom)) := map (fun x => (anon, pa (snd x))) args.
Definition pa_vars (vars : list (str * option (pterm atom))) := map (fun x => (anon, option_map pa (snd x))) vars.
Definition pa_rule (r : prule_ (pterm atom)) : prule_ (pterm atom) := MkPRule (pa_vars (pr_ctx r)) (pa (pr_lhs r)) (pa (pr_rhs r)).
Definition pa_intro (it : intro_ (pterm atom) (pterm atom)) : intro_ (pterm atom) (pterm atom) :=
  match it with
  | IDefinition ty tm => IDefinition (option_map pa ty) (option_map pa tm)
  | ITheorem ty tm => ITheorem (pa ty) (pa tm)
  | IDeclaration inj ty => IDeclaration inj (pa ty)
  end.
Definition pa_cmd (c : scoped) : scoped :=
  match c with
  | PIntro x args it => PIntro x (pa_args args) (pa_intro it)
  | PRules rules => PRules (map pa_rule rules)
  end.

(** ** Scoping *)
Lemma alpha_index e x x' : alpha_name e x x' -> index_of x (map fst e) = index_of x' (map snd e) /\ (index_of x (map fst e) = None -> x = x').
Proof.
  induction 1 as [x|x x' e|y y' e x x' H1 H2 _ [IH1 IH2]]; cbn [map index_of fst snd]; [split; reflexivity| |].
  - rewrite !str_eqb_refl. split; [reflexivity|discriminate].
  - assert (X : forall y x (e : env), y <> Some x -> match y with Some z => if str_eqb z x then Some 0 else option_map S (index_of x e) | None => option_map S (index_of x e) end = option_map S (index_of x e)).
    { intros [z|] z' l Hn; [|reflexivity]. replace (str_eqb z z') with false; [reflexivity|]. symmetry. apply str_eqb_neq. congruence. }
    rewrite !X by assumption. rewrite IH1. split; [reflexivity|]. intros E. apply IH2. rewrite IH1. destruct (index_of x' _); [discriminate|reflexivity].
Qed.
Lemma alpha_scope_of e s s' : alpha_symb e s s' -> scope_of (map fst e) s = scope_of (map snd e) s'.
Proof.
  intros [x x' H|p path x]; [|reflexivity]. unfold scope_of. cbn. apply alpha_index in H as [H1 H2]. rewrite <- H1.
  destruct (index_of x (map fst e)); [reflexivity|]. rewrite (H2 eq_refl). reflexivity.
Qed.
Lemma alpha_scope t : forall e t', alpha e t t' -> pa (scope_term (map fst e) t) = pa (scope_term (map snd e) t').
Proof.
  induction t as [h args Hh Ha] using pterm_ind'. intros e t' H. inversion H as [? ? h' ? args' H1 H2]; subst. cbn [scope_term pa]. f_equal.
  - destruct H1 as [e s s' Hs|e x x' t t' Ht|e x x' A A' t t' HA Ht|e x x' A A' t t' HA Ht]; cbn [apph_all] in Hh.
    + f_equal. apply alpha_scope_of. exact Hs.
    + destruct Hh as [_ Hh]. cbn [option_map]. f_equal. exact (Hh _ _ Ht).
    + destruct Hh as [HhA Hh]. cbn [option_map]. rewrite (HhA _ _ HA). f_equal. exact (Hh _ _ Ht).
    + destruct Hh as [HhA Hh]. rewrite (HhA _ _ HA). f_equal. exact (Hh _ _ Ht).
  - clear H H1 Hh. rewrite !map_map. induction H2 as [|a a' args args' Hx _ IH]; [reflexivity|]. apply Forall_cons_iff in Ha as [Ha1 Ha2]. cbn [map]. f_equal; auto.
Qed.
Lemma alpha_scope_opt e t t' : alpha_opt e t t' -> option_map pa (option_map (scope_term (map fst e)) t) = option_map pa (option_map (scope_term (map snd e)) t').
Proof. intros [|u u' H]; [reflexivity|]. cbn. f_equal. apply alpha_scope. exact H. Qed.
Lemma alpha_scope_args e args args' e' : alpha_args e args args' e' ->
  exists l l', scope_args (map fst e) args = (l, map fst e') /\ scope_args (map snd e) args' = (l', map snd e') /\ pa_args l = pa_args l'.
Proof.
  induction 1 as [e|e x x' A A' args args' e' HA _ (l & l' & H1 & H2 & H3)]; [exists [], []; auto|]. cbn [scope_args]. cbn [map fst snd] in H1, H2. rewrite H1, H2.
  eexists _, _. split; [reflexivity|]. split; [reflexivity|]. unfold pa_args in *. cbn [map snd]. rewrite H3, (alpha_scope _ _ _ HA). reflexivity.
Qed.
Lemma alpha_scope_vars e vars vars' e' : alpha_vars e vars vars' e' ->
  exists l l', scope_vars (map fst e) vars = (l, map fst e') /\ scope_vars (map snd e) vars' = (l', map snd e') /\ pa_vars l = pa_vars l'.
Proof.
  induction 1 as [e|e x x' A A' args args' e' HA _ (l & l' & H1 & H2 & H3)]; [exists [], []; auto|]. cbn [scope_vars]. cbn [map fst snd] in H1, H2. rewrite H1, H2.
  eexists _, _. split; [reflexivity|]. split; [reflexivity|]. unfold pa_vars in *. cbn [map snd]. rewrite H3, (alpha_scope_opt _ _ _ HA). reflexivity.
Qed.
Lemma alpha_scope_rule r r' : alpha_rule r r' -> pa_rule (scope_rule r) = pa_rule (scope_rule r').
Proof.
  intros [vars vars' e lhs lhs' rhs rhs' Hv Hl Hr]. destruct (alpha_scope_vars _ _ _ _ Hv) as (l & l' & H1 & H2 & H3). cbn in H1, H2.
  unfold scope_rule. cbn [pr_ctx pr_lhs pr_rhs]. rewrite H1, H2. unfold pa_rule. cbn [pr_ctx pr_lhs pr_rhs]. rewrite H3, (alpha_scope _ _ _ Hr). apply alpha_scope in Hl. rewrite !map_app in Hl. f_equal. exact Hl.
Qed.
Lemma alpha_scope_command c c' : alpha_command c c' -> pa_cmd (scope_command c) = pa_cmd (scope_command c').
Proof.
  intros [x args args' e it it' Ha Hi|rules rules' H].
  - destruct (alpha_scope_args _ _ _ _ Ha) as (l & l' & H1 & H2 & H3). cbn in H1, H2. unfold scope_command. rewrite H1, H2. cbn [pa_cmd]. rewrite H3. f_equal.
    destruct Hi as [A A' t t' HA Ht|A A' t t' HA Ht|inj A A' HA]; cbn [scope_intro pa_intro].
    + rewrite (alpha_scope_opt _ _ _ HA), (alpha_scope_opt _ _ _ Ht). reflexivity.
    + rewrite (alpha_scope _ _ _ HA), (alpha_scope _ _ _ Ht). reflexivity.
    + rewrite (alpha_scope _ _ _ HA). reflexivity.
  - cbn. f_equal. induction H as [|r r' rs rs' Hr _ IH]; [reflexivity|]. cbn [map]. rewrite IH, (alpha_scope_rule _ _ Hr). reflexivity.
Qed.

(** ** Denotations *)
Section Den.
  Variable R : symb -> option nat.
  Lemma den_pa t : forall u, denotes R t u <-> denotes R (pa t) u.
  Proof.
    induction t as [h args Hh Ha] using pterm_ind'. intros u. cbn [pa].
    assert (Hargs : forall us, Forall2 (denotes R) args us <-> Forall2 (denotes R) (map pa args) us).
    { clear Hh. induction Ha as [|a args Ha _ IH]; intros us; cbn [map]; [reflexivity|]. split; intros X; inversion X; subst; constructor; try (apply Ha; assumption); apply IH; assumption. }
    set (h' := match h with HAtom a => HAtom a | HAbst _ ty t => HAbst anon (option_map pa ty) (pa t) | HProd _ ty t => HProd None (pa ty) (pa t) end).
    assert (Hhead : forall v, den_head R h v <-> den_head R h' v).
    { intros v. subst h'. destruct h as [a|x [A|] t|x A t]; cbn [apph_all option_map] in *; [reflexivity| | |].
      - destruct Hh as [HA Ht]. split; intros X; inversion X; subst; constructor; try (apply HA; assumption); apply Ht; assumption.
      - destruct Hh as [_ Ht]. split; intros X; inversion X; subst; constructor; apply Ht; assumption.
      - destruct Hh as [HA Ht]. split; intros X; inversion X; subst; constructor; try (apply HA; assumption); apply Ht; assumption. }
    split; intros X; inversion X; subst; constructor; try (apply Hhead; assumption); apply Hargs; assumption.
  Qed.
  Ltac pa_go := first [apply (proj1 (den_pa _ _)); assumption|apply (proj2 (den_pa _ _)); assumption].
  Lemma elab_opt_pa t u : elab_opt R t u <-> elab_opt R (option_map pa t) u.
  Proof. destruct t as [t|]; cbn; [|reflexivity]. split; intros X; inversion X; subst; constructor; pa_go. Qed.
  Ltac pa_go2 := first [pa_go|apply (proj1 (elab_opt_pa _ _)); assumption|apply (proj2 (elab_opt_pa _ _)); assumption].
  Lemma elab_intro_pa it v : elab_intro R it v <-> elab_intro R (pa_intro it) v.
  Proof.
    destruct it as [A t|A t|inj A]; cbn; split; intros X; inversion X; subst; constructor; pa_go2.
  Qed.
  Lemma elab_rule_pa r v : elab_rule R r v <-> elab_rule R (pa_rule r) v.
  Proof.
    assert (Hc : forall l l', Forall2 (elab_opt R) (map snd l) l' <-> Forall2 (elab_opt R) (map snd (pa_vars l)) l').
    { induction l as [|[x o] l IH]; intros l'; cbn [map pa_vars snd]; [reflexivity|]. split; intros X; inversion X; subst; constructor; first [pa_go2|apply IH; assumption]. }
    assert (Hl : forall l, length (pa_vars l) = length l) by (intros l; apply map_length).
    destruct r as [ctx lhs rhs]. unfold pa_rule. cbn [pr_ctx pr_lhs pr_rhs]. split; intros X; inversion X as [? ctx' ? lhs' c ps ? rhs' X1 X2 X3 X4]; subst; apply (el_rule R) with (lhs' := lhs').
    - apply (proj1 (Hc _ _)). exact X1.
    - apply (proj1 (den_pa _ _)). exact X2.
    - rewrite Hl. exact X3.
    - apply (proj1 (den_pa _ _)). exact X4.
    - apply (proj2 (Hc _ _)). exact X1.
    - apply (proj2 (den_pa _ _)). exact X2.
    - rewrite Hl in X3. exact X3.
    - apply (proj2 (den_pa _ _)). exact X4.
  Qed.
End Den.
Lemma nest_prods_pa args : forall t, pa (nest_prods args t) = pa (nest_prods (pa_args args) (pa t)).
Proof.
  assert (P : forall t, pa (pa t) = pa t).
  { induction t as [h args' Hh Ha] using pterm_ind'. cbn [pa]. f_equal.
    - destruct h as [a|x [A|] t|x A t]; cbn [apph_all option_map] in *; [reflexivity| | |]; destruct Hh as [H1 H2]; rewrite ?H1, ?H2; reflexivity.
    - rewrite map_map. clear Hh. induction Ha as [|a args' H _ IH]; cbn [map]; [reflexivity|]. rewrite H, IH. reflexivity. }
  induction args as [|[x A] args IH]; intros t; cbn [nest_prods pa_args map snd]; [symmetry; apply P|]. cbn [pa map option_map]. rewrite P. specialize (IH t). unfold pa_args in IH. rewrite IH. reflexivity.
Qed.
Lemma nest_absts_pa args : forall t, pa (nest_absts args t) = pa (nest_absts (pa_args args) (pa t)).
Proof.
  assert (P : forall t, pa (pa t) = pa t).
  { induction t as [h args' Hh Ha] using pterm_ind'. cbn [pa]. f_equal.
    - destruct h as [a|x [A|] t|x A t]; cbn [apph_all option_map] in *; [reflexivity| | |]; destruct Hh as [H1 H2]; rewrite ?H1, ?H2; reflexivity.
    - rewrite map_map. clear Hh. induction Ha as [|a args' H _ IH]; cbn [map]; [reflexivity|]. rewrite H, IH. reflexivity. }
  induction args as [|[x A] args IH]; intros t; cbn [nest_absts pa_args map snd]; [symmetry; apply P|]. cbn [pa map option_map]. rewrite P. specialize (IH t). unfold pa_args in IH. rewrite IH. reflexivity.
Qed.
Lemma nest_pa args it : pa_intro (nest args it) = pa_intro (nest (pa_args args) (pa_intro it)).
Proof.
  destruct it as [[A|] [t|]|A t|inj A]; cbn; rewrite <- ?nest_prods_pa, <- ?nest_absts_pa; reflexivity.
Qed.

(** ** Elaboration *)
Lemma elab_command_alpha ops n c c' v ops' n' : pa_cmd (scope_command c) = pa_cmd (scope_command c') -> elab_command ops n c v ops' n' -> elab_command ops n c' v ops' n'.
Proof.
  intros E H. destruct H as [c x args it it' R H1 H2 H3 H4|c rules rules' R H1 H2 H3]; rewrite H1 in E; cbn [pa_cmd] in E;
    destruct (scope_command c') as [y args' itt|rs'] eqn:E'; cbn [pa_cmd] in E; try discriminate.
  - injection E as <- Ea Ei. eapply el_intro; [exact E'|exact H2| |exact H4]. apply (proj2 (elab_intro_pa _ _ _)). rewrite nest_pa, <- Ea, <- Ei, <- nest_pa. apply (proj1 (elab_intro_pa _ _ _)). exact H3.
  - injection E as E. eapply el_rules; [exact E'|exact H2|]. clear - E H3. revert rs' E. induction H3 as [|r v rules rules' Hr _ IH]; intros [|r' rs'] E; try discriminate; [constructor|].
    assert (E1 := f_equal (hd (pa_rule r)) E). assert (E2 := f_equal (@tl _) E). cbn [map hd tl] in E1, E2.
    constructor; [|apply IH; exact E2]. apply (proj2 (elab_rule_pa _ _ _)). rewrite <- E1. apply (proj1 (elab_rule_pa _ _ _)). exact Hr.
Qed.
Lemma elab_commands_alpha ops n cs vs ops' n' : elab_commands ops n cs vs ops' n' -> forall cs', Forall2 alpha_command cs cs' -> elab_commands ops n cs' vs ops' n'.
Proof.
  induction 1 as [|ops n c v ops1 n1 cs vs ops2 n2 Hc _ IH]; intros cs' H; inversion H; subst; [constructor|]. econstructor; [|apply IH; assumption].
  eapply elab_command_alpha; [|exact Hc]. apply alpha_scope_command. assumption.
Qed.
Lemma elab_sources_alpha ops n srcs vs : elab_sources ops n srcs vs -> forall srcs', alpha_sources srcs srcs' -> elab_sources ops n srcs' vs.
Proof.
  induction 1 as [|ops n m cs vs ops1 n1 srcs vs' Hc _ IH]; intros srcs' H; inversion H as [|? [m' cs'] ? ? [Hm Hcs] ?]; subst; [constructor|]. cbn in Hm, Hcs. subst m'.
  econstructor; [|apply IH; assumption]. eapply elab_commands_alpha; eassumption.
Qed.
(** ** Symmetry *)
Definition swap (e : env2) : env2 := map (fun x => (snd x, fst x)) e.
Lemma alpha_name_sym e x x' : alpha_name e x x' -> alpha_name (swap e) x' x.
Proof. induction 1; cbn; constructor; assumption. Qed.
Lemma alpha_sym t : forall e t', alpha e t t' -> alpha (swap e) t' t.
Proof.
  induction t as [h args Hh Ha] using pterm_ind'. intros e t' H. inversion H as [? ? h' ? args' H1 H2]; subst. constructor.
  - destruct H1 as [e s s' Hs|e x x' t t' Ht|e x x' A A' t t' HA Ht|e x x' A A' t t' HA Ht]; cbn [apph_all] in Hh; try destruct Hh as [HhA Hh]; constructor; auto.
    + destruct Hs; constructor. apply alpha_name_sym. assumption.
    + exact (Hh _ _ Ht).
    + exact (Hh _ _ Ht).
    + exact (Hh _ _ Ht).
  - clear H H1 Hh. induction H2 as [|a a' args args' Hx _ IH]; [constructor|]. apply Forall_cons_iff in Ha as [Ha1 Ha2]. constructor; auto.
Qed.
Lemma alpha_opt_sym e t t' : alpha_opt e t t' -> alpha_opt (swap e) t' t.
Proof. intros [|u u' H]; constructor. apply alpha_sym. exact H. Qed.
Lemma alpha_sources_sym srcs srcs' : alpha_sources srcs srcs' -> alpha_sources srcs' srcs.
Proof.
  induction 1 as [|src src' srcs srcs' [Hm H] _ IH]; constructor; [|exact IH]. split; [congruence|]. clear - H.
  induction H as [|c c' cs cs' H _ IH]; constructor; [|exact IH]. destruct H as [x args args' e it it' Ha Hi|rules rules' H].
  - eapply (al_intro _ _ _ (swap e)).
    + clear Hi. change (@nil (option str * option str)) with (swap []). induction Ha; cbn [swap map]; constructor; [apply alpha_sym; assumption|assumption].
    + destruct Hi; constructor; auto using alpha_sym, alpha_opt_sym.
  - constructor. induction H as [|r r' rs rs' H _ IHr]; constructor; [|exact IHr]. destruct H as [vars vars' e lhs lhs' rhs rhs' Hv Hl Hr]. eapply (al_rule _ _ (swap e)).
    + clear Hl Hr. change (@nil (option str * option str)) with (swap []). induction Hv; cbn [swap map]; constructor; [apply alpha_opt_sym; assumption|assumption].
    + apply alpha_sym in Hl. unfold swap in Hl. rewrite map_app in Hl. exact Hl.
    + apply alpha_sym. exact Hr.
Qed.
Lemma main_alpha_elaborates srcs srcs' vs : alpha_sources srcs srcs' -> (elaborates srcs vs <-> elaborates srcs' vs).
Proof. intros H. split; intros E; eapply elab_sources_alpha; try exact E; [exact H|apply alpha_sources_sym; exact H]. Qed.

(** ** Sharing *)
Fixpoint la (t : lterm) : lterm :=
  match t with
  | LComb (Appl h args) => LComb (Appl (la h) (map la args))
  | LComb (Prod _ a b) => LComb (Prod anon (la a) (la b))
  | LComb (Abst _ a b) => LComb (Abst anon (option_map la a) (la b))
  | _ => t
  end.
Lemma erl_la t : erl (la t) = erl t.
Proof.
  induction t as [|c|n|c IH] using lterm_ind'; cbn; auto. destruct c as [h args|id a b|id [a|] b]; cbn [comb_all la erl er_comb option_map] in *.
  - destruct IH as [Hh Ha]. rewrite Hh. f_equal. rewrite map_map. induction Ha as [|a args H _ IH]; cbn [map]; [reflexivity|]. rewrite H, IH. reflexivity.
  - destruct IH as [-> ->]. reflexivity.
  - destruct IH as [-> ->]. reflexivity.
  - destruct IH as [_ ->]. reflexivity.
Qed.
Section Sh.
  Variable syms : symbols.
  Lemma map_res_la {A B E} (f : A -> res E B) (g : A -> A) (h : B -> B) l : Forall (fun a => f (g a) = res_map h (f a)) l ->
    map_res f (map g l) = res_map (map h) (map_res f l).
  Proof.
    induction 1 as [|a l H _ IH]; [reflexivity|]. cbn [map map_res]. rewrite H. destruct (f a); cbn; [|reflexivity..]. rewrite IH. destruct (map_res f l); reflexivity.
  Qed.
  Lemma share_pa t : share_term syms (pa t) = res_map la (share_term syms t).
  Proof.
    induction t as [h args Hh Ha] using pterm_ind'. cbn [pa share_term].
    assert (H1 : share_apph syms (share_term syms) (match h with HAtom a => HAtom a | HAbst _ ty t => HAbst anon (option_map pa ty) (pa t) | HProd _ ty t => HProd None (pa ty) (pa t) end)
      = res_map la (share_apph syms (share_term syms) h)).
    { destruct h as [[c|v|]|x [A|] t|x A t]; cbn [apph_all share_apph option_map opt_res] in *.
      - destruct (share_symb syms c); reflexivity.
      - reflexivity.
      - reflexivity.
      - destruct Hh as [HA Ht]. rewrite HA, Ht. destruct (share_term syms A); cbn; [|reflexivity..]. destruct (share_term syms t); reflexivity.
      - destruct Hh as [_ Ht]. cbn. rewrite Ht. destruct (share_term syms t); reflexivity.
      - destruct Hh as [HA Ht]. rewrite HA, Ht. destruct (share_term syms A); cbn; [|reflexivity..]. destruct (share_term syms t); reflexivity. }
    rewrite H1. destruct (share_apph syms (share_term syms) h) as [head|e| |]; cbn [res_map res_bind]; [|reflexivity..].
    destruct args as [|a args]; cbn [map]; [reflexivity|]. change (pa a :: map pa args) with (map pa (a :: args)). rewrite (map_res_la (share_term syms) pa la _ Ha).
    destruct (map_res (share_term syms) (a :: args)); reflexivity.
  Qed.
  Lemma share_pa_opt t : opt_res (share_term syms) (option_map pa t) = res_map (option_map la) (opt_res (share_term syms) t).
  Proof. destruct t as [t|]; cbn; [|reflexivity]. rewrite share_pa. destruct (share_term syms t); reflexivity. Qed.
  Lemma pattern_la t : pattern_of_lterm (la t) = pattern_of_lterm t.
  Proof.
    induction t as [|c|n|c IH] using lterm_ind'; try reflexivity. destruct c as [h args|id a b|id [a|] b]; try reflexivity. cbn [comb_all la pattern_of_lterm] in *.
    destruct IH as [Hh Ha]. rewrite Hh. destruct (pattern_of_lterm h) as [p|e| |]; cbn [res_bind]; [|reflexivity..]. destruct p; [|reflexivity..].
    assert (X : map_res pattern_of_lterm (map la args) = map_res pattern_of_lterm args).
    { clear Hh. induction Ha as [|a args H _ IH]; [reflexivity|]. cbn [map map_res]. rewrite H, IH. reflexivity. }
    rewrite X. reflexivity.
  Qed.
  Definition la_rule (r : rule) : rule := MkRule (map (fun x => (anon, option_map la (snd x))) (r_ctx r)) (r_lhs r) (la (r_rhs r)).
  Lemma share_rule_pa r : share_rule syms (pa_rule r) = res_map la_rule (share_rule syms r).
  Proof.
    destruct r as [ctx lhs rhs]. unfold share_rule, pa_rule. cbn [pr_ctx pr_lhs pr_rhs]. rewrite share_pa, share_pa.
    assert (X : forall l, map_res (fun '(id, ty) => res_map (fun ty => (id, ty)) (opt_res (share_term syms) ty)) (pa_vars l) =
      res_map (map (fun x => (anon, option_map la (snd x)))) (map_res (fun '(id, ty) => res_map (fun ty => (id, ty)) (opt_res (share_term syms) ty)) l)).
    { set (F := fun '(id, ty) => res_map (fun ty0 : option lterm => (id, ty0)) (opt_res (share_term syms) ty)).
      intros l. apply (map_res_la F (fun x => (anon, option_map pa (snd x))) (fun x => (anon, option_map la (snd x)))). apply Forall_forall. intros [x o] _. unfold F. cbn [snd].
      rewrite share_pa_opt. destruct (opt_res (share_term syms) o); reflexivity. }
    rewrite X. unfold pa_vars at 1. rewrite map_length. destruct (map_res _ ctx) as [ctx'|e| |]; cbn [res_map res_bind]; [|reflexivity..].
    destruct (share_term syms lhs) as [lhs'|e| |]; cbn [res_map res_bind]; [|reflexivity..]. rewrite pattern_la.
    destruct (pattern_of_lterm lhs') as [p|e| |]; cbn [res_map res_bind]; [|reflexivity..]. destruct (top_pattern _) as [q|e| |]; cbn [res_map res_bind]; [|reflexivity..].
    destruct (share_term syms rhs) as [rhs'|e| |]; reflexivity.
  Qed.
  Definition la_intro (it : intro) : intro := map_type la (map_term la it).
  Lemma share_intro_pa it : share_intro syms (pa_intro it) = res_map la_intro (share_intro syms it).
  Proof.
    destruct it as [A t|A t|inj A]; cbn [pa_intro share_intro]; rewrite ?share_pa_opt, ?share_pa.
    - destruct (opt_res _ A); cbn; [|reflexivity..]. destruct (opt_res _ t); reflexivity.
    - destruct (share_term syms A); cbn; [|reflexivity..]. destruct (share_term syms t); reflexivity.
    - destruct (share_term syms A); reflexivity.
  Qed.
  Lemma share_args_pa rargs : forall it, share_args syms (la_intro it) (pa_args rargs) = res_map la_intro (share_args syms it rargs).
  Proof.
    induction rargs as [|[x A] rargs IH]; intros it; [reflexivity|]. cbn [pa_args map share_args snd]. rewrite share_pa. destruct (share_term syms A) as [a|e| |]; cbn [res_map res_bind]; [|reflexivity..].
    rewrite <- IH. unfold pa_args. f_equal. destruct it as [[B|] [t|]|B t|inj B]; reflexivity.
  Qed.
  Definition la_command (c : command_ str intro rule) : command_ str intro rule :=
    match c with CIntro x it => CIntro x (la_intro it) | CRules rs => CRules (map la_rule rs) end.
  Lemma share_command_pa c : share_command syms (pa_cmd c) = res_map la_command (share_command syms c).
  Proof.
    destruct c as [x args it|rs]; cbn [pa_cmd share_command].
    - rewrite share_intro_pa. destruct (share_intro syms it) as [it'|e| |]; cbn [res_map res_bind]; [|reflexivity..].
      unfold pa_args at 1. rewrite <- map_rev. fold (pa_args (rev args)). rewrite share_args_pa. destruct (share_args syms it' (rev args)); reflexivity.
    - rewrite (map_res_la (share_rule syms) pa_rule la_rule); [destruct (map_res _ rs); reflexivity|]. apply Forall_forall. intros r _. apply share_rule_pa.
  Qed.
End Sh.
