(** * The command parser implements the grammar of commands *)

From Verif Require Import Base ModelSyntax ModelCommand ModelLex ModelParse ParseAuto SpecParse SpecSyntax ParseTerm.

Local Notation tms := (pterm symb).
Local Notation srunS := (srun symb scope_symb).
Local Notation sstepS := (sstep symb scope_symb).

Ltac listeq := repeat first [rewrite <- app_assoc | progress cbn [app]]; reflexivity.

Definition nocomment (tok : token) : Prop := is_comment tok = false.

(** ** Completeness *)
Lemma srun_tfold cmd b ts : expects_term cmd = true -> forall st stk st1 stk1 r,
  tfold b st stk ts = Some (st1, stk1) ->
  srunS (MkPState cmd st) (MkTctx b stk) (ts ++ r) = srunS (MkPState cmd st1) (MkTctx b stk1) r.
Proof.
  intros He. induction ts as [|tok ts IH]; intros st stk st1 stk1 r.
  - cbn. intros [= <- <-]. reflexivity.
  - cbn [tfold app]. destruct (is_comment tok) eqn:Ec; [discriminate|].
    rewrite srun_cons by exact Ec. unfold sstep. cbn [ps_cmd ps_trm tc_bound tc_stack]. rewrite He.
    destruct (tstep symb scope_symb b st stk tok); try discriminate. cbn [s_then]. apply IH.
Qed.

Lemma srun_term cmd b ts t tok r : expects_term cmd = true -> gterm ts t -> ends_term tok ->
  srunS (MkPState cmd SInit) (MkTctx b []) (ts ++ tok :: r) =
  s_then symb scope_symb (let '(r, b') := apply cmd b t tok in cmd_out symb r (MkTctx b' [])) r.
Proof.
  intros He Ht Hk. destruct (complete_done ts t b Ht tok Hk) as (st & stk & H1 & H2).
  rewrite (srun_tfold cmd b ts He _ _ _ _ _ H1).
  rewrite srun_cons by (destruct tok; cbn in Hk; try contradiction; reflexivity).
  unfold sstep. cbn [ps_cmd ps_trm tc_bound tc_stack]. rewrite He, H2. reflexivity.
Qed.

(** a token that is not part of a term *)
Lemma srun_tok cmd b tok r : expects_term cmd = false -> is_comment tok = false ->
  srunS (MkPState cmd SInit) (MkTctx b []) (tok :: r) =
  s_then symb scope_symb (let '(r, b') := cparse cmd b tok in cmd_out symb r (MkTctx b' [])) r.
Proof.
  intros He Hc. rewrite srun_cons by exact Hc. unfold sstep. cbn [ps_cmd ps_trm tc_bound tc_stack]. rewrite He.
  reflexivity.
Qed.

Lemma srun_args ats args : gargs ats args -> forall p x c b r,
  srunS (MkPState (CArgs p x c None) SInit) (MkTctx b []) (ats ++ r)
  = srunS (MkPState (CArgs p x (c ++ map snd args) None) SInit) (MkTctx (b ++ map fst args) []) r.
Proof.
  intros H. induction H as [|y ts ty ts' args Ht H IH]; intros p x c b r.
  - cbn. rewrite !app_nil_r. reflexivity.
  - cbn [app]. rewrite srun_tok by reflexivity.
    replace (cparse (CArgs p x c None) b TLPar) with (Ok (E := cmd_error) (CArgsIn p x c None), b)
      by (destruct p as [[]|]; reflexivity).
    cbn [cmd_out s_then]. rewrite srun_tok by reflexivity. cbn [cparse name_tok symb_new sy_path sy_name apply_name cmd_out s_then].
    rewrite srun_tok by reflexivity. cbn [cparse cmd_out s_then].
    rewrite <- app_assoc. cbn [app]. rewrite srun_term with (t := ty); [|reflexivity|exact Ht|exact I].
    cbn [apply cmd_out s_then]. rewrite IH. cbn [map fst snd]. rewrite <- !app_assoc. reflexivity.
Qed.

Lemma srun_intro pre ts it : gintro pre ts it -> forall x c b r, exists p,
  (forall r, srunS (MkPState CInit SInit) (MkTctx b []) (pre ++ name_tok x :: r)
           = srunS (MkPState (CArgs p x [] None) SInit) (MkTctx b []) r)
  /\ srunS (MkPState (CArgs p x c None) SInit) (MkTctx b []) (ts ++ r)
     = (RCmd symb (PIntro x (combine b c) it) tctx_default, r).
Proof.
  intros H x c b r.
  inversion H as [ts0 ty Ht|ts0 ty Ht|ts0 ty Ht|ts0 t Ht|ts1 ty ts0 t Hty Ht|ts1 ty ts0 t Hty Ht]; subst.
  - exists None. split; [reflexivity|]. cbn [app]. rewrite srun_tok by reflexivity. cbn [cparse cmd_out s_then].
    rewrite <- app_assoc. cbn [app]. rewrite srun_term with (t := ty); [reflexivity|reflexivity|exact Ht|exact I].
  - exists (Some PInj). split; [reflexivity|]. cbn [app]. rewrite srun_tok by reflexivity. cbn [cparse cmd_out s_then].
    rewrite <- app_assoc. cbn [app]. rewrite srun_term with (t := ty); [reflexivity|reflexivity|exact Ht|exact I].
  - exists (Some PDef). split; [reflexivity|]. cbn [app]. rewrite srun_tok by reflexivity. cbn [cparse cmd_out s_then].
    rewrite <- app_assoc. cbn [app]. rewrite srun_term with (t := ty); [reflexivity|reflexivity|exact Ht|exact I].
  - exists (Some PDef). split; [reflexivity|]. cbn [app]. rewrite srun_tok by reflexivity. cbn [cparse cmd_out s_then].
    rewrite <- app_assoc. cbn [app]. rewrite srun_term with (t := t); [reflexivity|reflexivity|exact Ht|exact I].
  - exists (Some PDef). split; [reflexivity|]. cbn [app]. rewrite srun_tok by reflexivity. cbn [cparse cmd_out s_then].
    rewrite <- app_assoc. cbn [app]. rewrite srun_term with (t := ty); [|reflexivity|exact Hty|exact I].
    cbn [apply cmd_out s_then]. rewrite <- app_assoc. cbn [app].
    rewrite srun_term with (t := t); [reflexivity|reflexivity|exact Ht|exact I].
  - exists (Some PThm). split; [reflexivity|]. cbn [app]. rewrite srun_tok by reflexivity. cbn [cparse cmd_out s_then].
    rewrite <- app_assoc. cbn [app]. rewrite srun_term with (t := ty); [|reflexivity|exact Hty|exact I].
    cbn [apply cmd_out s_then]. rewrite <- app_assoc. cbn [app].
    rewrite srun_term with (t := t); [reflexivity|reflexivity|exact Ht|exact I].
Qed.

(** one variable of a rule, followed by a comma or a bracket *)
Lemma srun_var ts v : gvar ts v -> forall c b r,
  srunS (MkPState (CRuleCtx c None) SInit) (MkTctx b []) (ts ++ TComma :: r)
  = srunS (MkPState (CRuleCtx (rc_push c (snd v)) None) SInit) (MkTctx (b ++ [fst v]) []) r
  /\ srunS (MkPState (CRuleCtx c None) SInit) (MkTctx b []) (ts ++ TRBrk :: r)
  = srunS (MkPState (CRuleL (rc_push c (snd v))) SInit) (MkTctx (joker :: b ++ [fst v]) []) r.
Proof.
  intros H c b r. destruct H as [x|x ts ty Ht]; cbn [app].
  - split; (rewrite srun_tok by reflexivity; cbn [cparse name_tok symb_new sy_path sy_name apply_name cmd_out s_then];
      rewrite srun_tok by reflexivity; reflexivity).
  - split; (rewrite srun_tok by reflexivity; cbn [cparse name_tok symb_new sy_path sy_name apply_name cmd_out s_then];
      rewrite srun_tok by reflexivity; cbn [cparse cmd_out s_then];
      rewrite srun_term with (t := ty); [reflexivity|reflexivity|exact Ht|exact I]).
Qed.

Lemma srun_vars vts vs : gvars vts vs -> forall rules vars b r,
  srunS (MkPState (CRuleCtx (MkRuleCtx rules vars) None) SInit) (MkTctx b []) (vts ++ r)
  = srunS (MkPState (CRuleL (MkRuleCtx rules (vars ++ map snd vs))) SInit) (MkTctx (joker :: b ++ map fst vs) []) r.
Proof.
  intros H. induction H as [|ts v Hv|ts v ts' vs Hv H IH]; intros rules vars b r.
  - cbn [app map]. rewrite !app_nil_r. rewrite srun_tok by reflexivity. reflexivity.
  - rewrite <- app_assoc. cbn [app map]. rewrite (proj2 (srun_var ts v Hv _ _ _)). reflexivity.
  - rewrite <- app_assoc. cbn [app map]. rewrite (proj1 (srun_var ts v Hv _ _ _)).
    unfold rc_push. cbn [rc_rules rc_vars]. rewrite IH. rewrite <- !app_assoc. reflexivity.
Qed.

Lemma combine_split {A B} (l : list (A * B)) : combine (map fst l) (map snd l) = l.
Proof. induction l as [|[a b] l IH]; cbn; [reflexivity|]. rewrite IH. reflexivity. Qed.

Lemma srun_rules ts rules : grules ts rules -> exists ts', ts = TLBrk :: ts' /\ forall rs r,
  srunS (MkPState (CRuleCtx (MkRuleCtx rs []) None) SInit) (MkTctx [] []) (ts' ++ r)
  = (RCmd symb (PRules (rs ++ rules)) tctx_default, r).
Proof.
  intros H. induction H as [vts vs lts l rts rt Hv Hl Hr|vts vs lts l rts rt ts rules Hv Hl Hr H IH].
  - exists (vts ++ lts ++ TLongArrow :: rts ++ [TDot]). split; [reflexivity|]. intros rs r.
    rewrite <- app_assoc. rewrite (srun_vars vts vs Hv). cbn [app].
    rewrite <- app_assoc. cbn [app]. rewrite srun_term with (t := l); [|reflexivity|exact Hl|exact I].
    cbn [apply cmd_out s_then]. rewrite <- app_assoc. cbn [app].
    rewrite srun_term with (t := rt); [|reflexivity|exact Hr|exact I].
    cbn [app apply close res_map cmd_out s_then]. unfold rulectx_add. cbn [rc_rules rc_vars]. rewrite combine_split. reflexivity.
  - destruct IH as (ts' & -> & IH).
    exists (vts ++ lts ++ TLongArrow :: rts ++ TLBrk :: ts'). split; [reflexivity|]. intros rs r.
    rewrite <- app_assoc. rewrite (srun_vars vts vs Hv). cbn [app].
    rewrite <- app_assoc. cbn [app]. rewrite srun_term with (t := l); [|reflexivity|exact Hl|exact I].
    cbn [apply cmd_out s_then]. rewrite <- app_assoc. cbn [app].
    rewrite srun_term with (t := rt); [|reflexivity|exact Hr|exact I].
    cbn [app apply cmd_out s_then]. unfold rulectx_add. cbn [rc_rules rc_vars]. rewrite combine_split. rewrite IH.
    rewrite <- app_assoc. reflexivity.
Qed.

Lemma srun_command ts c : gcommand ts c -> forall r,
  srunS pstate_default tctx_default (ts ++ r) = (RCmd symb c tctx_default, r).
Proof.
  intros H r. destruct H as [pre x ats args ts it Hi Ha|ts rules Hr].
  - rewrite <- app_assoc. cbn [app].
    destruct (srun_intro pre ts it Hi x (map snd args) [] r) as (p & H1 & _).
    change (@pstate_default symb) with (MkPState (A := symb) CInit SInit). change (@tctx_default symb) with (MkTctx (A := symb) [] []) at 1.
    rewrite H1. rewrite <- app_assoc. rewrite (srun_args ats args Ha). cbn [app].
    destruct (srun_intro pre ts it Hi x (map snd args) (map fst args) r) as (p' & H1' & H2').
    assert (Ep : p = p').
    { specialize (H1 []). inversion Hi; subst;
        specialize (H1' []); cbn in H1, H1'; congruence. }
    subst p'. rewrite H2'. rewrite combine_split. reflexivity.
  - destruct (srun_rules ts rules Hr) as (ts' & -> & H). cbn [app].
    change (@pstate_default symb) with (MkPState (A := symb) CInit SInit). change (@tctx_default symb) with (MkTctx (A := symb) [] []) at 1.
    rewrite srun_tok by reflexivity. cbn [cparse cmd_out s_then]. apply (H [] r).
Qed.

Lemma srun_pragmas ps : gpragmas ps -> forall r,
  srunS pstate_default tctx_default (ps ++ r) = srunS pstate_default tctx_default r.
Proof.
  intros H. induction H as [|ts ts' Hts H IH]; intros r; [reflexivity|].
  cbn [app]. rewrite <- app_assoc. cbn [app].
  change (@pstate_default symb) with (MkPState (A := symb) CInit SInit). change (@tctx_default symb) with (MkTctx (A := symb) [] []) at 1.
  rewrite srun_tok by reflexivity. cbn [cparse cmd_out s_then].
  induction Hts as [|tok ts [H1 H2] Hts IHts].
  - cbn [app]. rewrite srun_tok by reflexivity. cbn [cparse cmd_out s_then]. apply IH.
  - cbn [app]. assert (is_comment tok = false) by (destruct tok; try reflexivity; exfalso; eapply H2; reflexivity).
    rewrite srun_tok by (auto; reflexivity).
    replace (cparse CPragma [] tok) with (Ok (E := cmd_error) (A := cstate tms) CPragma, @nil str)
      by (destruct tok; try reflexivity; congruence).
    cbn [cmd_out s_then]. exact IHts.
Qed.

(** ** Soundness *)
Definition prefix_tok (p : prefix) : token := match p with PDef => TDef | PThm => TThm | PInj => TInj end.
Definition prefix_toks (p : option prefix) : list token := match p with None => [] | Some p => [prefix_tok p] end.
Definition ofeq_toks (o : option ofeq) : list token :=
  match o with None => [] | Some OOf => [TColon] | Some OEq => [TColonEq] end.
Definition name_toks (y : option (str * bool)) : list token :=
  match y with None => [] | Some (x, false) => [name_tok x] | Some (x, true) => [name_tok x; TColon] end.

(** variables of a rule that are followed by a comma *)
Inductive pvars : list token -> list (str * option tms) -> Prop :=
| pvars_nil : pvars [] []
| pvars_snoc ts vs ts' v : pvars ts vs -> gvar ts' v -> pvars (ts ++ ts' ++ [TComma]) (vs ++ [v]).
(** complete rules, without the final dot *)
Inductive prules : list token -> list (prule_ tms) -> Prop :=
| prules_nil : prules [] []
| prules_snoc ts rules vts vs lts l rts r : prules ts rules -> gvars vts vs -> gterm lts l -> gterm rts r ->
    prules (ts ++ TLBrk :: vts ++ lts ++ TLongArrow :: rts) (rules ++ [MkPRule vs l r]).

Lemma pvars_gvars ts vs : pvars ts vs -> forall ts' vs', gvars ts' vs' -> gvars (ts ++ ts') (vs ++ vs').
Proof.
  intros H. induction H as [|ts vs ts1 v H IH Hv]; intros ts' vs' H'; [exact H'|].
  rewrite <- !app_assoc. cbn [app]. apply IH. apply gvars_more; assumption.
Qed.
Lemma prules_grules ts rules : prules ts rules -> forall ts' rules', grules ts' rules' -> grules (ts ++ ts') (rules ++ rules').
Proof.
  intros H. induction H as [|ts rules vts vs lts l rts r H IH Hv Hl Hr]; intros ts' rules' H'; [exact H'|].
  rewrite <- !app_assoc. cbn [app]. rewrite <- !app_assoc. cbn [app]. apply IH. apply grules_more; assumption.
Qed.
Lemma gargs_snoc ts args : gargs ts args -> forall x ts' ty, gterm ts' ty ->
  gargs (ts ++ TLPar :: name_tok x :: TColon :: ts' ++ [TRPar]) (args ++ [(x, ty)]).
Proof.
  intros H. induction H as [|y ts ty0 ts0 args Ht H IH]; intros x ts' ty Hty.
  - cbn [app]. constructor; [exact Hty|constructor].
  - cbn [app]. rewrite <- app_assoc. cbn [app]. constructor; [exact Ht|]. apply IH. exact Hty.
Qed.
Lemma gpragmas_app ts : gpragmas ts -> forall ts', gpragmas ts' -> gpragmas (ts ++ ts').
Proof.
  intros H. induction H as [|ts ts0 Hts H IH]; intros ts' H'; [exact H'|].
  cbn [app]. rewrite <- app_assoc. cbn [app]. constructor; [exact Hts|]. apply IH. exact H'.
Qed.

Inductive cinv : list token -> cstate tms -> list str -> Prop :=
| ci_init p : gpragmas p -> cinv p CInit []
| ci_pragma p ts : gpragmas p -> Forall (fun t => t <> TDot /\ forall n, t <> TComment n) ts ->
    cinv (p ++ THash :: ts) CPragma []
| ci_prefix p pf : gpragmas p -> cinv (p ++ [prefix_tok pf]) (CPrefix pf) []
| ci_args p pf x ats b c o : gpragmas p -> gargs ats (combine b c) -> length b = length c ->
    (o = Some OEq -> pf = Some PDef) ->
    cinv (p ++ prefix_toks pf ++ name_tok x :: ats ++ ofeq_toks o) (CArgs pf x c o) b
| ci_argsin p pf x ats b c y : gpragmas p -> gargs ats (combine b c) -> length b = length c ->
    cinv (p ++ prefix_toks pf ++ name_tok x :: ats ++ TLPar :: name_toks y) (CArgsIn pf x c y) b
| ci_ofeq p pf x ats b c ts ty : gpragmas p -> gargs ats (combine b c) -> length b = length c -> gterm ts ty ->
    pf = Some PDef \/ pf = Some PThm ->
    cinv (p ++ prefix_toks pf ++ name_tok x :: ats ++ TColon :: ts ++ [TColonEq]) (COfEq pf x c ty) b
| ci_rulectx p rts rules vts b vars y : gpragmas p -> prules rts rules -> pvars vts (combine b vars) ->
    length b = length vars ->
    cinv (p ++ rts ++ TLBrk :: vts ++ name_toks y) (CRuleCtx (MkRuleCtx rules vars) y) b
| ci_rulel p rts rules vts b vars : gpragmas p -> prules rts rules -> gvars vts (combine b vars) ->
    length b = length vars ->
    cinv (p ++ rts ++ TLBrk :: vts) (CRuleL (MkRuleCtx rules vars)) (joker :: b)
| ci_ruler p rts rules vts b vars lts l : gpragmas p -> prules rts rules -> gvars vts (combine b vars) ->
    length b = length vars -> gterm lts l ->
    cinv (p ++ rts ++ TLBrk :: vts ++ lts ++ [TLongArrow]) (CRuleR (MkRuleCtx rules vars) l) b.

Definition sinv (pre : list token) (st : pstate symb) (ctx : tctx symb) : Prop :=
  exists p q, pre = p ++ q /\ cinv p (ps_cmd st) (tc_bound ctx) /\
    if expects_term (ps_cmd st) then kconf q (ps_trm st) (tc_stack ctx)
    else q = [] /\ ps_trm st = SInit /\ tc_stack ctx = [].

Lemma sinv_next pre cmd b : cinv pre cmd b -> sinv pre (MkPState cmd SInit) (MkTctx b []).
Proof.
  intros H. exists pre, []. split; [symmetry; apply app_nil_r|]. split; [exact H|].
  cbn. destruct (expects_term cmd); [exact kconf_init|auto].
Qed.

(** outcome of [cparse] and [apply] *)
Definition cinv_res (pre : list token) (r : cres tms) : Prop :=
  match r with
  | (Ok (CCommand c), b) => b = [] /\ exists p ts, pre = p ++ ts /\ gpragmas p /\ gcommand ts c
  | (Ok cmd, b) => cinv pre cmd b
  | _ => True
  end.

Lemma combine_snoc {A B} (l : list A) (m : list B) a b : length l = length m ->
  combine (l ++ [a]) (m ++ [b]) = combine l m ++ [(a, b)].
Proof.
  revert m. induction l as [|x l IH]; intros [|y m]; cbn; try discriminate; [reflexivity|].
  intros [= H]. rewrite IH by exact H. reflexivity.
Qed.

Ltac getci c H := replace H with c; [|listeq].

Lemma cparse_sound pre cmd b tok : cinv pre cmd b -> is_comment tok = false -> expects_term cmd = false ->
  cinv_res (pre ++ [tok]) (cparse cmd b tok).
Proof.
  intros H Hc He. destruct H as [p Hp|p ts Hp Hts|p pf Hp|p pf x ats b c o Hp Ha Hl Ho|p pf x ats b c y Hp Ha Hl
    |p pf x ats b c ts ty Hp Ha Hl Ht Hpf|p rts rules vts b vars y Hp Hr Hv Hl|p rts rules vts b vars Hp Hr Hv Hl
    |p rts rules vts b vars lts l Hp Hr Hv Hl Ht].
  - destruct tok as [ | | | | | | | | | | | | | | |s1|o1|]; try exact I; try discriminate.
    + apply (ci_prefix p PDef Hp).
    + apply (ci_prefix p PThm Hp).
    + apply (ci_prefix p PInj Hp).
    + apply (ci_rulectx p [] [] [] [] [] None Hp); [constructor|constructor|reflexivity].
    + apply (ci_pragma p [] Hp). constructor.
    + unfold cparse. destruct (sy_path s1) eqn:E; [|exact I]. cbn [apply_name].
      rewrite <- (symb_new_name s1 E) at 1.
      apply (ci_args p None (sy_name s1) [] [] [] None Hp); [constructor|reflexivity|discriminate].
  - assert (Hd : tok = TDot \/ tok <> TDot) by (destruct tok; auto; right; discriminate).
    destruct Hd as [->|Hd].
    + cbn. rewrite <- app_assoc. cbn [app]. constructor. apply gpragmas_app; [exact Hp|]. constructor; [exact Hts|constructor].
    + replace (cparse CPragma [] tok) with (Ok (E := cmd_error) (A := cstate tms) CPragma, @nil str)
        by (destruct tok; try reflexivity; congruence).
      cbn [cinv_res]. rewrite <- app_assoc. cbn [app]. constructor; [exact Hp|].
      apply Forall_app. split; [exact Hts|]. constructor; [|constructor]. split; [exact Hd|].
      intros n ->. discriminate.
  - destruct tok as [ | | | | | | | | | | | | | | |s1|o1|]; try exact I; try discriminate.
    unfold cparse. destruct (sy_path s1) eqn:E; [|exact I]. cbn [apply_name cinv_res].
    rewrite <- (symb_new_name s1 E) at 1. rewrite <- app_assoc.
    apply (ci_args p (Some pf) (sy_name s1) [] [] [] None Hp); [constructor|reflexivity|discriminate].
  - destruct o as [o|]; [discriminate|]. cbn [ofeq_toks]. rewrite app_nil_r.
    destruct tok as [ | | | | | | | | | | | | | | |s1|o1|]; try (destruct pf as [[]|]; exact I); try discriminate;
      try (unfold cparse; destruct (sy_path s1); first [exact I | destruct pf as [[]|]; exact I]).
    + (* ( *) replace (cparse (CArgs pf x c None) b TLPar) with (Ok (E := cmd_error) (CArgsIn pf x c None), b)
        by (destruct pf as [[]|]; reflexivity).
      cbn [cinv_res]. replace ((p ++ prefix_toks pf ++ name_tok x :: ats) ++ [TLPar])
        with (p ++ prefix_toks pf ++ name_tok x :: ats ++ TLPar :: name_toks None) by listeq.
      constructor; assumption.
    + (* : *) replace (cparse (CArgs pf x c None) b TColon) with (Ok (E := cmd_error) (CArgs pf x c (Some OOf)), b)
        by (destruct pf as [[]|]; reflexivity).
      cbn [cinv_res]. replace ((p ++ prefix_toks pf ++ name_tok x :: ats) ++ [TColon])
        with (p ++ prefix_toks pf ++ name_tok x :: ats ++ ofeq_toks (Some OOf)) by listeq.
      constructor; try assumption. discriminate.
    + (* := *) destruct pf as [[]|]; try exact I. cbn [cparse cinv_res].
      replace ((p ++ prefix_toks (Some PDef) ++ name_tok x :: ats) ++ [TColonEq])
        with (p ++ prefix_toks (Some PDef) ++ name_tok x :: ats ++ ofeq_toks (Some OEq)) by listeq.
      constructor; try assumption. reflexivity.
  - destruct y as [[y [|]]|]; [discriminate| |].
    + destruct tok as [ | | | | | | | | | | | | | | |s1|o1|]; try exact I; try discriminate;
        try (unfold cparse; destruct (sy_path s1); first [exact I | destruct pf as [[]|]; exact I]).
      cbn [cparse cinv_res].
      replace ((p ++ prefix_toks pf ++ name_tok x :: ats ++ TLPar :: name_toks (Some (y, false))) ++ [TColon])
        with (p ++ prefix_toks pf ++ name_tok x :: ats ++ TLPar :: name_toks (Some (y, true))) by (cbn [name_toks]; listeq).
      constructor; assumption.
    + destruct tok as [ | | | | | | | | | | | | | | |s1|o1|]; try exact I; try discriminate.
      unfold cparse. destruct (sy_path s1) eqn:E; [|exact I]. cbn [apply_name cinv_res].
      rewrite <- (symb_new_name s1 E) at 1.
      replace ((p ++ prefix_toks pf ++ name_tok x :: ats ++ TLPar :: name_toks None) ++ [TSymb (symb_new (sy_name s1))])
        with (p ++ prefix_toks pf ++ name_tok x :: ats ++ TLPar :: name_toks (Some (sy_name s1, false))) by (cbn [name_toks]; listeq).
      constructor; assumption.
  - discriminate.
  - destruct y as [[y [|]]|]; [discriminate| |].
    + destruct tok as [ | | | | | | | | | | | | | | |s1|o1|]; try exact I; try discriminate;
        try (unfold cparse; destruct (sy_path s1); first [exact I | destruct pf as [[]|]; exact I]).
      * (* ] *) cbn [cparse cinv_res rulel]; unfold rc_push; cbn [rc_rules rc_vars].
        replace ((p ++ rts ++ TLBrk :: vts ++ name_toks (Some (y, false))) ++ [TRBrk])
          with (p ++ rts ++ TLBrk :: (vts ++ [name_tok y] ++ [TRBrk])) by (cbn [name_toks]; listeq).
        constructor; [exact Hp|exact Hr| |rewrite !app_length; cbn; lia].
        rewrite combine_snoc by exact Hl. apply pvars_gvars; [exact Hv|]. apply gvars_last. constructor.
      * (* : *) cbn [cparse cinv_res].
        replace ((p ++ rts ++ TLBrk :: vts ++ name_toks (Some (y, false))) ++ [TColon])
          with (p ++ rts ++ TLBrk :: vts ++ name_toks (Some (y, true))) by (cbn [name_toks]; listeq).
        constructor; assumption.
      * (* , *) cbn [cparse cinv_res]; unfold rc_push; cbn [rc_rules rc_vars].
        replace ((p ++ rts ++ TLBrk :: vts ++ name_toks (Some (y, false))) ++ [TComma])
          with (p ++ rts ++ TLBrk :: (vts ++ [name_tok y] ++ [TComma]) ++ name_toks None) by (cbn [name_toks]; rewrite ?app_nil_r; listeq).
        constructor; [exact Hp|exact Hr| |rewrite !app_length; cbn; lia].
        rewrite combine_snoc by exact Hl. constructor; [exact Hv|constructor].
    + destruct tok as [ | | | | | | | | | | | | | | |s1|o1|]; try exact I; try discriminate.
      * cbn [cparse cinv_res rulel].
        replace ((p ++ rts ++ TLBrk :: vts ++ name_toks None) ++ [TRBrk])
          with (p ++ rts ++ TLBrk :: (vts ++ [TRBrk])) by (cbn [name_toks]; rewrite ?app_nil_r; listeq).
        constructor; [exact Hp|exact Hr| |exact Hl].
        rewrite <- (app_nil_r (combine b vars)). apply pvars_gvars; [exact Hv|constructor].
      * unfold cparse. destruct (sy_path s1) eqn:E; [|exact I]. cbn [apply_name cinv_res].
        rewrite <- (symb_new_name s1 E) at 1.
        replace ((p ++ rts ++ TLBrk :: vts ++ name_toks None) ++ [TSymb (symb_new (sy_name s1))])
          with (p ++ rts ++ TLBrk :: vts ++ name_toks (Some (sy_name s1, false))) by (cbn [name_toks]; listeq).
        constructor; assumption.
  - discriminate.
  - discriminate.
Qed.

Lemma apply_sound pre cmd b q t tok : cinv pre cmd b -> gterm q t -> is_comment tok = false -> expects_term cmd = true ->
  cinv_res ((pre ++ q) ++ [tok]) (apply cmd b t tok).
Proof.
  intros H Hq Hc He. destruct H as [p Hp|p ts Hp Hts|p pf Hp|p pf x ats b c o Hp Ha Hl Ho|p pf x ats b c y Hp Ha Hl
    |p pf x ats b c ts ty Hp Ha Hl Ht Hpf|p rts rules vts b vars y Hp Hr Hv Hl|p rts rules vts b vars Hp Hr Hv Hl
    |p rts rules vts b vars lts l Hp Hr Hv Hl Ht]; try discriminate He.
  - (* s : t + *)
    destruct o as [[|]|]; [| |discriminate].
    + cbn [ofeq_toks].
      assert (G : forall it, gintro (prefix_toks pf) (TColon :: q ++ [TDot]) it ->
         exists p0 ts0, ((p ++ prefix_toks pf ++ name_tok x :: ats ++ [TColon]) ++ q) ++ [TDot] = p0 ++ ts0
         /\ gpragmas p0 /\ gcommand ts0 (PIntro x (combine b c) it)).
      { intros it Hi. exists p, (prefix_toks pf ++ name_tok x :: ats ++ TColon :: q ++ [TDot]).
        split; [listeq|]. split; [exact Hp|]. constructor; assumption. }
      assert (G2 : forall pf', pf = Some pf' -> pf' = PDef \/ pf' = PThm ->
         cinv (((p ++ prefix_toks pf ++ name_tok x :: ats ++ [TColon]) ++ q) ++ [TColonEq]) (COfEq (Some pf') x c t) b).
      { intros pf' -> Hpf. replace (((p ++ prefix_toks (Some pf') ++ name_tok x :: ats ++ [TColon]) ++ q) ++ [TColonEq])
          with (p ++ prefix_toks (Some pf') ++ name_tok x :: ats ++ TColon :: q ++ [TColonEq]) by listeq.
        constructor; try assumption. destruct Hpf as [->| ->]; auto. }
      destruct tok as [ | | | | | | | | | | | | | | |s1|o1|]; try (destruct pf as [[]|]; exact I).
      * destruct pf as [[]|]; try exact I; cbn [apply cinv_res]; apply G2; auto.
      * destruct pf as [[]|]; try exact I; cbn [apply close res_map cinv_res];
          (split; [reflexivity|]; apply G; constructor; assumption).
    + assert (pf = Some PDef) as -> by (apply Ho; reflexivity).
      destruct tok as [ | | | | | | | | | | | | | | |s1|o1|]; try exact I.
      cbn [apply close res_map cinv_res]. split; [reflexivity|].
      exists p, (prefix_toks (Some PDef) ++ name_tok x :: ats ++ TColonEq :: q ++ [TDot]).
      split; [cbn [ofeq_toks]; listeq|]. split; [exact Hp|]. constructor; [constructor; exact Hq|exact Ha].
  - (* ( y : t + *)
    destruct y as [[y [|]]|]; try discriminate.
    destruct tok as [ | | | | | | | | | | | | | | |s1|o1|]; try exact I.
    cbn [apply cinv_res].
    replace (((p ++ prefix_toks pf ++ name_tok x :: ats ++ TLPar :: name_toks (Some (y, true))) ++ q) ++ [TRPar])
      with (p ++ prefix_toks pf ++ name_tok x :: (ats ++ TLPar :: name_tok y :: TColon :: q ++ [TRPar]) ++ ofeq_toks None)
      by (cbn [name_toks ofeq_toks]; rewrite ?app_nil_r; listeq).
    constructor; [exact Hp| |rewrite !app_length; cbn; lia|discriminate].
    rewrite combine_snoc by exact Hl. apply gargs_snoc; assumption.
  - (* s : ty := t + *)
    destruct tok as [ | | | | | | | | | | | | | | |s1|o1|]; try (destruct Hpf as [->| ->]; exact I).
    destruct Hpf as [->| ->]; cbn [apply close res_map cinv_res]; (split; [reflexivity|]).
    + exists p, (prefix_toks (Some PDef) ++ name_tok x :: ats ++ TColon :: ts ++ TColonEq :: q ++ [TDot]).
      split; [listeq|]. split; [exact Hp|]. constructor; [constructor; assumption|exact Ha].
    + exists p, (prefix_toks (Some PThm) ++ name_tok x :: ats ++ TColon :: ts ++ TColonEq :: q ++ [TDot]).
      split; [listeq|]. split; [exact Hp|]. constructor; [constructor; assumption|exact Ha].
  - (* [ .. y : t + *)
    destruct y as [[y [|]]|]; try discriminate.
    destruct tok as [ | | | | | | | | | | | | | | |s1|o1|]; try exact I.
    + cbn [apply cinv_res rulel]; unfold rc_push; cbn [rc_rules rc_vars].
      replace (((p ++ rts ++ TLBrk :: vts ++ name_toks (Some (y, true))) ++ q) ++ [TRBrk])
        with (p ++ rts ++ TLBrk :: (vts ++ (name_tok y :: TColon :: q) ++ [TRBrk])) by (cbn [name_toks]; listeq).
      constructor; [exact Hp|exact Hr| |rewrite !app_length; cbn; lia].
      rewrite combine_snoc by exact Hl. apply pvars_gvars; [exact Hv|]. apply gvars_last. constructor. exact Hq.
    + cbn [apply cinv_res]; unfold rc_push; cbn [rc_rules rc_vars].
      replace (((p ++ rts ++ TLBrk :: vts ++ name_toks (Some (y, true))) ++ q) ++ [TComma])
        with (p ++ rts ++ TLBrk :: (vts ++ (name_tok y :: TColon :: q) ++ [TComma]) ++ name_toks None)
        by (cbn [name_toks]; rewrite ?app_nil_r; listeq).
      constructor; [exact Hp|exact Hr| |rewrite !app_length; cbn; lia].
      rewrite combine_snoc by exact Hl. constructor; [exact Hv|constructor; exact Hq].
  - (* [ .. ] t + *)
    destruct tok as [ | | | | | | | | | | | | | | |s1|o1|]; try exact I.
    cbn [apply cinv_res].
    replace (((p ++ rts ++ TLBrk :: vts) ++ q) ++ [TLongArrow])
      with (p ++ rts ++ TLBrk :: vts ++ q ++ [TLongArrow]) by listeq.
    constructor; assumption.
  - (* [ .. ] l --> t + *)
    destruct tok as [ | | | | | | | | | | | | | | |s1|o1|]; try exact I.
    + cbn [apply cinv_res]; unfold rulectx_add; cbn [rc_rules rc_vars].
      replace (((p ++ rts ++ TLBrk :: vts ++ lts ++ [TLongArrow]) ++ q) ++ [TLBrk])
        with (p ++ (rts ++ TLBrk :: vts ++ lts ++ TLongArrow :: q) ++ TLBrk :: [] ++ name_toks None)
        by (cbn [name_toks app]; listeq).
      constructor; [exact Hp| |constructor|reflexivity]. constructor; assumption.
    + cbn [apply close res_map cinv_res]; unfold rulectx_add; cbn [rc_rules rc_vars]. split; [reflexivity|].
      exists p, (rts ++ TLBrk :: vts ++ lts ++ TLongArrow :: q ++ [TDot]).
      split; [listeq|]. split; [exact Hp|]. constructor. apply prules_grules; [exact Hr|]. constructor; assumption.
Qed.

Lemma cmd_out_sound pre r b :
  cinv_res pre (r, b) ->
  match cmd_out symb r (MkTctx b []) with
  | SNext _ st ctx => sinv pre st ctx
  | SEmit _ c ctx => ctx = tctx_default /\ exists p ts, pre = p ++ ts /\ gpragmas p /\ gcommand ts c
  | _ => True
  end.
Proof.
  destruct r as [cmd| | |]; cbn; auto.
  destruct cmd; cbn; try (apply sinv_next). intros [-> H]. split; [reflexivity|exact H].
Qed.

Lemma sstep_sound pre st ctx tok : is_comment tok = false -> sinv pre st ctx ->
  match sstepS st ctx tok with
  | SNext _ st ctx => sinv (pre ++ [tok]) st ctx
  | SEmit _ c ctx => ctx = tctx_default /\ exists p ts, pre ++ [tok] = p ++ ts /\ gpragmas p /\ gcommand ts c
  | _ => True
  end.
Proof.
  intros Hc (p & q & -> & Hp & Hq). unfold sstep. destruct (expects_term (ps_cmd st)) eqn:He.
  - pose proof (tstep_sound (tc_bound ctx) q (ps_trm st) (tc_stack ctx) tok Hc Hq) as Ht.
    destruct (tstep symb scope_symb (tc_bound ctx) (ps_trm st) (tc_stack ctx) tok) as [trm stk|t stk|e stk].
    + exists p, (q ++ [tok]). rewrite app_assoc. split; [reflexivity|]. cbn [ps_cmd tc_bound].
      split; [exact Hp|]. rewrite He. exact Ht.
    + destruct Ht as [-> Ht]. pose proof (apply_sound p (ps_cmd st) (tc_bound ctx) q t tok Hp Ht Hc He) as Ha.
      destruct (apply (ps_cmd st) (tc_bound ctx) t tok) as [r b]. apply cmd_out_sound. exact Ha.
    + exact I.
  - destruct Hq as (-> & Ht & Hs). rewrite app_nil_r, Hs.
    pose proof (cparse_sound p (ps_cmd st) (tc_bound ctx) tok Hp Hc He) as Ha.
    destruct (cparse (ps_cmd st) (tc_bound ctx) tok) as [r b]. apply cmd_out_sound. exact Ha.
Qed.

Lemma srun_sound toks : ~ In (TComment 0) toks -> forall pre st ctx c ctx' rest, sinv pre st ctx ->
  srunS st ctx toks = (RCmd symb c ctx', rest) ->
  ctx' = tctx_default /\ exists p ts, pre ++ toks = p ++ ts ++ rest /\ gpragmas p /\ gcommand ts c.
Proof.
  induction toks as [|tok toks IH]; intros Hn pre st ctx c ctx' rest H; [discriminate|].
  assert (Hn' : ~ In (TComment 0) toks) by (intros Hi; apply Hn; right; exact Hi).
  destruct (is_comment tok) eqn:Hc.
  - destruct tok as [ | | | | | | | | | | | | | | |s1|[|o1]|]; try discriminate. exfalso. apply Hn. left. reflexivity.
  - rewrite srun_cons by exact Hc. pose proof (sstep_sound pre st ctx tok Hc H) as Hs.
    destruct (sstepS st ctx tok) as [st1 ctx1|c1 ctx1|e ctx1|ctx1]; cbn [s_then]; try discriminate.
    + intros E. destruct (IH Hn' _ _ _ _ _ _ Hs E) as (E1 & p & ts & E2 & H1 & H2).
      split; [exact E1|]. exists p, ts. rewrite <- app_assoc in E2. cbn [app] in E2. auto.
    + intros [= -> -> ->]. destruct Hs as (E1 & p & ts & E2 & H1 & H2). split; [exact E1|].
      exists p, ts. split; [|auto]. change (tok :: rest) with ([tok] ++ rest). rewrite app_assoc, E2, <- app_assoc. reflexivity.
Qed.

Lemma sinv_init : sinv [] pstate_default tctx_default.
Proof. apply (sinv_next [] CInit []). constructor. constructor. Qed.

(** ** The strict parser *)
Lemma main_grammar toks c rest : ~ In (TComment 0) toks ->
  (exists ctx, strict_next scope_symb (MkStrict toks tctx_default) = (Ok (Some c), MkStrict rest ctx))
  <-> (exists ps ts, toks = ps ++ ts ++ rest /\ gpragmas ps /\ gcommand ts c).
Proof.
  intros Hn. rewrite strict_next_run. split.
  - intros [ctx H]. destruct toks as [|tok toks]; [discriminate|].
    destruct (srunS pstate_default tctx_default (tok :: toks)) as [r rest'] eqn:E.
    destruct r as [st ctx'|c' ctx'|e ctx'|ctx']; try discriminate. injection H as -> -> ->.
    destruct (srun_sound _ Hn [] _ _ _ _ _ sinv_init E) as (_ & p & ts & H1 & H2 & H3). eauto.
  - intros (ps & ts & -> & Hp & Hc). exists tctx_default.
    destruct (ps ++ ts ++ rest) as [|tok toks] eqn:E.
    + apply app_eq_nil in E as [_ E]. apply app_eq_nil in E as [-> _].
      exfalso. inversion Hc as [pre x ats args ts it Hi Ha E1|ts rules Hr E1].
      * destruct pre; discriminate.
      * inversion Hr.
    + rewrite <- E. rewrite (srun_pragmas ps Hp), (srun_command ts c Hc). reflexivity.
Qed.

Lemma strict_next_clean toks c rest ctx : ~ In (TComment 0) toks ->
  strict_next scope_symb (MkStrict toks tctx_default) = (Ok (Some c), MkStrict rest ctx) -> ctx = tctx_default.
Proof.
  intros Hn. rewrite strict_next_run. destruct toks as [|tok toks]; [discriminate|].
  destruct (srunS pstate_default tctx_default (tok :: toks)) as [r rest'] eqn:E.
  destruct r as [st ctx'|c' ctx'|e ctx'|ctx']; try discriminate. intros [= -> -> ->].
  apply (srun_sound _ Hn [] _ _ _ _ _ sinv_init E).
Qed.

Lemma main_grammar_file cs : forall toks, ~ In (TComment 0) toks ->
  yields (strict_next scope_symb) (MkStrict toks tctx_default) (map inl cs) <-> gfile toks cs.
Proof.
  induction cs as [|c cs IH]; intros toks Hn; cbn [map]; split.
  - intros (q & H1 & H2). inversion H1; subst. rewrite strict_next_run in H2.
    destruct toks as [|tok toks]; [constructor|].
    destruct (srunS pstate_default tctx_default (tok :: toks)) as [[] rest']; discriminate.
  - intros H. inversion H; subst. eexists. split; [constructor|reflexivity].
  - intros (q & H1 & H2). inversion H1 as [|s i s1 l s2 E R|]; subst.
    destruct s1 as [rest ctx]. pose proof (strict_next_clean _ _ _ _ Hn E) as ->.
    destruct (proj1 (main_grammar toks c rest Hn) (ex_intro _ _ E)) as (ps & ts & -> & Hp & Hc).
    constructor; [exact Hp|exact Hc|]. apply IH.
    + intros Hi. apply Hn. apply in_or_app. right. apply in_or_app. right. exact Hi.
    + exists q. auto.
  - intros H. inversion H as [|ps ts c0 ts' cs0 Hp Hc Hf]; subst.
    destruct (proj2 (main_grammar (ps ++ ts ++ ts') c ts' Hn)) as [ctx E]; [exists ps, ts; auto|].
    pose proof (strict_next_clean _ _ _ _ Hn E) as ->.
    assert (Hn' : ~ In (TComment 0) ts').
    { intros Hi. apply Hn. apply in_or_app. right. apply in_or_app. right. exact Hi. }
    destruct (proj2 (IH ts' Hn') Hf) as (q & H1 & H2). exists q. split; [|exact H2].
    econstructor; eassumption.
Qed.
