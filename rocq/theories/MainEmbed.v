(** * Lemmas for C82: programs that contain other programs *)

From Verif Require Import Base LibMono ModelTerm ModelGctx ModelCommand ModelSubst ModelReduce ModelInfer ModelSyntax ModelSymbols ModelShare ModelProcess
  SpecTerm SpecConv SpecQuery SpecProcess SpecDecide SpecEmbed RefMachine RefMono Erase SimReduce Inv RefInfer RefExt RefMap MainKernel MainGctx MainProcess MainVerify MainDecide MainAlpha.

Section Embed.
Variable f : nat -> nat.
Hypothesis Hf : injective f.
Notation cm := (cm f).

(** ** Contexts: the second one has the types and rules of the first one, with other symbols *)
Definition gemb (g1 g2 : gctx) : Prop :=
  proper_gctx g1 /\ proper_gctx g2 /\ (forall c, option_map erl (get_type g2 (f c)) = option_map cm (option_map erl (get_type g1 c))) /\
  (forall c, option_map (map er_rule) (get_rules g2 (f c)) = option_map (map (cm_rule f)) (option_map (map er_rule) (get_rules g1 c))) /\ g_eta g2 = g_eta g1.

Lemma same_answer_eqv {A B A' B'} (g : A -> B) (g' : A' -> B') (j : B -> B') P P' (m1 : M A) (m2 : M A') (q1 : nat -> RM B) (q2 : nat -> RM B') n1 n2 :
  (forall n m, n <= m -> le_m (q2 n) (q2 m)) -> (forall n, eqv f j (q1 n) (q2 n)) -> sim0 g P m1 (q1 n1) -> sim0 g' P' m2 (q2 n2) ->
  same_answer (fun a b => j (g a) = g' b /\ P a /\ P' b) (ModelInfer.run m1) (ModelInfer.run m2).
Proof.
  intros Hm Hq H1 H2. apply run_sim0' in H1, H2. specialize (Hq n1 []). cbn [map] in Hq.
  pose proof (le_m_agree q2 Hm n1 n2 [] _ _ eq_refl eq_refl) as H. rewrite Hq in H.
  destruct (ModelInfer.run m1) as [x1|e1| |], (ModelInfer.run m2) as [x2|e2| |]; cbn; auto; repeat match goal with X : _ /\ _ |- _ => destruct X end;
    match goal with X1 : q1 n1 [] = _, X2 : q2 n2 [] = _ |- _ => rewrite X1, X2 in H end;
    specialize (H ltac:(discriminate) ltac:(discriminate)); try discriminate; try (injection H as H; auto).
Qed.

Section Kernel.
  Variables (g1 g2 : gctx) (u1 u2 : nat -> bool) (n1 n2 : nat).
  Hypothesis G : gemb g1 g2.
  Lemma gemb_infer lc1 lc2 t1 t2 : Forall nf lc1 -> Forall nf lc2 -> nf t1 -> nf t2 -> map cm (map ers lc1) = map ers lc2 -> cm (ers t1) = ers t2 ->
    same_answer (fun a b => cm (ers a) = ers b /\ nf a /\ nf b) (ModelInfer.run (ModelInfer.infer u1 g1 n1 lc1 t1)) (ModelInfer.run (ModelInfer.infer u2 g2 n2 lc2 t2)).
  Proof.
    intros L1 L2 N1 N2 El Et. destruct G as (P1 & P2 & Ht & Hr & He).
    apply (same_answer_eqv ers ers cm nf nf _ _ (fun n => r_infer (er_gctx g1) n (map ers lc1) (ers t1)) (fun n => r_infer (er_gctx g2) n (map cm (map ers lc1)) (cm (ers t1))) n1 n2).
    - intros; now apply r_infer_mono.
    - intros n. apply (eqv_infer f Hf (er_gctx g1) (er_gctx g2) Ht Hr He n).
    - apply infer_sim; auto using proper_gctx_nf.
    - rewrite El, Et. apply infer_sim; auto using proper_gctx_nf.
  Qed.
  Lemma gemb_check lc1 lc2 t1 t2 ty1 ty2 : Forall nf lc1 -> Forall nf lc2 -> nf t1 -> nf t2 -> nf ty1 -> nf ty2 ->
    map cm (map ers lc1) = map ers lc2 -> cm (ers t1) = ers t2 -> cm (ers ty1) = ers ty2 ->
    same_answer eq (ModelInfer.run (ModelInfer.check u1 g1 n1 lc1 t1 ty1)) (ModelInfer.run (ModelInfer.check u2 g2 n2 lc2 t2 ty2)).
  Proof.
    intros L1 L2 N1 N2 T1 T2 El Et Ety. destruct G as (P1 & P2 & Ht & Hr & He).
    assert (X : same_answer (fun a b => (fun x : bool => x) (id a) = id b /\ anyt a /\ anyt b) (ModelInfer.run (ModelInfer.check u1 g1 n1 lc1 t1 ty1)) (ModelInfer.run (ModelInfer.check u2 g2 n2 lc2 t2 ty2))).
    { apply (same_answer_eqv id id (fun x => x) anyt anyt _ _ (fun n => r_check (er_gctx g1) n (map ers lc1) (ers t1) (ers ty1)) (fun n => r_check (er_gctx g2) n (map cm (map ers lc1)) (cm (ers t1)) (cm (ers ty1))) n1 n2).
      - intros; now apply r_check_mono.
      - intros n. apply (eqv_infer f Hf (er_gctx g1) (er_gctx g2) Ht Hr He n).
      - apply infer_sim; auto using proper_gctx_nf.
      - rewrite El, Et, Ety. apply infer_sim; auto using proper_gctx_nf. }
    destruct (ModelInfer.run _), (ModelInfer.run _); cbn in *; tauto.
  Qed.
End Kernel.

(** ** Terms *)
Lemma kindless_cm t : kindless (cm t) <-> kindless t.
Proof. induction t; cbn; tauto. Qed.
Lemma emb_lterm a b : cm (ers a) = ers b -> nf a -> nf b ->
  match lterm_of_sterm a, lterm_of_sterm b with
  | Some a', Some b' => cm (erl a') = erl b' /\ proper_l a' /\ proper_l b'
  | None, None => True
  | _, _ => False
  end.
Proof.
  intros E Na Nb. destruct (lterm_of_sterm a) as [a'|] eqn:Ea, (lterm_of_sterm b) as [b'|] eqn:Eb.
  - rewrite (lterm_of_sterm_er _ _ Ea), (lterm_of_sterm_er _ _ Eb). eauto using proper_of_sterm.
  - apply (proj2 (kindless_s b)); [|exact Eb]. rewrite <- E, kindless_cm. apply kindless_s. congruence.
  - apply (proj2 (kindless_s a)); [|exact Ea]. rewrite <- kindless_cm, E. apply kindless_s. congruence.
  - exact I.
Qed.
Lemma emb_sort a b : cm (ers a) = ers b -> nf a -> nf b -> is_sort a = is_sort b.
Proof.
  intros E Na Nb. pose proof (nf_shape _ Na) as Ha. pose proof (nf_shape _ Nb) as Hb. rewrite <- E in Hb.
  assert (Y : forall y, match ers y with Kind | Typ => False | _ => True end -> is_sort y = false).
  { intros y. destruct y; try reflexivity; intros []. }
  destruct (ers a) eqn:Ex; cbn in Hb; try (subst a b; reflexivity); rewrite !Y; try reflexivity; rewrite <- ?E, ?Ex; exact I.
Qed.

(** ** Queries *)
Definition emb_chk (c1 c2 : ModelGctx.check) : Prop :=
  map cm (map erl (t_lc c1)) = map erl (t_lc c2) /\ cm (erl (t_ty c1)) = erl (t_ty c2) /\ cm (erl (t_tm c1)) = erl (t_tm c2) /\
  Forall proper_l (t_lc c1) /\ Forall proper_l (t_lc c2) /\ proper_l (t_ty c1) /\ proper_l (t_ty c2) /\ proper_l (t_tm c1) /\ proper_l (t_tm c2).
Definition emb_ochk (o1 o2 : option ModelGctx.check) : Prop :=
  match o1, o2 with Some c1, Some c2 => emb_chk c1 c2 | None, None => True | _, _ => False end.
Definition emb_typing (a b : typing) : Prop :=
  cm (erl (t_ty a)) = erl (t_ty b) /\ option_map cm (option_map erl (t_tm a)) = option_map erl (t_tm b) /\ proper_l (t_ty a) /\ proper_l (t_ty b) /\
  (forall t, t_tm a = Some t -> proper_l t) /\ (forall t, t_tm b = Some t -> proper_l t).
Definition emb_intro (a b : typing * option ModelGctx.check) : Prop := emb_typing (fst a) (fst b) /\ emb_ochk (snd a) (snd b).

Section Queries.
  Variables (g1 g2 : gctx) (u1 u2 : nat -> bool) (n1 n2 : nat).
  Hypothesis G : gemb g1 g2.
  Lemma einfer_l lc1 lc2 t1 t2 : Forall proper_l lc1 -> Forall proper_l lc2 -> proper_l t1 -> proper_l t2 -> map cm (map erl lc1) = map erl lc2 -> cm (erl t1) = erl t2 ->
    same_answer (fun a b => cm (ers a) = ers b /\ nf a /\ nf b) (ModelInfer.run (ModelInfer.infer u1 g1 n1 (lctx_of lc1) (sterm_of_lterm t1)))
      (ModelInfer.run (ModelInfer.infer u2 g2 n2 (lctx_of lc2) (sterm_of_lterm t2))).
  Proof.
    intros L1 L2 P1 P2 El Et. apply gemb_infer; auto using nf_l, nf_lc.
    - rewrite !ers_lctx_of, !map_rev, El. reflexivity.
    - rewrite !ers_sterm_of_lterm. exact Et.
  Qed.
  Lemma einfer_l0 t1 t2 : proper_l t1 -> proper_l t2 -> cm (erl t1) = erl t2 ->
    same_answer (fun a b => cm (ers a) = ers b /\ nf a /\ nf b) (ModelInfer.run (ModelInfer.infer u1 g1 n1 [] (sterm_of_lterm t1)))
      (ModelInfer.run (ModelInfer.infer u2 g2 n2 [] (sterm_of_lterm t2))).
  Proof. intros P1 P2 E. apply (einfer_l [] [] t1 t2); auto. Qed.

  Lemma gemb_intro it1 it2 : map_type cm (map_term cm (er_intro it1)) = er_intro it2 -> intro_all proper_l it1 -> intro_all proper_l it2 ->
    same_answer emb_intro (ModelInfer.run (kintro u1 g1 n1 it1)) (ModelInfer.run (kintro u2 g2 n2 it2)).
  Proof.
    assert (Dec : forall a b, cm (erl a) = erl b -> proper_l a -> proper_l b -> same_answer emb_intro (ModelInfer.run (declare u1 g1 n1 a)) (ModelInfer.run (declare u2 g2 n2 b))).
    { intros a b E Pa Pb. unfold declare.
      rewrite (run_bind _ _ (fun s => if is_sort s then Ok (typing_new a None, None) else Err SortExpected : res kerror (typing * option ModelGctx.check))) by (intros s m; destruct (is_sort s); reflexivity).
      rewrite (run_bind _ _ (fun s => if is_sort s then Ok (typing_new b None, None) else Err SortExpected : res kerror (typing * option ModelGctx.check))) by (intros s m; destruct (is_sort s); reflexivity).
      eapply same_bind; [apply einfer_l0; assumption|]. intros s s' (H1 & H2 & H3). rewrite (emb_sort _ _ H1 H2 H3). destruct (is_sort s'); cbn; [|reflexivity].
      split; [|exact I]. split; [exact E|]. split; [reflexivity|]. cbn. repeat split; auto; discriminate. }
    assert (Two : forall a b t u (k : lterm -> lterm -> option lterm), cm (erl a) = erl b -> cm (erl t) = erl u -> proper_l a -> proper_l b -> proper_l t -> proper_l u ->
      option_map cm (option_map erl (k a t)) = option_map erl (k b u) -> (forall x, k a t = Some x -> x = t) -> (forall x, k b u = Some x -> x = u) ->
      same_answer emb_intro (ModelInfer.run (bind (ModelInfer.infer u1 g1 n1 [] (sterm_of_lterm a)) (fun _ => ret (typing_new a (k a t), Some (typing_new a t)))))
        (ModelInfer.run (bind (ModelInfer.infer u2 g2 n2 [] (sterm_of_lterm b)) (fun _ => ret (typing_new b (k b u), Some (typing_new b u)))))).
    { intros a b t u k E Et Pa Pb Pt Pu Ek K1 K2.
      rewrite (run_bind _ _ (fun _ => Ok (typing_new a (k a t), Some (typing_new a t)) : res kerror (typing * option ModelGctx.check))) by reflexivity.
      rewrite (run_bind _ _ (fun _ => Ok (typing_new b (k b u), Some (typing_new b u)) : res kerror (typing * option ModelGctx.check))) by reflexivity.
      eapply same_bind; [apply einfer_l0; assumption|]. intros s s' _. cbn. split.
      - split; [exact E|]. split; [exact Ek|]. cbn. repeat split; auto; intros x Hx; [rewrite (K1 x Hx)|rewrite (K2 x Hx)]; assumption.
      - cbn. unfold emb_chk. cbn. repeat split; auto. }
    destruct it1 as [[a|] [t|]|a t|i a], it2 as [[b|] [u|]|b u|j b]; cbn [er_intro map_type map_term option_map intro_all kintro]; try discriminate; cbn; intros E H1 H2.
    - injection E as E1 E2. apply (Two a b t u (fun _ t => Some t)); try tauto; try (intros x [= <-]; reflexivity). cbn. congruence.
    - injection E as E1. apply Dec; tauto.
    - injection E as E1. unfold define.
      set (K := fun (t : lterm) (s : sterm) => match lterm_of_sterm s with Some ty => Ok (typing_new ty (Some t), None) | None => Err UnexpectedKind end : res kerror (typing * option ModelGctx.check)).
      rewrite (run_bind _ _ (K t)) by (intros s m; unfold K; destruct (lterm_of_sterm s); reflexivity).
      rewrite (run_bind _ _ (K u)) by (intros s m; unfold K; destruct (lterm_of_sterm s); reflexivity).
      eapply same_bind; [apply einfer_l0; tauto|]. intros s s' (X1 & X2 & X3). pose proof (emb_lterm _ _ X1 X2 X3) as X. unfold K.
      destruct (lterm_of_sterm s), (lterm_of_sterm s'); try contradiction; cbn; [|reflexivity]. destruct X as (Y1 & Y2 & Y3). split; [|exact I].
      split; [exact Y1|]. split; [cbn; congruence|]. cbn. repeat split; auto; intros x [= <-]; tauto.
    - reflexivity.
    - injection E as E1 E2. unfold theorem. apply (Two a b t u (fun _ _ => None)); try tauto; discriminate.
    - injection E as E0 E1. apply Dec; tauto.
  Qed.

  Lemma gemb_rewrite r1 r2 : map cm (map erl (r_ctx r1)) = map erl (r_ctx r2) -> cm (erl (r_lhs r1)) = erl (r_lhs r2) -> cm (erl (r_rhs r1)) = erl (r_rhs r2) ->
    Forall proper_l (r_ctx r1) -> Forall proper_l (r_ctx r2) -> proper_l (r_lhs r1) -> proper_l (r_lhs r2) -> proper_l (r_rhs r1) -> proper_l (r_rhs r2) ->
    same_answer emb_chk (ModelInfer.run (rewrite u1 g1 n1 r1)) (ModelInfer.run (rewrite u2 g2 n2 r2)).
  Proof.
    intros. unfold rewrite.
    set (K := fun (r : rule_ lterm lterm lterm) (s : sterm) => match lterm_of_sterm s with Some ty => Ok (MkTyping (r_ctx r) ty (r_rhs r)) | None => Err UnexpectedKind end : res kerror ModelGctx.check).
    rewrite (run_bind _ _ (K r1)) by (intros s m; unfold K; destruct (lterm_of_sterm s); reflexivity).
    rewrite (run_bind _ _ (K r2)) by (intros s m; unfold K; destruct (lterm_of_sterm s); reflexivity).
    eapply same_bind; [apply einfer_l; assumption|]. intros s s' (X1 & X2 & X3). pose proof (emb_lterm _ _ X1 X2 X3) as X. unfold K.
    destruct (lterm_of_sterm s), (lterm_of_sterm s'); try contradiction; cbn; [|reflexivity]. unfold emb_chk. cbn. intuition auto.
  Qed.
  Lemma gemb_check_check c1 c2 : emb_chk c1 c2 -> same_answer eq (ModelInfer.run (check_check u1 g1 n1 c1)) (ModelInfer.run (check_check u2 g2 n2 c2)).
  Proof.
    intros (H1 & H2 & H3 & P1 & P2 & P3 & P4 & P5 & P6). unfold check_check.
    set (K := fun b : bool => if b then Ok tt else Err Unconvertible : res kerror unit).
    rewrite !(run_bind _ _ K) by (intros [] m; reflexivity). eapply same_bind.
    - apply gemb_check; auto using nf_l, nf_lc; [rewrite !ers_lctx_of, !map_rev, H1; reflexivity|rewrite !ers_sterm_of_lterm; assumption|rewrite !ers_sterm_of_lterm; assumption].
    - intros a b ->. destruct b; reflexivity.
  Qed.
End Queries.

(** ** Changes of the context *)
Lemma gemb_type_none g1 g2 c : gemb g1 g2 -> (get_type g1 c = None <-> get_type g2 (f c) = None).
Proof. intros (_ & _ & Ht & _). specialize (Ht c). destruct (get_type g1 c), (get_type g2 (f c)); cbn in Ht; split; intros; congruence. Qed.
Lemma gemb_rules_none g1 g2 c : gemb g1 g2 -> (get_rules g1 c = None <-> get_rules g2 (f c) = None).
Proof. intros (_ & _ & _ & Hr & _). specialize (Hr c). destruct (get_rules g1 c), (get_rules g2 (f c)); cbn in Hr; split; intros; congruence. Qed.
Lemma f_eqb c d : (f c =? f d) = (c =? d).
Proof. destruct (Nat.eqb_spec c d) as [->|N]; [apply Nat.eqb_refl|]. apply Nat.eqb_neq. auto. Qed.
Lemma gemb_insert g1 g2 c ty1 ty2 rw : gemb g1 g2 -> emb_typing ty1 ty2 ->
  match gctx_insert g1 c ty1 rw, gctx_insert g2 (f c) ty2 rw with
  | (g1', None), (g2', None) => gemb g1' g2'
  | (_, Some e1), (_, Some e2) => e1 = e2
  | _, _ => False
  end.
Proof.
  intros G (S1 & S2 & S3 & S4 & S5 & S6). pose proof (insert_match g1 c ty1 rw) as M1. pose proof (insert_match g2 (f c) ty2 rw) as M2.
  assert (X : (get_type g1 c = None /\ (rw = true -> get_rules g1 c = None)) <-> (get_type g2 (f c) = None /\ (rw = true -> get_rules g2 (f c) = None))).
  { rewrite (gemb_type_none _ _ c G). pose proof (gemb_rules_none _ _ c G). tauto. }
  destruct (gctx_insert g1 c ty1 rw) as [g1' e1] eqn:E1, (gctx_insert g2 (f c) ty2 rw) as [g2' e2] eqn:E2.
  destruct e1 as [e1|], e2 as [e2|]; try tauto.
  - apply insert_cases in E1 as (_ & _ & [E1|E1] & _), E2 as (_ & _ & [E2|E2] & _); try discriminate. congruence.
  - destruct G as (P1 & P2 & Ht & Hr & He). pose proof (insert_eta _ _ _ _ _ _ E1) as Y1. pose proof (insert_eta _ _ _ _ _ _ E2) as Y2.
    split; [eapply insert_proper; [exact P1| |exact S5|exact E1]; assumption|]. split; [eapply insert_proper; [exact P2| |exact S6|exact E2]; assumption|].
    apply insert_cases in E1 as (T1 & R1 & _), E2 as (T2 & R2 & _). destruct (R1 eq_refl) as [_ R1']. destruct (R2 eq_refl) as [_ R2'].
    split; [|split; [|congruence]]; intros d.
    + rewrite T1, T2, f_eqb. destruct (d =? c); [cbn; congruence|apply Ht].
    + rewrite R1', R2', f_eqb. destruct ((d =? c) && rw); [|apply Hr]. cbn. f_equal. unfold def_rules.
      destruct (t_tm ty1), (t_tm ty2); cbn in S2; try discriminate; [|reflexivity]. injection S2 as S2. cbn. unfold er_rule, cm_rule. cbn. congruence.
Qed.
Lemma emb_vr_rule r1 r2 : cm_vrule f (er_vr r1) = er_vr r2 ->
  cm_rule f (er_rule r1) = er_rule r2 /\ tp_symbol (r_lhs r2) = f (tp_symbol (r_lhs r1)) /\ map erp (tp_args (r_lhs r2)) = map (cm_pat f) (map erp (tp_args (r_lhs r1))).
Proof.
  unfold er_vr, cm_vrule. cbn [v_ctx v_head v_args v_rhs]. intros [= E1 E2 E3 E4]. assert (E5 := f_equal (@length _) E1). rewrite !map_length in E5. unfold er_rule, cm_rule. cbn.
  split; [congruence|]. split; congruence.
Qed.
Lemma gemb_add_rules rs1 : forall rs2 g1 g2, gemb g1 g2 -> map (cm_vrule f) (map er_vr rs1) = map er_vr rs2 -> Forall proper_rule rs1 -> Forall proper_rule rs2 ->
  match add_rules rs1 g1, add_rules rs2 g2 with
  | (g1', Ok _), (g2', Ok _) => gemb g1' g2'
  | (_, Err e1), (_, Err e2) => e1 = e2
  | _, _ => False
  end.
Proof.
  induction rs1 as [|r1 rs1 IH]; intros [|r2 rs2] g1 g2 G; cbn [map add_rules]; try discriminate; [intros _ _ _; exact G|].
  intros E P1 P2. assert (E1 := f_equal (hd (er_vr r1)) E). assert (E2 := f_equal (@tl _) E). cbn [hd tl] in E1, E2. apply Forall_cons_iff in P1 as [P1 Q1]. apply Forall_cons_iff in P2 as [P2 Q2].
  assert (E1' := E1). apply emb_vr_rule in E1' as (Er & El & _).
  destruct (add_rule g1 r1) as [g1' e1] eqn:A1, (add_rule g2 r2) as [g2' e2] eqn:A2. cbn [ko_gctx].
  assert (X : get_rules g1 (tp_symbol (r_lhs r1)) = None <-> get_rules g2 (tp_symbol (r_lhs r2)) = None) by (rewrite El; apply gemb_rules_none; exact G).
  assert (AR : forall g r g' e, add_rule g r = (g', e) -> match get_rules g (tp_symbol (r_lhs r)) with None => e = Some NonRewritable | Some _ => e = None /\ g_eta g' = g_eta g end).
  { intros g r g' e. unfold add_rule, get_rules. destruct (slookup (g_rules g) (tp_symbol (r_lhs r))); intros X0; inversion X0; subst; cbn; auto. }
  assert (B1 := AR _ _ _ _ A1). assert (B2 := AR _ _ _ _ A2).
  destruct (get_rules g1 (tp_symbol (r_lhs r1))) as [l1|] eqn:L1, (get_rules g2 (tp_symbol (r_lhs r2))) as [l2|] eqn:L2;
    try (exfalso; destruct X as [X X']; (discriminate (X eq_refl) || discriminate (X' eq_refl))).
  - destruct B1 as [-> B1], B2 as [-> B2]. apply IH; [|exact E2|exact Q1|exact Q2].
    destruct G as (G1 & G2 & Ht & Hr & He). apply add_rule_cases in A1 as [T1 R1], A2 as [T2 R2].
    assert (PP : forall g g' r, proper_gctx g -> proper_rule r -> get_type g' = get_type g -> (forall d, get_rules g' d = match get_rules g d with
                               | None => None
                               | Some rs => Some (if tp_symbol (r_lhs r) =? d then rs ++ [r] else rs)
                               end) -> proper_gctx g').
    { intros g g' r [Y1 Y2] [_ Pr] T R. split; [rewrite T; exact Y1|]. intros d l r0. rewrite R. destruct (get_rules g d) as [l0|] eqn:El0; [|discriminate]. intros [= <-] Hin.
      destruct (_ =? d); [apply in_app_or in Hin; destruct Hin as [Hin|[<-|[]]]|]; [eapply Y2; eassumption|apply Pr|eapply Y2; eassumption]. }
    split; [eapply PP; [exact G1|exact P1|exact T1|exact R1]|]. split; [eapply PP; [exact G2|exact P2|exact T2|exact R2]|]. split; [|split].
    + intros c. rewrite T1, T2. apply Ht.
    + intros c. rewrite R1, R2. specialize (Hr c). destruct (get_rules g1 c), (get_rules g2 (f c)); cbn in *; try discriminate; [|reflexivity]. injection Hr as Hr. f_equal. rewrite El, f_eqb.
      destruct (_ =? c); [rewrite !map_app; cbn; congruence|exact Hr].
    + congruence.
  - subst e1 e2. reflexivity.
Qed.

(** ** Commands *)
Lemma emb_pattern p : forall q, erp q = cm_pat f (erp p) ->
  match lterm_of_pattern p, lterm_of_pattern q with Some a, Some b => cm (erl a) = erl b | None, None => True | _, _ => False end.
Proof.
  induction p as [c ps IH|m|] using pattern_ind'; intros [d qs|k|]; cbn [erp cm_pat lterm_of_pattern]; try discriminate; [|intros [= ->]; reflexivity|trivial].
  intros [= -> E]. assert (X : match map_opt lterm_of_pattern ps, map_opt lterm_of_pattern qs with Some a, Some b => map cm (map erl a) = map erl b | None, None => True | _, _ => False end).
  { clear c. revert qs E. induction IH as [|p ps Hp _ IH]; intros [|q qs]; cbn [map map_opt]; try discriminate; [reflexivity|]. intros [= E1 E2]. specialize (Hp _ E1). specialize (IH _ E2).
    destruct (lterm_of_pattern p), (lterm_of_pattern q); try contradiction; [|exact I]. destruct (map_opt _ ps), (map_opt _ qs); try contradiction; [|exact I]. cbn. congruence. }
  destruct (map_opt _ ps), (map_opt _ qs); try contradiction; [|exact I]. cbn. rewrite cm_apps, X. reflexivity.
Qed.
Lemma gemb_rule_try r1 r2 : cm_vrule f (er_vr r1) = er_vr r2 ->
  match rule_try r1, rule_try r2 with
  | Ok x, Ok y => map cm (map erl (r_ctx x)) = map erl (r_ctx y) /\ cm (erl (r_lhs x)) = erl (r_lhs y) /\ cm (erl (r_rhs x)) = erl (r_rhs y)
  | Ok _, _ | _, Ok _ => False
  | _, _ => True
  end.
Proof.
  intros E. assert (E' := E). apply emb_vr_rule in E' as (_ & El & Ea). unfold er_vr in E. injection E as E1 _ _ E2. unfold rule_try.
  assert (X : match map_opt snd (r_ctx r1), map_opt snd (r_ctx r2) with Some a, Some b => map cm (map erl a) = map erl b | None, None => True | _, _ => False end).
  { clear - E1. revert E1. generalize (r_ctx r2). induction (r_ctx r1) as [|[x o] l IH]; intros [|[y p] m]; cbn [map map_opt snd v_ctx]; try discriminate; [reflexivity|].
    intros [= E1 E2]. specialize (IH _ E2). destruct o, p; try discriminate; [|exact I]. injection E1 as E1.
    destruct (map_opt snd l), (map_opt snd m); try contradiction; [|exact I]. cbn. congruence. }
  destruct (map_opt snd (r_ctx r1)), (map_opt snd (r_ctx r2)); try contradiction; [|exact I].
  assert (Y : erp (pattern_of_top (r_lhs r2)) = cm_pat f (erp (pattern_of_top (r_lhs r1)))) by (cbn; rewrite El, Ea; reflexivity). apply emb_pattern in Y.
  destruct (lterm_of_pattern (pattern_of_top (r_lhs r1))), (lterm_of_pattern (pattern_of_top (r_lhs r2))); try contradiction; cbn; auto.
Qed.

Section Commands.
  Variables (O1 O2 : query -> nat -> bool) (n1 n2 : nat) (o : opts).
  Let K1 := real_kernel O1 n1.
  Let K2 := real_kernel O2 n2.
  Definition f1 (chk : ModelGctx.check) (gc : gctx) (s : unit) : unit * res ko_error unit := (s, if omits o StCheck then Ok tt else ko_typing (k_check K1 gc chk)).
  Definition f2 (chk : ModelGctx.check) (gc : gctx) (s : unit) : unit * res ko_error unit := (s, if omits o StCheck then Ok tt else ko_typing (k_check K2 gc chk)).
  Lemma gemb_f g1 g2 c1 c2 : gemb g1 g2 -> emb_chk c1 c2 -> same_answer eq (snd (f1 c1 g1 tt)) (snd (f2 c2 g2 tt)).
  Proof. intros G H. unfold f1, f2. cbn [snd]. destruct (omits o StCheck); [reflexivity|]. apply ko_same. apply gemb_check_check; assumption. Qed.
  Lemma gemb_rewrites g1 g2 (G : gemb g1 g2) rs1 : forall rs2, map (cm_vrule f) (map er_vr rs1) = map er_vr rs2 -> Forall proper_rule rs1 -> Forall proper_rule rs2 ->
    same_answer eq (snd (rewrites K1 unit f1 rs1 g1 tt)) (snd (rewrites K2 unit f2 rs2 g2 tt)).
  Proof.
    induction rs1 as [|r1 rs1 IH]; intros [|r2 rs2]; cbn [map rewrites]; try discriminate; [reflexivity|].
    intros E P1 P2. assert (E1 := f_equal (hd (er_vr r1)) E). assert (E2 := f_equal (@tl _) E). cbn [hd tl] in E1, E2. apply Forall_cons_iff in P1 as [P1 Q1]. apply Forall_cons_iff in P2 as [P2 Q2]. specialize (IH _ E2 Q1 Q2).
    pose proof (gemb_rule_try _ _ E1) as X. destruct (rule_try r1) as [x|e| |] eqn:T1, (rule_try r2) as [y|e'| |] eqn:T2; try contradiction; try exact IH.
    destruct X as (X1 & X2 & X3). destruct (rule_try_proper _ _ T1 P1) as (Y1 & Y2 & Y3). destruct (rule_try_proper _ _ T2 P2) as (Z1 & Z2 & Z3).
    assert (S : same_answer emb_chk (ko_typing (k_rewrite K1 g1 x)) (ko_typing (k_rewrite K2 g2 y))).
    { apply ko_same. apply gemb_rewrite; assumption. }
    destruct (ko_typing (k_rewrite K1 g1 x)) as [c1|e| |], (ko_typing (k_rewrite K2 g2 y)) as [c2|e'| |]; cbn [same_answer snd] in S |- *; try contradiction; try exact I.
    - pose proof (gemb_f _ _ _ _ G S) as F. destruct (f1 c1 g1 tt) as [[] [[]|a| |]], (f2 c2 g2 tt) as [[] [[]|b| |]]; cbn [same_answer snd] in F |- *; try contradiction; try exact I; try exact F; [exact IH|].
      destruct (snd (rewrites K1 unit f1 rs1 g1 tt)); exact I.
    - destruct (f1 c1 g1 tt) as [[] [[]|a| |]]; cbn [snd]; try exact I. destruct (snd _); exact I.
    - exact S.
  Qed.
  Definition emb_step (a b : gctx * res ko_error unit) : Prop := snd a = Fuel \/ snd b = Fuel \/ (snd a = snd b /\ (snd a = Ok tt -> gemb (fst a) (fst b))).
  Lemma gemb_infer_check g1 g2 c1 c2 : gemb g1 g2 -> cm_vcmd f (er_cmd c1) = er_cmd c2 -> proper_cmd c1 -> proper_cmd c2 ->
    emb_step (infer_check K1 o c1 g1) (infer_check K2 o c2 g2).
  Proof.
    intros G E P1 P2. unfold infer_check. fold f1. fold f2. destruct c1 as [x1 it1|rs1], c2 as [x2 it2|rs2]; cbn [er_cmd cm_vcmd infer_with] in *; try discriminate.
    - injection E as <- E.
      assert (S : same_answer emb_intro (ko_typing (k_intro K1 g1 it1)) (ko_typing (k_intro K2 g2 it2))).
      { apply ko_same. apply gemb_intro; assumption. }
      assert (Rw : rewritable it1 = rewritable it2).
      { destruct it1 as [[a|] [t|]|a t|i a], it2 as [[b|] [u|]|b u|j b]; cbn in E; try discriminate; cbn; congruence. }
      destruct (ko_typing (k_intro K1 g1 it1)) as [[ty1 ch1]|e| |], (ko_typing (k_intro K2 g2 it2)) as [[ty2 ch2]|e'| |]; cbn [same_answer] in S; try contradiction;
        try (right; left; reflexivity); try (left; reflexivity); try (right; right; split; [cbn; congruence|discriminate]).
      + destruct S as [S1 S2]. cbn [fst snd] in S1, S2.
        assert (F : same_answer eq (snd (match ch1 with Some chk => f1 chk g1 tt | None => (tt, Ok tt) end)) (snd (match ch2 with Some chk => f2 chk g2 tt | None => (tt, Ok tt) end))).
        { destruct ch1, ch2; try contradiction; [apply gemb_f; assumption|reflexivity]. }
        destruct (match ch1 with Some chk => f1 chk g1 tt | None => (tt, Ok tt) end) as [[] [[]|a| |]], (match ch2 with Some chk => f2 chk g2 tt | None => (tt, Ok tt) end) as [[] [[]|b| |]];
          cbn [same_answer snd] in F; try contradiction; try (left; reflexivity); try (right; right; split; [cbn; congruence|discriminate]);
          try (right; left; reflexivity).
        pose proof (gemb_insert g1 g2 x1 ty1 ty2 (rewritable it1) G S1) as X. rewrite <- Rw.
        destruct (gctx_insert g1 x1 ty1 (rewritable it1)) as [g1' [e1|]], (gctx_insert g2 (f x1) ty2 (rewritable it1)) as [g2' [e2|]]; try contradiction; right; right; cbn; split; auto; congruence.
    - injection E as E. pose proof (gemb_rewrites _ _ G rs1 rs2 E P1 P2) as F. pose proof (gemb_add_rules rs1 rs2 g1 g2 G E P1 P2) as X.
      destruct (rewrites K1 unit f1 rs1 g1 tt) as [[] [[]|a| |]], (rewrites K2 unit f2 rs2 g2 tt) as [[] [[]|b| |]];
        cbn [same_answer snd] in F; try contradiction; try (left; reflexivity); try (right; left; reflexivity); try (right; right; split; [cbn; congruence|discriminate]).
      destruct (add_rules rs1 g1) as [g1' [[]|e1| |]], (add_rules rs2 g2) as [g2' [[]|e2| |]]; try contradiction; right; right; cbn; split; auto; congruence.
  Qed.
End Commands.
End Embed.

(** ** Commands for other symbols *)
Lemma geq_refl g : proper_gctx g -> geq g g.
Proof. intros P. repeat (split; [exact P || reflexivity|]). reflexivity. Qed.
Lemma add_rules_other rs : forall g g' u, add_rules rs g = (g', Ok u) ->
  get_type g' = get_type g /\ g_eta g' = g_eta g /\ (forall c, (forall r, In r rs -> tp_symbol (r_lhs r) <> c) -> get_rules g' c = get_rules g c).
Proof.
  induction rs as [|r rs IH]; cbn [add_rules]; intros g g' u H; [injection H as <- _; auto|].
  destruct (add_rule g r) as [g0 e] eqn:A. assert (Ae : g_eta g0 = g_eta g) by (unfold add_rule in A; destruct (slookup _ _); injection A as <- _; reflexivity).
  apply add_rule_cases in A as [T R]. destruct e as [e|]; cbn [ko_gctx] in H; [discriminate|]. apply IH in H as (T' & E' & R').
  split; [congruence|]. split; [congruence|]. intros c Hc. rewrite R' by (intros r0 H0; apply Hc; right; exact H0). rewrite R.
  assert (N : tp_symbol (r_lhs r) <> c) by (apply Hc; left; reflexivity). apply Nat.eqb_neq in N. rewrite N. destruct (get_rules g c); reflexivity.
Qed.
Lemma infer_check_other O n o c g g' : proper_gctx g -> proper_cmd c -> infer_check (real_kernel O n) o c g = (g', Ok tt) ->
  proper_gctx g' /\ g_eta g' = g_eta g /\ (forall d, (match er_cmd c with VIntro x _ => d <> x | VRules _ => True end) -> get_type g' d = get_type g d) /\
  (forall d, (match er_cmd c with VIntro x _ => d <> x | VRules rs => forall r, In r rs -> v_head r <> d end) -> get_rules g' d = get_rules g d).
Proof.
  intros P Pc H. split.
  { pose proof (geq_infer_check O O n n o g g c c (geq_refl _ P) eq_refl Pc Pc) as X. rewrite H in X. destruct X as [X|[X|[_ X]]]; try discriminate. apply (X eq_refl). }
  unfold infer_check in H. destruct c as [x it|rs]; cbn [infer_with er_cmd] in *.
  - destruct (ko_typing _) as [[ty ch]|e| |]; try discriminate. destruct (match ch with Some _ => _ | None => _ end) as [[] [[]|e| |]]; try discriminate.
    destruct (gctx_insert g x ty (rewritable it)) as [g0 [e|]] eqn:E; [discriminate|]. cbn [ko_gctx] in H. injection H as <-. pose proof (insert_eta _ _ _ _ _ _ E) as Ee.
    apply insert_cases in E as (T & _ & _ & _ & R). split; [exact Ee|]. split; intros d Hd; [|apply R; exact Hd]. rewrite T. apply Nat.eqb_neq in Hd. rewrite Hd. reflexivity.
  - destruct (rewrites _ _ _ _ _ _) as [[] [[]|e| |]]; try discriminate. destruct (add_rules rs g) as [g0 r] eqn:E. injection H as -> ->.
    apply add_rules_other in E as (T & Ee & R). split; [exact Ee|]. split; intros d Hd; [rewrite T; reflexivity|]. apply R. intros r Hin. apply (Hd (er_vr r)). apply in_map. exact Hin.
Qed.
Lemma gemb_skip f O n o g1 g2 g2' c : gemb f g1 g2 -> proper_cmd c -> apart f (er_cmd c) -> infer_check (real_kernel O n) o c g2 = (g2', Ok tt) -> gemb f g1 g2'.
Proof.
  intros (P1 & P2 & Ht & Hr & He) Pc Ha H. destruct (infer_check_other _ _ _ _ _ _ P2 Pc H) as (P' & E' & T & R).
  split; [exact P1|]. split; [exact P'|]. split; [|split; [|congruence]]; intros x.
  - rewrite T; [apply Ht|]. inversion Ha as [d it A|rs A]; subst; [apply not_eq_sym; apply A|exact I].
  - rewrite R; [apply Hr|]. inversion Ha as [d it A|rs A]; subst; [apply not_eq_sym; apply A|intros r Hin; apply A; exact Hin].
Qed.
