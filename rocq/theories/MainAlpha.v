(** * Lemmas for C79: names of bound variables *)

From Verif Require Import Base LibMono ModelTerm ModelGctx ModelCommand ModelSubst ModelReduce ModelInfer ModelSyntax ModelSymbols ModelShare ModelProcess
  SpecTerm SpecConv SpecQuery SpecProcess SpecDecide RefMachine RefMono Erase SimReduce Inv RefInfer RefExt MainKernel MainGctx MainProcess MainVerify MainDecide.

(** ** Contexts that are equal up to names *)
Definition geq (g1 g2 : gctx) : Prop :=
  proper_gctx g1 /\ proper_gctx g2 /\ (forall c, option_map erl (get_type g1 c) = option_map erl (get_type g2 c)) /\
  (forall c, option_map (map er_rule) (get_rules g1 c) = option_map (map er_rule) (get_rules g2 c)) /\ g_eta g1 = g_eta g2.

Lemma run_sim0' {A B} (f : A -> B) P (m : M A) (m' : RM B) : sim0 f P m m' ->
  match ModelInfer.run m with
  | Ok a => m' [] = Ok (f a, []) /\ P a
  | Err e => m' [] = Err e
  | Panic => m' [] = Panic
  | Fuel => True
  end.
Proof.
  intros H. specialize (H (MSt [] 0) eq_refl). unfold ModelInfer.run.
  destruct (m (MSt [] 0)) as [[a s]| | |]; cbn; auto. tauto.
Qed.
Lemma same_answer_ext {A B} (f : A -> B) P (m1 m2 : M A) (q1 q2 : nat -> RM B) n1 n2 :
  (forall n m, n <= m -> le_m (q2 n) (q2 m)) -> (forall n, le_m (q1 n) (q2 n)) -> sim0 f P m1 (q1 n1) -> sim0 f P m2 (q2 n2) ->
  same_answer (fun a b => f a = f b /\ P a /\ P b) (ModelInfer.run m1) (ModelInfer.run m2).
Proof.
  intros Hm Hq H1 H2. apply (sim0_le _ _ _ _ _ (Hq n1)) in H1. apply run_sim0' in H1, H2.
  pose proof (le_m_agree q2 Hm n1 n2 [] _ _ eq_refl eq_refl) as H.
  destruct (ModelInfer.run m1) as [x1|e1| |], (ModelInfer.run m2) as [x2|e2| |]; cbn; auto; repeat match goal with X : _ /\ _ |- _ => destruct X end;
    match goal with X1 : q2 n1 [] = _, X2 : q2 n2 [] = _ |- _ => rewrite X1, X2 in H end;
    specialize (H ltac:(discriminate) ltac:(discriminate)); try discriminate; try (injection H as H; auto).
Qed.

Section Kernel.
  Variables (g1 g2 : gctx) (u1 u2 : nat -> bool) (n1 n2 : nat).
  Hypothesis G : geq g1 g2.

  Lemma geq_infer lc1 lc2 t1 t2 : Forall nf lc1 -> Forall nf lc2 -> nf t1 -> nf t2 -> map ers lc1 = map ers lc2 -> ers t1 = ers t2 ->
    same_answer (fun a b => ers a = ers b /\ nf a /\ nf b) (ModelInfer.run (ModelInfer.infer u1 g1 n1 lc1 t1)) (ModelInfer.run (ModelInfer.infer u2 g2 n2 lc2 t2)).
  Proof.
    intros L1 L2 N1 N2 El Et. destruct G as (P1 & P2 & Ht & Hr & He).
    apply (same_answer_ext ers nf _ _ (fun n => r_infer (er_gctx g1) n (map ers lc1) (ers t1)) (fun n => r_infer (er_gctx g2) n (map ers lc1) (ers t1)) n1 n2).
    - intros; now apply r_infer_mono.
    - intros n. apply (r_infer_ext (er_gctx g1) (er_gctx g2) Ht Hr He n).
    - apply infer_sim; auto using proper_gctx_nf.
    - rewrite El, Et. apply infer_sim; auto using proper_gctx_nf.
  Qed.
  Lemma geq_check lc1 lc2 t1 t2 ty1 ty2 : Forall nf lc1 -> Forall nf lc2 -> nf t1 -> nf t2 -> nf ty1 -> nf ty2 ->
    map ers lc1 = map ers lc2 -> ers t1 = ers t2 -> ers ty1 = ers ty2 ->
    same_answer eq (ModelInfer.run (ModelInfer.check u1 g1 n1 lc1 t1 ty1)) (ModelInfer.run (ModelInfer.check u2 g2 n2 lc2 t2 ty2)).
  Proof.
    intros L1 L2 N1 N2 T1 T2 El Et Ety. destruct G as (P1 & P2 & Ht & Hr & He).
    assert (X : same_answer (fun a b => id a = id b /\ anyt a /\ anyt b) (ModelInfer.run (ModelInfer.check u1 g1 n1 lc1 t1 ty1)) (ModelInfer.run (ModelInfer.check u2 g2 n2 lc2 t2 ty2))).
    { apply (same_answer_ext id anyt _ _ (fun n => r_check (er_gctx g1) n (map ers lc1) (ers t1) (ers ty1)) (fun n => r_check (er_gctx g2) n (map ers lc1) (ers t1) (ers ty1)) n1 n2).
      - intros; now apply r_check_mono.
      - intros n. apply (r_infer_ext (er_gctx g1) (er_gctx g2) Ht Hr He n).
      - apply infer_sim; auto using proper_gctx_nf.
      - rewrite El, Et, Ety. apply infer_sim; auto using proper_gctx_nf. }
    destruct (ModelInfer.run _), (ModelInfer.run _); cbn in *; tauto.
  Qed.
End Kernel.

(** ** Terms *)
Fixpoint kindless (t : tm) : Prop :=
  match t with
  | Kind => False
  | Typ | Const _ | Var _ => True
  | App t u => kindless t /\ kindless u
  | Lam a t => kindless a /\ kindless t
  | ULam t => kindless t
  | Pi a b => kindless a /\ kindless b
  end.
Lemma kindless_apps us : forall t, kindless (apps t us) <-> kindless t /\ Forall kindless us.
Proof.
  induction us as [|u us IH]; intros t; cbn [apps fold_left]; [intuition|]. change (fold_left App us (App t u)) with (apps (App t u) us). rewrite IH. cbn [kindless].
  split; [intros ([H1 H2] & H3); auto|]. intros (H1 & H2). inversion H2; subst. auto.
Qed.
Lemma kindless_l t : kindless (erl t).
Proof.
  induction t as [|c|n|c IH] using lterm_ind'; cbn; auto. destruct c as [h args|id a b|id [a|] b]; cbn [comb_all er_comb kindless] in *; try tauto.
  rewrite kindless_apps, Forall_map. exact IH.
Qed.
Lemma kindless_s t : lterm_of_sterm t <> None <-> kindless (ers t).
Proof.
  induction t as [| |c|n|c|c IH] using sterm_ind'; cbn [lterm_of_sterm ers]; try (split; [intros _; exact I|intros _; discriminate]).
  - split; [intros H; apply H; reflexivity|intros []].
  - split; [intros _; exact (kindless_l (LComb c))|intros _; discriminate].
  - destruct c as [h args|id a b|id [a|] b]; cbn [comb_try comb_all er_comb kindless] in *.
    + destruct IH as [Hh Ha]. rewrite kindless_apps, Forall_map, <- Hh.
      assert (X : map_opt lterm_of_sterm args <> None <-> Forall (fun x => kindless (ers x)) args).
      { clear -Ha. induction Ha as [|a args Ha _ IH]; cbn [map_opt]; [split; [constructor|discriminate]|].
        destruct (lterm_of_sterm a) as [a'|].
        - assert (kindless (ers a)) by (apply Ha; discriminate). destruct (map_opt lterm_of_sterm args); split; try discriminate.
          + intros _. constructor; [assumption|apply IH; discriminate].
          + intros H1. exfalso. apply H1. reflexivity.
          + intros H1. inversion H1; subst. exfalso. apply (proj2 IH); [assumption|reflexivity].
        - split; [intros H; exfalso; apply H; reflexivity|]. intros H. inversion H; subst. exfalso. apply (proj2 Ha); [assumption|reflexivity]. }
      rewrite <- X. destruct (lterm_of_sterm h), (map_opt lterm_of_sterm args); split; try discriminate; try (intros H; exfalso; apply H; reflexivity); try (intros [H1 H2]; exfalso; (apply H1 + apply H2); reflexivity).
      split; discriminate.
    + destruct IH as [Ha Hb]. rewrite <- Ha, <- Hb. destruct (lterm_of_sterm a), (lterm_of_sterm b); split; try discriminate; try (intros H; exfalso; apply H; reflexivity); try (intros [H1 H2]; exfalso; (apply H1 + apply H2); reflexivity). split; discriminate.
    + destruct IH as [Ha Hb]. rewrite <- Ha, <- Hb. destruct (lterm_of_sterm a), (lterm_of_sterm b); split; try discriminate; try (intros H; exfalso; apply H; reflexivity); try (intros [H1 H2]; exfalso; (apply H1 + apply H2); reflexivity). split; discriminate.
    + destruct IH as [_ Hb]. rewrite <- Hb. destruct (lterm_of_sterm b); split; try discriminate; auto.
Qed.
Lemma same_lterm a b : ers a = ers b -> nf a -> nf b ->
  match lterm_of_sterm a, lterm_of_sterm b with
  | Some a', Some b' => erl a' = erl b' /\ proper_l a' /\ proper_l b'
  | None, None => True
  | _, _ => False
  end.
Proof.
  intros E Na Nb. destruct (lterm_of_sterm a) as [a'|] eqn:Ea, (lterm_of_sterm b) as [b'|] eqn:Eb.
  - rewrite (lterm_of_sterm_er _ _ Ea), (lterm_of_sterm_er _ _ Eb). eauto using proper_of_sterm.
  - apply (proj2 (kindless_s b)); [|exact Eb]. rewrite <- E. apply kindless_s. congruence.
  - apply (proj2 (kindless_s a)); [|exact Ea]. rewrite E. apply kindless_s. congruence.
  - exact I.
Qed.
Lemma same_sort a b : ers a = ers b -> nf a -> nf b -> is_sort a = is_sort b.
Proof.
  intros E Na Nb. pose proof (nf_shape _ Na) as Ha. pose proof (nf_shape _ Nb) as Hb. rewrite <- E in Hb.
  assert (X : forall x y, ers x = ers y -> is_sort y = false -> match ers y with Kind | Typ => False | _ => True end -> is_sort x = false).
  { intros x y Exy _. destruct (ers y) eqn:Ey; try contradiction; intros _; destruct x; try reflexivity; cbn in Exy; discriminate. }
  assert (Y : forall y, match ers y with Kind | Typ => False | _ => True end -> is_sort y = false).
  { intros y. destruct y; try reflexivity; intros []. }
  destruct (ers a) eqn:Ex; try (subst a b; reflexivity); rewrite !Y; try reflexivity; rewrite <- ?E, ?Ex; exact I.
Qed.
Lemma erp_inj p : forall q, erp p = erp q -> p = q.
Proof.
  induction p as [c ps IH|m|] using pattern_ind'; intros [d qs|k|]; cbn [erp]; try discriminate; [|intros [= ->]; reflexivity|reflexivity].
  intros [= -> E]. f_equal. revert qs E. induction IH as [|p ps Hp _ IH]; intros [|q qs]; cbn [map]; try discriminate; [reflexivity|].
  intros [= E1 E2]. f_equal; auto.
Qed.
Lemma erp_inj_all ps : forall qs, map erp ps = map erp qs -> ps = qs.
Proof. induction ps as [|p ps IH]; intros [|q qs]; cbn [map]; try discriminate; [reflexivity|]. intros [= E1 E2]. f_equal; auto using erp_inj. Qed.

(** ** Queries *)
Definition same_chk (c1 c2 : ModelGctx.check) : Prop :=
  map erl (t_lc c1) = map erl (t_lc c2) /\ erl (t_ty c1) = erl (t_ty c2) /\ erl (t_tm c1) = erl (t_tm c2) /\
  Forall proper_l (t_lc c1) /\ Forall proper_l (t_lc c2) /\ proper_l (t_ty c1) /\ proper_l (t_ty c2) /\ proper_l (t_tm c1) /\ proper_l (t_tm c2).
Definition same_ochk (o1 o2 : option ModelGctx.check) : Prop :=
  match o1, o2 with Some c1, Some c2 => same_chk c1 c2 | None, None => True | _, _ => False end.
Definition same_typing (a b : typing) : Prop :=
  erl (t_ty a) = erl (t_ty b) /\ option_map erl (t_tm a) = option_map erl (t_tm b) /\ proper_l (t_ty a) /\ proper_l (t_ty b) /\
  (forall t, t_tm a = Some t -> proper_l t) /\ (forall t, t_tm b = Some t -> proper_l t).
Definition er_intro (it : intro) : intro_ tm tm := map_type erl (map_term erl it).

Section Queries.
  Variables (g1 g2 : gctx) (u1 u2 : nat -> bool) (n1 n2 : nat).
  Hypothesis G : geq g1 g2.
  Lemma nf_l t : proper_l t -> nf (sterm_of_lterm t).
  Proof. intros H. apply nf_lterm, proper_nfl, H. Qed.
  Lemma nf_lc lc : Forall proper_l lc -> Forall nf (lctx_of lc).
  Proof. intros H. unfold lctx_of. apply Forall_rev, Forall_map. eapply Forall_impl; [|exact H]. apply nf_l. Qed.
  Lemma infer_l lc1 lc2 t1 t2 : Forall proper_l lc1 -> Forall proper_l lc2 -> proper_l t1 -> proper_l t2 -> map erl lc1 = map erl lc2 -> erl t1 = erl t2 ->
    same_answer (fun a b => ers a = ers b /\ nf a /\ nf b) (ModelInfer.run (ModelInfer.infer u1 g1 n1 (lctx_of lc1) (sterm_of_lterm t1)))
      (ModelInfer.run (ModelInfer.infer u2 g2 n2 (lctx_of lc2) (sterm_of_lterm t2))).
  Proof.
    intros L1 L2 P1 P2 El Et. apply geq_infer; auto using nf_l, nf_lc.
    - rewrite !ers_lctx_of, !map_rev, El. reflexivity.
    - rewrite !ers_sterm_of_lterm. exact Et.
  Qed.
  Lemma infer_l0 t1 t2 : proper_l t1 -> proper_l t2 -> erl t1 = erl t2 ->
    same_answer (fun a b => ers a = ers b /\ nf a /\ nf b) (ModelInfer.run (ModelInfer.infer u1 g1 n1 [] (sterm_of_lterm t1)))
      (ModelInfer.run (ModelInfer.infer u2 g2 n2 [] (sterm_of_lterm t2))).
  Proof. intros P1 P2 E. apply (infer_l [] [] t1 t2); auto. Qed.
  Lemma same_bind {A B A' B'} (R : A -> B -> Prop) (Q : A' -> B' -> Prop) (r1 : res kerror A) (r2 : res kerror B) k1 k2 : same_answer R r1 r2 ->
    (forall a b, R a b -> same_answer Q (k1 a) (k2 b)) -> same_answer Q (res_bind r1 k1) (res_bind r2 k2).
  Proof.
    intros H Hk. destruct r1 as [a|e| |], r2 as [b|e'| |]; cbn in *; auto; try contradiction; try (destruct (k1 a); exact I); destruct (k2 b); exact I.
  Qed.
  Definition same_intro (a b : typing * option ModelGctx.check) : Prop := same_typing (fst a) (fst b) /\ same_ochk (snd a) (snd b).

  Lemma geq_intro it1 it2 : er_intro it1 = er_intro it2 -> intro_all proper_l it1 -> intro_all proper_l it2 ->
    same_answer same_intro (ModelInfer.run (kintro u1 g1 n1 it1)) (ModelInfer.run (kintro u2 g2 n2 it2)).
  Proof.
    assert (Dec : forall a b, erl a = erl b -> proper_l a -> proper_l b -> same_answer same_intro (ModelInfer.run (declare u1 g1 n1 a)) (ModelInfer.run (declare u2 g2 n2 b))).
    { intros a b E Pa Pb. unfold declare.
      rewrite (run_bind _ _ (fun s => if is_sort s then Ok (typing_new a None, None) else Err SortExpected : res kerror (typing * option ModelGctx.check))) by (intros s m; destruct (is_sort s); reflexivity).
      rewrite (run_bind _ _ (fun s => if is_sort s then Ok (typing_new b None, None) else Err SortExpected : res kerror (typing * option ModelGctx.check))) by (intros s m; destruct (is_sort s); reflexivity).
      eapply same_bind; [apply infer_l0; assumption|]. intros s s' (H1 & H2 & H3). rewrite (same_sort _ _ H1 H2 H3). destruct (is_sort s'); cbn; [|reflexivity].
      split; [|exact I]. split; [exact E|]. split; [reflexivity|]. cbn. repeat split; auto; discriminate. }
    assert (Two : forall a b t u (k : lterm -> lterm -> option lterm), erl a = erl b -> erl t = erl u -> proper_l a -> proper_l b -> proper_l t -> proper_l u ->
      option_map erl (k a t) = option_map erl (k b u) -> (forall x, k a t = Some x -> x = t) -> (forall x, k b u = Some x -> x = u) ->
      same_answer same_intro (ModelInfer.run (bind (ModelInfer.infer u1 g1 n1 [] (sterm_of_lterm a)) (fun _ => ret (typing_new a (k a t), Some (typing_new a t)))))
        (ModelInfer.run (bind (ModelInfer.infer u2 g2 n2 [] (sterm_of_lterm b)) (fun _ => ret (typing_new b (k b u), Some (typing_new b u)))))).
    { intros a b t u k E Et Pa Pb Pt Pu Ek K1 K2.
      rewrite (run_bind _ _ (fun _ => Ok (typing_new a (k a t), Some (typing_new a t)) : res kerror (typing * option ModelGctx.check))) by reflexivity.
      rewrite (run_bind _ _ (fun _ => Ok (typing_new b (k b u), Some (typing_new b u)) : res kerror (typing * option ModelGctx.check))) by reflexivity.
      eapply same_bind; [apply infer_l0; assumption|]. intros s s' _. cbn. split.
      - split; [exact E|]. split; [exact Ek|]. cbn. repeat split; auto; intros x Hx; [rewrite (K1 x Hx)|rewrite (K2 x Hx)]; assumption.
      - cbn. unfold same_chk. cbn. repeat split; auto. }
    destruct it1 as [[a|] [t|]|a t|i a], it2 as [[b|] [u|]|b u|j b]; cbn [er_intro map_type map_term option_map intro_all kintro]; try discriminate; cbn; intros E H1 H2.
    - injection E as E1 E2. apply (Two a b t u (fun _ t => Some t)); try tauto; try (intros x [= <-]; reflexivity). cbn. congruence.
    - injection E as E1. apply Dec; tauto.
    - injection E as E1. unfold define.
      set (K := fun (t : lterm) (s : sterm) => match lterm_of_sterm s with Some ty => Ok (typing_new ty (Some t), None) | None => Err UnexpectedKind end : res kerror (typing * option ModelGctx.check)).
      rewrite (run_bind _ _ (K t)) by (intros s m; unfold K; destruct (lterm_of_sterm s); reflexivity).
      rewrite (run_bind _ _ (K u)) by (intros s m; unfold K; destruct (lterm_of_sterm s); reflexivity).
      eapply same_bind; [apply infer_l0; tauto|]. intros s s' (X1 & X2 & X3). pose proof (same_lterm _ _ X1 X2 X3) as X. unfold K.
      destruct (lterm_of_sterm s), (lterm_of_sterm s'); try contradiction; cbn; [|reflexivity]. destruct X as (Y1 & Y2 & Y3). split; [|exact I].
      split; [exact Y1|]. split; [cbn; congruence|]. cbn. repeat split; auto; intros x [= <-]; tauto.
    - reflexivity.
    - injection E as E1 E2. unfold theorem. apply (Two a b t u (fun _ _ => None)); try tauto; discriminate.
    - injection E as E0 E1. apply Dec; tauto.
  Qed.

  Lemma geq_rewrite r1 r2 : map erl (r_ctx r1) = map erl (r_ctx r2) -> erl (r_lhs r1) = erl (r_lhs r2) -> erl (r_rhs r1) = erl (r_rhs r2) ->
    Forall proper_l (r_ctx r1) -> Forall proper_l (r_ctx r2) -> proper_l (r_lhs r1) -> proper_l (r_lhs r2) -> proper_l (r_rhs r1) -> proper_l (r_rhs r2) ->
    same_answer same_chk (ModelInfer.run (rewrite u1 g1 n1 r1)) (ModelInfer.run (rewrite u2 g2 n2 r2)).
  Proof.
    intros. unfold rewrite.
    set (K := fun (r : rule_ lterm lterm lterm) (s : sterm) => match lterm_of_sterm s with Some ty => Ok (MkTyping (r_ctx r) ty (r_rhs r)) | None => Err UnexpectedKind end : res kerror ModelGctx.check).
    rewrite (run_bind _ _ (K r1)) by (intros s m; unfold K; destruct (lterm_of_sterm s); reflexivity).
    rewrite (run_bind _ _ (K r2)) by (intros s m; unfold K; destruct (lterm_of_sterm s); reflexivity).
    eapply same_bind; [apply infer_l; assumption|]. intros s s' (X1 & X2 & X3). pose proof (same_lterm _ _ X1 X2 X3) as X. unfold K.
    destruct (lterm_of_sterm s), (lterm_of_sterm s'); try contradiction; cbn; [|reflexivity]. unfold same_chk. cbn. intuition auto.
  Qed.
  Lemma geq_check_check c1 c2 : same_chk c1 c2 -> same_answer eq (ModelInfer.run (check_check u1 g1 n1 c1)) (ModelInfer.run (check_check u2 g2 n2 c2)).
  Proof.
    intros (H1 & H2 & H3 & P1 & P2 & P3 & P4 & P5 & P6). unfold check_check.
    set (K := fun b : bool => if b then Ok tt else Err Unconvertible : res kerror unit).
    rewrite !(run_bind _ _ K) by (intros [] m; reflexivity). eapply same_bind.
    - apply geq_check; auto using nf_l, nf_lc; [rewrite !ers_lctx_of, !map_rev, H1; reflexivity|rewrite !ers_sterm_of_lterm; assumption|rewrite !ers_sterm_of_lterm; assumption].
    - intros a b ->. destruct b; reflexivity.
  Qed.
End Queries.

(** ** Changes of the context *)
Lemma geq_type_none g1 g2 c : geq g1 g2 -> (get_type g1 c = None <-> get_type g2 c = None).
Proof. intros (_ & _ & Ht & _). specialize (Ht c). destruct (get_type g1 c), (get_type g2 c); cbn in Ht; split; intros; congruence. Qed.
Lemma geq_rules_none g1 g2 c : geq g1 g2 -> (get_rules g1 c = None <-> get_rules g2 c = None).
Proof. intros (_ & _ & _ & Hr & _). specialize (Hr c). destruct (get_rules g1 c), (get_rules g2 c); cbn in Hr; split; intros; congruence. Qed.
Lemma def_rules_proper c ty : (forall t, t_tm ty = Some t -> proper_l t) -> forall r, In r (def_rules c ty) -> proper_l (r_rhs r).
Proof. intros H r. unfold def_rules. destruct (t_tm ty) as [t|]; [|intros []]. intros [<-|[]]. cbn. auto. Qed.
Lemma insert_proper gc c ty rw gc' : proper_gctx gc -> proper_l (t_ty ty) -> (forall t, t_tm ty = Some t -> proper_l t) ->
  gctx_insert gc c ty rw = (gc', None) -> proper_gctx gc'.
Proof.
  intros [Q1 Q2] H1 H2 Hi. apply insert_cases in Hi as (T & R & _). destruct (R eq_refl) as [_ R']. split.
  - intros d A. rewrite T. destruct (d =? c); [intros [= <-]; exact H1|apply Q1].
  - intros d rs r. rewrite R'. destruct ((d =? c) && rw); [|apply Q2]. intros [= <-]. apply def_rules_proper. exact H2.
Qed.
Lemma geq_insert g1 g2 c ty1 ty2 rw : geq g1 g2 -> same_typing ty1 ty2 ->
  match gctx_insert g1 c ty1 rw, gctx_insert g2 c ty2 rw with
  | (g1', None), (g2', None) => geq g1' g2'
  | (_, Some e1), (_, Some e2) => e1 = e2
  | _, _ => False
  end.
Proof.
  intros G (S1 & S2 & S3 & S4 & S5 & S6). pose proof (insert_match g1 c ty1 rw) as M1. pose proof (insert_match g2 c ty2 rw) as M2.
  assert (X : (get_type g1 c = None /\ (rw = true -> get_rules g1 c = None)) <-> (get_type g2 c = None /\ (rw = true -> get_rules g2 c = None))).
  { rewrite (geq_type_none _ _ c G). pose proof (geq_rules_none _ _ c G). tauto. }
  destruct (gctx_insert g1 c ty1 rw) as [g1' e1] eqn:E1, (gctx_insert g2 c ty2 rw) as [g2' e2] eqn:E2.
  destruct e1 as [e1|], e2 as [e2|]; try tauto.
  - apply insert_cases in E1 as (_ & _ & [E1|E1] & _), E2 as (_ & _ & [E2|E2] & _); try discriminate. congruence.
  - destruct G as (P1 & P2 & Ht & Hr & He). pose proof (insert_eta _ _ _ _ _ _ E1) as Y1. pose proof (insert_eta _ _ _ _ _ _ E2) as Y2.
    split; [eapply insert_proper; [exact P1| |exact S5|exact E1]; assumption|]. split; [eapply insert_proper; [exact P2| |exact S6|exact E2]; assumption|].
    apply insert_cases in E1 as (T1 & R1 & _), E2 as (T2 & R2 & _). destruct (R1 eq_refl) as [_ R1']. destruct (R2 eq_refl) as [_ R2'].
    split; [|split; [|congruence]]; intros d.
    + rewrite T1, T2. destruct (d =? c); [cbn; congruence|apply Ht].
    + rewrite R1', R2'. destruct ((d =? c) && rw); [|apply Hr]. cbn. f_equal. unfold def_rules.
      destruct (t_tm ty1), (t_tm ty2); cbn in S2; try discriminate; [|reflexivity]. injection S2 as S2. cbn. unfold er_rule. cbn. congruence.
Qed.
Definition proper_rule (r : rule) : Prop := Forall (fun x => forall A, snd x = Some A -> proper_l A) (r_ctx r) /\ proper_l (r_rhs r).
Definition er_vr (r : rule) : vrule := er_vrule r.
Lemma er_vr_rule r1 r2 : er_vr r1 = er_vr r2 -> er_rule r1 = er_rule r2 /\ r_lhs r1 = r_lhs r2.
Proof.
  unfold er_vr. intros [= E1 E2 E3 E4]. assert (E5 := f_equal (@length _) E1). rewrite !map_length in E5. unfold er_rule.
  split; [congruence|]. apply erp_inj_all in E3. destruct (r_lhs r1), (r_lhs r2). cbn in *. congruence.
Qed.
Lemma geq_add_rules rs1 : forall rs2 g1 g2, geq g1 g2 -> map er_vr rs1 = map er_vr rs2 -> Forall proper_rule rs1 -> Forall proper_rule rs2 ->
  match add_rules rs1 g1, add_rules rs2 g2 with
  | (g1', Ok _), (g2', Ok _) => geq g1' g2'
  | (_, Err e1), (_, Err e2) => e1 = e2
  | _, _ => False
  end.
Proof.
  induction rs1 as [|r1 rs1 IH]; intros [|r2 rs2] g1 g2 G; cbn [map add_rules]; try discriminate; [intros _ _ _; exact G|].
  intros E P1 P2. assert (E1 := f_equal (hd (er_vr r1)) E). assert (E2 := f_equal (@tl _) E). cbn [hd tl] in E1, E2. apply Forall_cons_iff in P1 as [P1 Q1]. apply Forall_cons_iff in P2 as [P2 Q2].
  assert (E1' := E1). apply er_vr_rule in E1' as [Er El].
  destruct (add_rule g1 r1) as [g1' e1] eqn:A1, (add_rule g2 r2) as [g2' e2] eqn:A2. cbn [ko_gctx].
  assert (X : get_rules g1 (tp_symbol (r_lhs r1)) = None <-> get_rules g2 (tp_symbol (r_lhs r2)) = None) by (rewrite El; apply geq_rules_none; exact G).
  assert (AR : forall g r g' e, add_rule g r = (g', e) -> match get_rules g (tp_symbol (r_lhs r)) with None => e = Some NonRewritable | Some _ => e = None /\ g_eta g' = g_eta g end).
  { intros g r g' e. unfold add_rule, get_rules. destruct (slookup (g_rules g) (tp_symbol (r_lhs r))); intros X0; inversion X0; subst; cbn; auto. }
  assert (B1 := AR _ _ _ _ A1). assert (B2 := AR _ _ _ _ A2).
  destruct (get_rules g1 (tp_symbol (r_lhs r1))) as [l1|] eqn:L1, (get_rules g2 (tp_symbol (r_lhs r2))) as [l2|] eqn:L2;
    try (exfalso; destruct X as [X X']; (discriminate (X eq_refl) || discriminate (X' eq_refl))).
  - destruct B1 as [-> B1], B2 as [-> B2]. apply IH; [|exact E2|exact Q1|exact Q2].
    destruct G as (G1 & G2 & Ht & Hr & He). apply add_rule_cases in A1 as [T1 R1], A2 as [T2 R2].
    assert (PP : forall g g' r, proper_gctx g -> proper_rule r -> get_type g' = get_type g -> (forall d, get_rules g' d = match get_rules g d with
                               | None => None
                               | Some rs => Some (if tp_symbol (r_lhs r) =? d then rs ++ [r] else rs)
                               end) -> proper_gctx g').
    { intros g g' r [Y1 Y2] [_ Pr] T R. split; [rewrite T; exact Y1|]. intros d l r0. rewrite R. destruct (get_rules g d) as [l0|] eqn:El0; [|discriminate]. intros [= <-] Hin.
      destruct (_ =? d); [apply in_app_or in Hin; destruct Hin as [Hin|[<-|[]]]|]; [eapply Y2; eassumption|apply Pr|eapply Y2; eassumption]. }
    split; [eapply PP; [exact G1|exact P1|exact T1|exact R1]|]. split; [eapply PP; [exact G2|exact P2|exact T2|exact R2]|]. split; [|split].
    + intros c. rewrite T1, T2. apply Ht.
    + intros c. rewrite R1, R2. specialize (Hr c). destruct (get_rules g1 c), (get_rules g2 c); cbn in *; try discriminate; [|reflexivity]. injection Hr as Hr. f_equal. rewrite El.
      destruct (_ =? c); [rewrite !map_app; cbn; congruence|exact Hr].
    + congruence.
  - subst e1 e2. reflexivity.
Qed.

(** ** Commands *)
Lemma geq_rule_try r1 r2 : er_vr r1 = er_vr r2 ->
  match rule_try r1, rule_try r2 with
  | Ok x, Ok y => map erl (r_ctx x) = map erl (r_ctx y) /\ r_lhs x = r_lhs y /\ erl (r_rhs x) = erl (r_rhs y)
  | Ok _, _ | _, Ok _ => False
  | _, _ => True
  end.
Proof.
  intros E. assert (E' := E). apply er_vr_rule in E' as [_ El]. unfold er_vr in E. injection E as E1 _ _ E2. unfold rule_try. rewrite El.
  assert (X : match map_opt snd (r_ctx r1), map_opt snd (r_ctx r2) with Some a, Some b => map erl a = map erl b | None, None => True | _, _ => False end).
  { clear - E1. revert E1. generalize (r_ctx r2). induction (r_ctx r1) as [|[x o] l IH]; intros [|[y p] m]; cbn [map map_opt snd]; try discriminate; [reflexivity|].
    intros [= E1 E2]. specialize (IH _ E2). destruct o, p; try discriminate; [|exact I]. injection E1 as E1.
    destruct (map_opt snd l), (map_opt snd m); try contradiction; [|exact I]. cbn. congruence. }
  destruct (map_opt snd (r_ctx r1)), (map_opt snd (r_ctx r2)); try contradiction; [|exact I].
  destruct (lterm_of_pattern _); cbn; auto.
Qed.

Section Commands.
  Variables (O1 O2 : query -> nat -> bool) (n1 n2 : nat) (o : opts).
  Let K1 := real_kernel O1 n1.
  Let K2 := real_kernel O2 n2.
  Lemma ko_same {A B} (R : A -> B -> Prop) (r1 : res kerror A) (r2 : res kerror B) : same_answer R r1 r2 -> same_answer R (ko_typing r1) (ko_typing r2).
  Proof. destruct r1, r2; cbn; auto; congruence. Qed.
  Definition f1 (chk : ModelGctx.check) (gc : gctx) (s : unit) : unit * res ko_error unit := (s, if omits o StCheck then Ok tt else ko_typing (k_check K1 gc chk)).
  Definition f2 (chk : ModelGctx.check) (gc : gctx) (s : unit) : unit * res ko_error unit := (s, if omits o StCheck then Ok tt else ko_typing (k_check K2 gc chk)).
  Lemma geq_f g1 g2 c1 c2 : geq g1 g2 -> same_chk c1 c2 -> same_answer eq (snd (f1 c1 g1 tt)) (snd (f2 c2 g2 tt)).
  Proof. intros G H. unfold f1, f2. cbn [snd]. destruct (omits o StCheck); [reflexivity|]. apply ko_same. apply geq_check_check; assumption. Qed.
  Lemma geq_rewrites g1 g2 (G : geq g1 g2) rs1 : forall rs2, map er_vr rs1 = map er_vr rs2 -> Forall proper_rule rs1 -> Forall proper_rule rs2 ->
    same_answer eq (snd (rewrites K1 unit f1 rs1 g1 tt)) (snd (rewrites K2 unit f2 rs2 g2 tt)).
  Proof.
    induction rs1 as [|r1 rs1 IH]; intros [|r2 rs2]; cbn [map rewrites]; try discriminate; [reflexivity|].
    intros E P1 P2. assert (E1 := f_equal (hd (er_vr r1)) E). assert (E2 := f_equal (@tl _) E). cbn [hd tl] in E1, E2. apply Forall_cons_iff in P1 as [P1 Q1]. apply Forall_cons_iff in P2 as [P2 Q2]. specialize (IH _ E2 Q1 Q2).
    pose proof (geq_rule_try _ _ E1) as X. destruct (rule_try r1) as [x|e| |] eqn:T1, (rule_try r2) as [y|e'| |] eqn:T2; try contradiction; try exact IH.
    destruct X as (X1 & X2 & X3). destruct (rule_try_proper _ _ T1 P1) as (Y1 & Y2 & Y3). destruct (rule_try_proper _ _ T2 P2) as (Z1 & Z2 & Z3).
    assert (S : same_answer same_chk (ko_typing (k_rewrite K1 g1 x)) (ko_typing (k_rewrite K2 g2 y))).
    { apply ko_same. apply geq_rewrite; try assumption. congruence. }
    destruct (ko_typing (k_rewrite K1 g1 x)) as [c1|e| |], (ko_typing (k_rewrite K2 g2 y)) as [c2|e'| |]; cbn [same_answer snd] in S |- *; try contradiction; try exact I.
    - pose proof (geq_f _ _ _ _ G S) as F. destruct (f1 c1 g1 tt) as [[] [[]|a| |]], (f2 c2 g2 tt) as [[] [[]|b| |]]; cbn [same_answer snd] in F |- *; try contradiction; try exact I; try exact F; [exact IH|].
      destruct (snd (rewrites K1 unit f1 rs1 g1 tt)); exact I.
    - destruct (f1 c1 g1 tt) as [[] [[]|a| |]]; cbn [snd]; try exact I. destruct (snd _); exact I.
    - exact S.
  Qed.
  Definition same_step (a b : gctx * res ko_error unit) : Prop := snd a = Fuel \/ snd b = Fuel \/ (snd a = snd b /\ (snd a = Ok tt -> geq (fst a) (fst b))).
  Lemma geq_infer_check g1 g2 c1 c2 : geq g1 g2 -> er_cmd c1 = er_cmd c2 -> proper_cmd c1 -> proper_cmd c2 ->
    same_step (infer_check K1 o c1 g1) (infer_check K2 o c2 g2).
  Proof.
    intros G E P1 P2. unfold infer_check. fold f1. fold f2. destruct c1 as [x1 it1|rs1], c2 as [x2 it2|rs2]; cbn [er_cmd infer_with] in *; try discriminate.
    - injection E as <- E.
      assert (S : same_answer same_intro (ko_typing (k_intro K1 g1 it1)) (ko_typing (k_intro K2 g2 it2))).
      { apply ko_same. apply geq_intro; assumption. }
      assert (Rw : rewritable it1 = rewritable it2).
      { destruct it1 as [[a|] [t|]|a t|i a], it2 as [[b|] [u|]|b u|j b]; cbn in E; try discriminate; cbn; congruence. }
      destruct (ko_typing (k_intro K1 g1 it1)) as [[ty1 ch1]|e| |], (ko_typing (k_intro K2 g2 it2)) as [[ty2 ch2]|e'| |]; cbn [same_answer] in S; try contradiction;
        try (right; left; reflexivity); try (left; reflexivity); try (right; right; split; [cbn; congruence|discriminate]).
      + destruct S as [S1 S2]. cbn [fst snd] in S1, S2.
        assert (F : same_answer eq (snd (match ch1 with Some chk => f1 chk g1 tt | None => (tt, Ok tt) end)) (snd (match ch2 with Some chk => f2 chk g2 tt | None => (tt, Ok tt) end))).
        { destruct ch1, ch2; try contradiction; [apply geq_f; assumption|reflexivity]. }
        destruct (match ch1 with Some chk => f1 chk g1 tt | None => (tt, Ok tt) end) as [[] [[]|a| |]], (match ch2 with Some chk => f2 chk g2 tt | None => (tt, Ok tt) end) as [[] [[]|b| |]];
          cbn [same_answer snd] in F; try contradiction; try (left; reflexivity); try (right; right; split; [cbn; congruence|discriminate]);
          try (right; left; reflexivity).
        pose proof (geq_insert g1 g2 x1 ty1 ty2 (rewritable it1) G S1) as X. rewrite <- Rw.
        destruct (gctx_insert g1 x1 ty1 (rewritable it1)) as [g1' [e1|]], (gctx_insert g2 x1 ty2 (rewritable it1)) as [g2' [e2|]]; try contradiction; right; right; cbn; split; auto; congruence.
    - injection E as E. pose proof (geq_rewrites _ _ G rs1 rs2 E P1 P2) as F. pose proof (geq_add_rules rs1 rs2 g1 g2 G E P1 P2) as X.
      destruct (rewrites K1 unit f1 rs1 g1 tt) as [[] [[]|a| |]], (rewrites K2 unit f2 rs2 g2 tt) as [[] [[]|b| |]];
        cbn [same_answer snd] in F; try contradiction; try (left; reflexivity); try (right; left; reflexivity); try (right; right; split; [cbn; congruence|discriminate]).
      destruct (add_rules rs1 g1) as [g1' [[]|e1| |]], (add_rules rs2 g2) as [g2' [[]|e2| |]]; try contradiction; right; right; cbn; split; auto; congruence.
  Qed.
End Commands.
