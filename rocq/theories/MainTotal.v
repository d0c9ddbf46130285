(** * Termination of inference, checking and the processing of commands *)

From Verif Require Import Base LibMono ModelTerm ModelGctx ModelCommand ModelSubst ModelReduce ModelInfer ModelSyntax ModelSymbols ModelShare ModelProcess
  SpecTerm SpecConv SpecConvFacts SpecTyping SpecRed SpecSN SpecType SpecDomain SpecTotal SpecBidir SpecQuery RedConfl Erase Inv SoundInfer
  TypeFacts DomFacts SoundDom TotReduce TotConv TotInfer MainKernel MainBidir.

Lemma ctx_of lc : ctx (lctx_of lc) = dctx lc.
Proof.
  unfold ctx, dctx, lctx_of. rewrite <- map_rev, map_map. apply map_ext. intros t. rewrite ers_sterm_of_lterm. reflexivity.
Qed.
Lemma kf_ctx lc : Forall kf (lctx_of lc).
Proof. unfold lctx_of. apply Forall_rev. apply Forall_forall. intros t Ht. apply in_map_iff in Ht. destruct Ht as (u & <- & _). apply kf_lterm. Qed.

Section Kernel.
  Variable gc : gctx.
  Hypothesis Hgc : terminating gc.
  Notation sg := (er_gctx gc).

  Lemma infer_tot0 uniq lc t : type_ctx sg (dctx lc) -> tot0 (fun n => ModelInfer.infer uniq gc n (lctx_of lc) (sterm_of_lterm t)).
  Proof.
    destruct Hgc as [H1 H2 H3 H4 H5 H6]. intros Hc.
    apply (sterm_returns uniq gc (good_stable _ H4) H3 H2 H1 H5 H4 H6); [apply kf_ctx|apply kf_lterm|]. rewrite ctx_of. exact Hc.
  Qed.
  Lemma infer_ok0 uniq n lc t : type_ctx sg (dctx lc) -> ok0 (fun ty => ty = SKind \/ exists K, well_typed sg (dctx lc) (strip (ers ty)) K) (ModelInfer.infer uniq gc n (lctx_of lc) (sterm_of_lterm t)).
  Proof.
    destruct Hgc as [H1 H2 H3 H4 H5 H6]. intros Hc.
    eapply ok0_post; [|apply (proj1 (infer_wt uniq gc (good_stable _ H4) H3 H2 H5 H4 n)); [apply kf_ctx|apply kf_lterm|rewrite ctx_of; exact Hc]].
    cbn beta. intros ty (_ & [->|Hk] & [E|(s & _ & H)]); [left; reflexivity|left; reflexivity|destruct (kf_strip _ Hk E)|].
    right. rewrite ctx_of in H. eauto.
  Qed.
  Lemma check_tot0 uniq c : type_ctx sg (dctx (t_lc c)) -> (exists K, well_typed sg (dctx (t_lc c)) (strip (erl (t_ty c))) K) ->
    tot0 (fun n => check_check uniq gc n c).
  Proof.
    destruct Hgc as [H1 H2 H3 H4 H5 H6]. intros Hc HK. unfold check_check.
    apply (tot0_bind (fun _ => True) (fun n => ModelInfer.check uniq gc n (lctx_of (t_lc c)) (sterm_of_lterm (t_tm c)) (sterm_of_lterm (t_ty c))) (fun _ ok => if ok : bool then ret tt else fail Unconvertible)).
    - apply (sterm_returns uniq gc (good_stable _ H4) H3 H2 H1 H5 H4 H6); try apply kf_lterm; [apply kf_ctx|rewrite ctx_of; exact Hc|].
      rewrite ctx_of, ers_sterm_of_lterm. exact HK.
    - intros n. eapply ok0_post; [|apply (proj2 (infer_sound uniq gc n)); [apply kf_ctx|apply kf_lterm..]]. auto.
    - intros [|] _; [apply tot0_ret|apply tot0_fail].
  Qed.

  Definition returns {A} (F : nat -> A) (bad : A -> Prop) : Prop := exists n0 r, ~ bad r /\ forall n, n0 <= n -> F n = r.
  Lemma tot0_run {A} (F : nat -> M A) : tot0 F -> returns (fun n => ModelInfer.run (F n)) (fun r => r = Fuel).
  Proof. intros H. apply tot_run. apply H. reflexivity. Qed.
  Lemma ok0_run {A} P (m : M A) a : ok0 P m -> ModelInfer.run m = Ok a -> P a.
  Proof.
    intros H E. unfold ModelInfer.run in E. specialize (H (MSt [] 0) eq_refl). destruct (m (MSt [] 0)) as [[a' s]| | |]; try discriminate.
    injection E as ->. apply H.
  Qed.

  Lemma typed_tot0 {B} uniq t (K : nat -> sterm -> M B) : (forall ty, tot0 (fun n => K n ty)) ->
    tot0 (fun n => bind (ModelInfer.infer uniq gc n [] (sterm_of_lterm t)) (K n)).
  Proof.
    intros HK. apply (tot0_bind (fun _ => True) (fun n => ModelInfer.infer uniq gc n (lctx_of []) (sterm_of_lterm t)) K).
    - apply infer_tot0. constructor.
    - intros n. eapply ok0_post; [|apply infer_ok0; constructor]. auto.
    - auto.
  Qed.
  Lemma typed_ok0 uniq n t : ok0 (fun ty => ty = SKind \/ exists K, well_typed sg [] (strip (ers ty)) K) (ModelInfer.infer uniq gc n [] (sterm_of_lterm t)).
  Proof. apply (infer_ok0 uniq n [] t). constructor. Qed.
  Lemma typed_wt uniq n t : ok0 (fun ty => exists K, well_typed sg [] (strip (erl t)) K) (ModelInfer.infer uniq gc n [] (sterm_of_lterm t)).
  Proof.
    destruct Hgc as [H1 H2 H3 H4 H5 H6].
    eapply ok0_post; [|apply (proj1 (infer_wt uniq gc (good_stable _ H4) H3 H2 H5 H4 n)); [constructor|apply kf_lterm|constructor]].
    cbn beta. intros ty (H & _). rewrite ers_sterm_of_lterm in H. eauto.
  Qed.
  Definition chk_ok (c : ModelGctx.check) : Prop :=
    type_ctx sg (dctx (t_lc c)) /\ exists K, well_typed sg (dctx (t_lc c)) (strip (erl (t_ty c))) K.
  Definition ochk_ok (p : typing * option ModelGctx.check) : Prop := forall c, snd p = Some c -> chk_ok c.

  Lemma intro_tot0 uniq it : tot0 (fun n => kintro uniq gc n it).
  Proof.
    assert (Hd : forall ty, tot0 (fun n => declare uniq gc n ty)).
    { intros ty. unfold declare. apply typed_tot0. intros k. destruct (is_sort k); [apply tot0_ret|apply tot0_fail]. }
    destruct it as [[ty|] [tm|]|ty tm|b ty]; cbn [kintro]; try apply Hd; try apply tot0_fail; cbn [define]; try unfold theorem; apply typed_tot0; intros k; try apply tot0_ret.
    destruct (lterm_of_sterm k) as [k'|]; [|apply tot0_fail].
    apply tot0_ret.
  Qed.
  Lemma intro_ok0 uniq n it : ok0 ochk_ok (kintro uniq gc n it).
  Proof.
    assert (Hd : forall ty, ok0 ochk_ok (declare uniq gc n ty)).
    { intros ty. unfold declare. eapply ok0_bind; [apply typed_ok0|]. intros k _. destruct (is_sort k); [apply ok0_ret; intros c; discriminate|apply ok0_fail]. }
    destruct it as [[ty|] [tm|]|ty tm|b ty]; cbn [kintro]; try apply Hd; try apply ok0_fail; cbn [define]; try unfold theorem;
      (eapply ok0_bind; [apply typed_wt|]); cbn beta; intros k Hk.
    - apply ok0_ret. intros c [= <-]. split; [constructor|exact Hk].
    - eapply ok0_bind; [apply ok0_ok_or with (P := fun _ => True); auto|]. intros ty _. apply ok0_ret. intros c. discriminate.
    - apply ok0_ret. intros c [= <-]. split; [constructor|exact Hk].
  Qed.
  Lemma rewrite_tot0 uniq r : type_ctx sg (dctx (r_ctx r)) -> tot0 (fun n => rewrite uniq gc n r).
  Proof.
    intros Hc. unfold rewrite. apply (tot0_bind (fun _ => True) (fun n => ModelInfer.infer uniq gc n (lctx_of (r_ctx r)) (sterm_of_lterm (r_lhs r)))
      (fun _ ty => bind (ok_or (lterm_of_sterm ty) UnexpectedKind) (fun ty => ret (MkTyping (r_ctx r) ty (r_rhs r))))).
    - apply infer_tot0. exact Hc.
    - intros n. eapply ok0_post; [|apply infer_ok0; exact Hc]. auto.
    - intros ty _. destruct (lterm_of_sterm ty); [|apply tot0_fail]. apply tot0_ret.
  Qed.
  Lemma rewrite_ok0 uniq n r : type_ctx sg (dctx (r_ctx r)) -> ok0 chk_ok (rewrite uniq gc n r).
  Proof.
    intros Hc. unfold rewrite. eapply ok0_bind; [apply infer_ok0; exact Hc|]. intros ty Hty.
    eapply ok0_bind; [apply ok0_ok_or with (P := fun ty' => lterm_of_sterm ty = Some ty'); auto|]. intros ty' E.
    apply ok0_ret. split; [exact Hc|]. cbn [t_lc t_ty]. destruct Hty as [->|HK]; [discriminate|].
    rewrite (lterm_of_sterm_er _ _ E). exact HK.
  Qed.
End Kernel.

Theorem main_infer_returns uniq gc lc t : terminating gc -> type_ctx (er_gctx gc) (dctx lc) ->
  exists n0 r, r <> Fuel /\ forall n, n0 <= n -> ModelInfer.run (ModelInfer.infer uniq gc n (lctx_of lc) (sterm_of_lterm t)) = r.
Proof. intros H Hc. apply tot0_run. apply infer_tot0; assumption. Qed.
Theorem main_check_returns uniq gc c : terminating gc -> type_ctx (er_gctx gc) (dctx (t_lc c)) ->
  (exists K, well_typed (er_gctx gc) (dctx (t_lc c)) (strip (erl (t_ty c))) K) ->
  exists n0 r, r <> Fuel /\ forall n, n0 <= n -> ModelInfer.run (check_check uniq gc n c) = r.
Proof. intros H Hc HK. apply (tot0_run (fun n => check_check uniq gc n c)). apply check_tot0; assumption. Qed.

(** ** Commands *)
Section Command.
  Variable O : query -> nat -> bool.
  Variable o : opts.
  Definition no_fuel {A} (r : A * res ko_error unit) : Prop := snd r <> Fuel.

  Lemma check_query gc chk (s : unit) : terminating gc -> chk_ok gc chk ->
    exists n0 r, no_fuel r /\ forall n, n0 <= n ->
      ((s, if omits o StCheck then Ok tt else ko_typing (k_check (real_kernel O n) gc chk)) : unit * res ko_error unit) = r.
  Proof.
    intros Hgc [H1 H2]. destruct (omits o StCheck); [exists 0, (s, Ok tt); split; [discriminate|reflexivity]|].
    destruct (main_check_returns (O (QCheck gc chk)) gc chk Hgc H1 H2) as (n0 & r & Hr & H).
    exists n0, (s, ko_typing r). split; [destruct r; cbn; congruence || discriminate|]. intros n Hn. cbn. rewrite H by exact Hn. reflexivity.
  Qed.

  Notation f n := (fun chk gc (s : unit) => (s, if omits o StCheck then Ok tt else ko_typing (k_check (real_kernel O n) gc chk))).
  Lemma rewrites_return gc rs : terminating gc -> cmd_ctx gc (CRules rs) ->
    exists n0 r, no_fuel r /\ forall n, n0 <= n -> rewrites (real_kernel O n) unit (f n) rs gc tt = r.
  Proof.
    intros Hgc. induction 1 as [|r rs Hr _ IH]; [exists 0, (tt, Ok tt); split; [discriminate|reflexivity]|].
    cbn [rewrites]. destruct (rule_try r) as [r'|e| |] eqn:Er; try exact IH.
    specialize (Hr _ eq_refl).
    destruct (tot0_run (fun n => rewrite (O (QRewrite gc r')) gc n r') (rewrite_tot0 gc Hgc _ r' Hr)) as (n1 & q & Hq & H1).
    destruct q as [chk|e| |].
    - assert (Hchk : chk_ok gc chk) by (eapply ok0_run; [apply rewrite_ok0; [exact Hgc|exact Hr]|exact (H1 n1 (le_n _))]).
      destruct (check_query gc chk tt Hgc Hchk) as (n2 & q2 & Hq2 & H2). destruct IH as (n3 & q3 & Hq3 & H3).
      exists (Nat.max n1 (Nat.max n2 n3)), (match q2 with (s, Ok _) => q3 | e => e end).
      split; [destruct q2 as [? []]; auto|]. intros n Hn. change (k_rewrite (real_kernel O n) gc r') with (ModelInfer.run (rewrite (O (QRewrite gc r')) gc n r')). rewrite H1 by lia. cbn [ko_typing res_err].
      pose proof (H2 n ltac:(lia)) as E2. destruct q2 as [[] q2]. apply (f_equal snd) in E2. cbn [snd] in E2. rewrite E2.
      destruct q2; try reflexivity. apply H3. lia.
    - exists n1, (tt, Err (KoTyping e)). split; [discriminate|]. intros n Hn. change (k_rewrite (real_kernel O n) gc r') with (ModelInfer.run (rewrite (O (QRewrite gc r')) gc n r')). rewrite H1 by lia. reflexivity.
    - exists n1, (tt, Panic). split; [discriminate|]. intros n Hn. change (k_rewrite (real_kernel O n) gc r') with (ModelInfer.run (rewrite (O (QRewrite gc r')) gc n r')). rewrite H1 by lia. reflexivity.
    - destruct Hq; reflexivity.
  Qed.

  Lemma add_rules_fuel rs : forall gc, snd (add_rules rs gc) <> Fuel.
  Proof.
    induction rs as [|r rs IH]; intros gc; cbn [add_rules]; [discriminate|].
    destruct (add_rule gc r) as [gc' [e|]]; cbn; [discriminate|apply IH].
  Qed.
  Theorem main_command_returns gc cmd : terminating gc -> cmd_ctx gc cmd ->
    exists n0 r, snd r <> Fuel /\ forall n, n0 <= n -> infer_check (real_kernel O n) o cmd gc = r.
  Proof.
    intros Hgc Hcmd. unfold infer_check. destruct cmd as [id it|rs]; cbn [infer_with].
    - destruct (tot0_run (fun n => kintro (O (QIntro gc it)) gc n it) (intro_tot0 gc Hgc _ it)) as (n1 & q & Hq & H1).
      destruct q as [[ty ochk]|e| |].
      + assert (Hchk : ochk_ok gc (ty, ochk)) by (eapply ok0_run; [apply intro_ok0; exact Hgc|exact (H1 n1 (le_n _))]).
        assert (H2 : exists n0 r, no_fuel r /\ forall n, n0 <= n -> match ochk with Some chk => f n chk gc tt | None => (tt, Ok tt) end = r).
        { destruct ochk as [chk|]; [apply check_query; [exact Hgc|apply Hchk; reflexivity]|]. exists 0, (tt, Ok tt). split; [discriminate|reflexivity]. }
        destruct H2 as (n2 & q2 & Hq2 & H2).
        exists (Nat.max n1 n2), (match q2 with (s, Ok _) => ko_gctx (gctx_insert gc id ty (rewritable it)) | (_, e) => (gc, e) end).
        split.
        * destruct q2 as [? []]; auto. destruct (gctx_insert gc id ty (rewritable it)) as [gc' [e|]]; discriminate.
        * intros n Hn. change (k_intro (real_kernel O n) gc it) with (ModelInfer.run (kintro (O (QIntro gc it)) gc n it)). rewrite H1 by lia. cbn [ko_typing res_err].
          pose proof (H2 n ltac:(lia)) as E2. rewrite E2.
          destruct q2 as [[] []]; try reflexivity. destruct (ko_gctx _) as [gc' r']. reflexivity.
      + exists n1, (gc, Err (KoTyping e)). split; [discriminate|]. intros n Hn. change (k_intro (real_kernel O n) gc it) with (ModelInfer.run (kintro (O (QIntro gc it)) gc n it)). rewrite H1 by lia. reflexivity.
      + exists n1, (gc, Panic). split; [discriminate|]. intros n Hn. change (k_intro (real_kernel O n) gc it) with (ModelInfer.run (kintro (O (QIntro gc it)) gc n it)). rewrite H1 by lia. reflexivity.
      + destruct Hq; reflexivity.
    - destruct (rewrites_return gc rs Hgc Hcmd) as (n1 & q & Hq & H1).
      exists n1, (match q with (s, Ok _) => add_rules rs gc | (_, e) => (gc, e) end). split.
      + destruct q as [? []]; auto. apply add_rules_fuel.
      + intros n Hn. rewrite H1 by exact Hn. destruct q as [[] []]; try reflexivity. destruct (add_rules rs gc). reflexivity.
  Qed.
End Command.

(** ** With completeness (C49), checking is a decision, up to the errors about sorts *)
Lemma main_check_decides uniq gc c :
  terminating gc -> g_eta gc = false -> church_rosser (er_gctx gc) -> proper_gctx gc ->
  type_ctx (er_gctx gc) (dctx (t_lc c)) -> (exists K, well_typed (er_gctx gc) (dctx (t_lc c)) (strip (erl (t_ty c))) K) ->
  Forall proper_l (t_lc c) -> proper_l (t_tm c) -> proper_l (t_ty c) ->
  exists n0 r, r <> Fuel /\ (forall n, n0 <= n -> ModelInfer.run (check_check uniq gc n c) = r) /\
    (r = Ok tt -> checks (er_gctx gc) (map erl (rev (t_lc c))) (erl (t_tm c)) (erl (t_ty c))) /\
    (forall e, r = Err e -> e = BindNoType \/ e = SortExpected \/ e = UnexpectedKind \/
      ~ checks (er_gctx gc) (map erl (rev (t_lc c))) (erl (t_tm c)) (erl (t_ty c))).
Proof.
  intros T ET CR PG TC TT P1 P2 P3. destruct (main_check_returns uniq gc c T TC TT) as (n0 & r & Hr & H).
  exists n0, r. split; [exact Hr|]. split; [exact H|]. split.
  - intros ->. apply (main_checks uniq gc n0 c). apply H. lia.
  - intros e ->. destruct e; try tauto; right; right; right; intros C;
      pose proof (main_check_complete uniq gc CR ET PG n0 c P1 P2 P3 C _ (H n0 (le_n n0))) as [Q|[Q|Q]]; discriminate Q.
Qed.
