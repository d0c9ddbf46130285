(** * For left-linear rules, whatever the kernel accepts without eta it accepts with eta *)

From Verif Require Import Base ModelTerm ModelGctx ModelCommand ModelSubst ModelReduce ModelInfer SpecTerm SpecConv SpecWhnf SpecSN Erase SimReduce SpecEta.

Open Scope sm_scope.

(** ** Matching *)
Definition at_ (sb : list (list loc)) (m : nat) : nat := length (nth m sb []).
Definition occ (vs : list nat) (m : nat) : nat := count_occ Nat.eq_dec vs m.
Definition grows (sb sb' : list (list loc)) (vs : list nat) : Prop := forall m, at_ sb' m <= at_ sb m + occ vs m.
Lemma push_grows m l : forall sb sb', subst_push sb m l = Some sb' -> grows sb sb' [m].
Proof.
  induction m as [|m IH]; intros [|ls sb] sb'; cbn [subst_push]; try discriminate.
  - intros [= <-] [|k]; unfold at_, occ; cbn; [rewrite app_length; cbn; lia|lia].
  - destruct (subst_push sb m l) as [sb1|] eqn:E; [|discriminate]. intros [= <-] [|k].
    + unfold at_, occ. cbn. lia.
    + pose proof (IH _ _ E k) as H. unfold at_, occ in *. cbn [nth count_occ] in *. destruct (Nat.eq_dec m k), (Nat.eq_dec (S m) (S k)); lia.
Qed.
Lemma grows_app sb sb1 sb2 vs ws : grows sb sb1 vs -> grows sb1 sb2 ws -> grows sb sb2 (vs ++ ws).
Proof. intros H1 H2 m. specialize (H1 m). specialize (H2 m). unfold occ in *. rewrite count_occ_app. lia. Qed.
Lemma bind_inv {A B} (m : M A) (k : A -> M B) s b s' : bind m k s = Ok (b, s') -> exists a s1, m s = Ok (a, s1) /\ k a s1 = Ok (b, s').
Proof. unfold bind. destruct (m s) as [[a s1]| | |]; try discriminate. eauto. Qed.

Section Match.
  Variable rw rw' : loc -> M unit.
  Lemma match_pat_grows p : forall l sb s sb' s', match_pat rw l p sb s = Ok (Some sb', s') -> grows sb sb' (pat_vars (erp p)).
  Proof.
    induction p as [c ps IH|m|] using pattern_ind'; intros l sb s sb' s'; cbn [match_pat].
    - intros H. apply bind_inv in H as ([] & s1 & _ & H). apply bind_inv in H as (st & s2 & _ & H).
      destruct (s_term st); try discriminate. destruct (_ && _); [|discriminate]. cbn [erp pat_vars].
      generalize dependent s2. generalize (s_stack st) as stack. revert sb.
      induction IH as [|p ps Hp _ IHps]; intros sb stack s2 H; [injection H as <- _; intros m; lia|].
      destruct stack as [|l' stack]; [injection H as <- _; intros m; lia|].
      apply bind_inv in H as ([sb1|] & s3 & H1 & H2); [|discriminate].
      cbn [map flat_map]. eapply grows_app; [eapply Hp; exact H1|eapply IHps; exact H2].
    - intros [= H _]. apply push_grows in H. exact H.
    - intros [= <- _] m. unfold occ. cbn. lia.
  Qed.
  Lemma match_pats_grows ps : forall stack sb s sb' s', match_pats (match_pat rw) stack ps sb s = Ok (Some sb', s') ->
    grows sb sb' (flat_map pat_vars (map erp ps)).
  Proof.
    induction ps as [|p ps IH]; intros stack sb s sb' s'; cbn [match_pats]; [intros [= <- _] m; lia|].
    destruct stack as [|l stack]; [intros [= <- _] m; lia|]. intros H. apply bind_inv in H as ([sb1|] & s1 & H1 & H2); [|discriminate].
    cbn [map flat_map]. eapply grows_app; [eapply match_pat_grows; exact H1|eapply IH; exact H2].
  Qed.
  Lemma match_rule_single stack r s sb s' : linear (er_rule r) -> match_rule rw stack r s = Ok (Some sb, s') -> forall ls, In ls sb -> length ls <= 1.
  Proof.
    unfold match_rule. intros Hl. destruct (_ <? _); [discriminate|]. intros H ls Hin. apply match_pats_grows in H.
    apply In_nth with (d := []) in Hin as (m & _ & <-). specialize (H m). unfold at_ in H.
    assert (E : nth m (repeat ([] : list loc) (length (r_ctx r))) [] = []).
    { generalize (length (r_ctx r)). intros n. revert m H. clear. intros m _. revert n. induction m as [|m IH]; intros [|n]; cbn; auto. }
    rewrite E in H. cbn in H. unfold linear in Hl. cbn [er_rule sr_args] in Hl. unfold occ in H.
    pose proof (proj1 (NoDup_count_occ Nat.eq_dec _) Hl m). lia.
  Qed.

  Hypothesis Hrw : forall l, eqm (rw l) (rw' l).
  Lemma match_pat_eqm p : forall l sb, eqm (match_pat rw l p sb) (match_pat rw' l p sb).
  Proof.
    induction p as [c ps IH|m|] using pattern_ind'; intros l sb; cbn [match_pat]; try apply eqm_refl.
    apply eqm_bind; [apply Hrw|]. intros _. apply eqm_bind; [apply eqm_refl|]. intros st.
    destruct (s_term st); try apply eqm_refl. destruct (_ && _); [|apply eqm_refl].
    generalize (s_stack st) as stack. revert sb.
    induction IH as [|p ps Hp Hps IHps]; intros sb stack; [apply eqm_refl|].
    destruct stack as [|l' stack]; [apply eqm_refl|]. apply eqm_bind; [apply Hp|]. intros [sb'|]; [apply IHps|apply eqm_refl].
  Qed.
  Lemma match_pats_eqm ps : forall stack sb, eqm (match_pats (match_pat rw) stack ps sb) (match_pats (match_pat rw') stack ps sb).
  Proof.
    induction ps as [|p ps IH]; intros stack sb; cbn [match_pats]; [apply eqm_refl|]. destruct stack as [|l stack]; [apply eqm_refl|].
    apply eqm_bind; [apply match_pat_eqm|]. intros [sb'|]; [apply IH|apply eqm_refl].
  Qed.

  Variable uniq : nat -> bool.
  Variable cv cv' : sterm -> sterm -> M bool.
  Variable n : nat.
  Lemma flatten_single sb : (forall ls, In ls sb -> length ls <= 1) -> eqm (flatten uniq cv n sb) (flatten uniq cv' n sb).
  Proof.
    induction sb as [|ls sb IH]; intros H; cbn [flatten]; [apply eqm_refl|].
    apply eqm_bind; [apply IH; intros x Hx; apply H; right; exact Hx|]. intros [ctx|]; [|apply eqm_refl].
    apply eqm_bind; [|intros [t|]; apply eqm_refl]. specialize (H ls (or_introl eq_refl)).
    destruct ls as [|l [|l' ls]]; [apply eqm_refl|apply eqm_refl|cbn in H; lia].
  Qed.
  Lemma first_match_linear stack rules : (forall r, In r rules -> linear (er_rule r)) ->
    eqm (first_match uniq rw cv n stack rules) (first_match uniq rw' cv' n stack rules).
  Proof.
    induction rules as [|r rules IH]; intros H; cbn [first_match]; [apply eqm_refl|].
    apply eqm_bind; [|intros [ctx|]; [apply eqm_refl|apply IH; intros r' Hr; apply H; right; exact Hr]].
    intros s. unfold match_flatten, bind.
    assert (E : match_rule rw stack r s = match_rule rw' stack r s).
    { unfold match_rule. destruct (_ <? _); [reflexivity|]. apply match_pats_eqm. }
    rewrite <- E. destruct (match_rule rw stack r s) as [[[sb|] s']| | |] eqn:Em; try reflexivity.
    apply flatten_single. eapply match_rule_single; [apply H; left; reflexivity|exact Em].
  Qed.
End Match.

(** ** Steps *)
(** If the first computation returns something (or [true]), so does the second. *)
Definition upto {A} (P : A -> Prop) (m m' : M A) : Prop := forall s a s', m s = Ok (a, s') -> P a -> m' s = Ok (a, s').
Definition anya {A} (_ : A) : Prop := True.
Definition yes (b : bool) : Prop := b = true.
Lemma upto_eqm {A} (P : A -> Prop) m m' : eqm m m' -> upto P m m'.
Proof. intros H s a s' E _. rewrite <- H. exact E. Qed.
Lemma upto_bind {A B} (P : A -> Prop) (Q : B -> Prop) m m' (k k' : A -> M B) : upto P m m' ->
  (forall a, P a -> upto Q (k a) (k' a)) -> (forall a s b s', ~ P a -> k a s = Ok (b, s') -> ~ Q b) ->
  (forall a, P a \/ ~ P a) -> upto Q (bind m k) (bind m' k').
Proof.
  intros Hm Hk Hn Hd s b s' H Hb. apply bind_inv in H as (a & s1 & H1 & H2). destruct (Hd a) as [Ha|Ha].
  - unfold bind. rewrite (Hm _ _ _ H1 Ha). apply (Hk a Ha); assumption.
  - exfalso. exact (Hn _ _ _ _ Ha H2 Hb).
Qed.
Lemma upto_bind_any {A B} (Q : B -> Prop) m m' (k k' : A -> M B) : upto anya m m' -> (forall a, upto Q (k a) (k' a)) -> upto Q (bind m k) (bind m' k').
Proof. intros Hm Hk. apply (upto_bind anya); [exact Hm|intros a _; apply Hk|intros a s b s' H; exfalso; apply H; exact I|intros a; left; exact I]. Qed.
Lemma upto_refl {A} (P : A -> Prop) m : upto P m m.
Proof. intros s a s' H _. exact H. Qed.
Lemma upto_yes {B} (Q : B -> Prop) m m' (k k' : bool -> M B) : upto yes m m' -> upto Q (k true) (k' true) ->
  (forall s b s', k false s = Ok (b, s') -> ~ Q b) -> upto Q (bind m k) (bind m' k').
Proof.
  intros Hm Hk Hn. apply (upto_bind yes); [exact Hm|intros a Ha; unfold yes in Ha; subst; exact Hk| |intros [|]; [left|right]; unfold yes; congruence].
  intros [|] s b s' H; [exfalso; apply H; reflexivity|apply Hn].
Qed.

Definition is_some {A} (o : option A) : Prop := o <> None.
Lemma step2_up uniq c1 c2 : upto is_some (step2 uniq false c1 c2) (step2 uniq true c1 c2).
Proof.
  destruct c1 as [h1 a1|i1 a1 b1|i1 a1 b1]; destruct c2 as [h2 a2|i2 a2 b2|i2 a2 b2]; cbn [step2]; try apply upto_refl;
    intros s a s' [= <- <-] H; exfalso; apply H; reflexivity.
Qed.
Lemma step_up uniq t1 t2 : upto is_some (step uniq false t1 t2) (step uniq true t1 t2).
Proof.
  destruct t1 as [| |c1|n1|c1|c1]; destruct t2 as [| |c2|n2|c2|c2]; cbn [step]; try apply step2_up; try apply upto_refl;
    intros s a s' [= <- <-] H; exfalso; apply H; reflexivity.
Qed.

Section Machine.
  Variable uniq : nat -> bool.
  Variable gc : gctx.
  Hypothesis Hlin : left_linear (er_gctx gc).
  Hypothesis Hoff : g_eta gc = false.
  Notation gc' := (with_eta gc).

  Lemma rules_linear c rs r : get_rules gc c = Some rs -> In r rs -> linear (er_rule r).
  Proof.
    intros E Hr. apply (Hlin c (map er_rule rs)); [cbn [er_gctx sg_rules]; rewrite E; reflexivity|apply in_map; exact Hr].
  Qed.
  Lemma rstate_eqm w w' : (forall st, eqm (w st) (w' st)) -> forall l, eqm (rstate_whnf w l) (rstate_whnf w' l).
  Proof.
    intros H l. unfold rstate_whnf. apply eqm_bind; [apply eqm_refl|]. intros [st [|] [|]|th]; try apply eqm_refl.
    apply eqm_bind; [apply eqm_refl|]. intros _. apply eqm_bind; [apply H|]. intros st'. apply eqm_refl.
  Qed.
  Lemma whnf__eqm n w w' : (forall st, eqm (w st) (w' st)) -> forall t, eqm (whnf_ uniq n w t) (whnf_ uniq n w' t).
  Proof.
    intros H t s. unfold whnf_, with_fresh_heap.
    assert (E : eqm (st <- w (state_new t) ;; sterm_of_state uniq (force uniq n) (sterm_of_rstate uniq n) st)
                    (st <- w' (state_new t) ;; sterm_of_state uniq (force uniq n) (sterm_of_rstate uniq n) st))
      by (apply eqm_bind; [apply H|intros; apply eqm_refl]).
    rewrite E. reflexivity.
  Qed.
  Lemma step_off t u : upto is_some (step uniq (g_eta gc) t u) (step uniq (g_eta gc') t u).
  Proof. rewrite Hoff. apply step_up. Qed.
  Lemma machine_eta n :
    (forall st, eqm (state_whnf uniq gc n st) (state_whnf uniq gc' n st)) /\
    (forall cns, upto yes (convertible_loop uniq gc n cns) (convertible_loop uniq gc' n cns)).
  Proof.
    induction n as [|n [IH1 IH2]]; [split; [intros st; apply eqm_refl|intros cns; apply upto_refl]|]. split.
    - intros [ctx t stack]. cbn [state_whnf].
      assert (Hcomb : eqm
        match get_comb t with
        | None => panic
        | Some (Prod _ _ _) => panic
        | Some (Abst _ _ t) =>
          match stack with
          | [] => panic
          | l :: stack => th <- rtterm_new l ;; state_whnf uniq gc n (State (th :: ctx) t stack)
          end
        | Some (Appl head tail) =>
          stack <- push_args ctx tail stack ;;
          state_whnf uniq gc n (State ctx head stack)
        end
        match get_comb t with
        | None => panic
        | Some (Prod _ _ _) => panic
        | Some (Abst _ _ t) =>
          match stack with
          | [] => panic
          | l :: stack => th <- rtterm_new l ;; state_whnf uniq gc' n (State (th :: ctx) t stack)
          end
        | Some (Appl head tail) =>
          stack <- push_args ctx tail stack ;;
          state_whnf uniq gc' n (State ctx head stack)
        end).
      { destruct (get_comb t) as [[h args|id a b|id a b]|]; try apply eqm_refl.
        - apply eqm_bind; [apply eqm_refl|]. intros stack'. apply IH1.
        - destruct stack as [|l stack]; [apply eqm_refl|]. apply eqm_bind; [apply eqm_refl|]. intros th. apply IH1. }
      destruct t as [| |c|x|c|c]; try apply eqm_refl.
      + change (get_rules gc' c) with (get_rules gc c). destruct (get_rules gc c) as [rules|] eqn:Er; [|apply eqm_refl].
        apply eqm_bind.
        * apply first_match_linear; [apply rstate_eqm; exact IH1|]. intros r Hr. eapply rules_linear; eassumption.
        * intros [[ctx' r]|]; [|apply eqm_refl]. apply eqm_bind; [apply eqm_refl|]. intros _. apply IH1.
      + destruct (nth_error ctx x); [|apply eqm_refl]. apply eqm_bind; [apply eqm_refl|]. intros t. apply IH1.
      + destruct (is_whnf c _); [apply eqm_refl|exact Hcomb].
      + destruct (is_whnf c _); [apply eqm_refl|exact Hcomb].
    - intros [|[t u] cns]; cbn [convertible_loop]; [apply upto_refl|].
      destruct (sterm_eqb t u); [apply IH2|].
      apply upto_bind_any; [apply upto_eqm, whnf__eqm; exact IH1|]. intros t'.
      apply upto_bind_any; [apply upto_eqm, whnf__eqm; exact IH1|]. intros u'.
      apply (upto_bind is_some); [apply step_off| | |intros [x|]; [left|right]; unfold is_some; congruence].
      + intros [new|] H; [apply IH2|exfalso; apply H; reflexivity].
      + intros [new|] s b s' H; [exfalso; apply H; discriminate|]. intros [= <- _]. discriminate.
  Qed.
  Lemma whnf_eta n t : eqm (whnf uniq gc n t) (whnf uniq gc' n t).
  Proof. apply whnf__eqm. apply machine_eta. Qed.
  Lemma conv_eta n t u : upto yes (convertible uniq gc n t u) (convertible uniq gc' n t u).
  Proof. apply machine_eta. Qed.

  Lemma infer_eta n :
    (forall lc t, upto anya (infer uniq gc n lc t) (infer uniq gc' n lc t)) /\
    (forall lc t ty, upto yes (check uniq gc n lc t ty) (check uniq gc' n lc t ty)).
  Proof.
    induction n as [|n [IH1 IH2]]; [split; intros; apply upto_refl|].
    assert (Hb : forall lc a t, upto anya (bind_of_type (infer uniq gc n) lc a t) (bind_of_type (infer uniq gc' n) lc a t)).
    { intros lc a t. unfold bind_of_type. apply upto_bind_any; [apply IH1|]. intros [| | | | |]; try apply upto_refl. apply IH1. }
    assert (Hargs : forall lc args ty, upto anya (infer_args uniq (whnf uniq gc n) (check uniq gc n) lc ty args)
      (infer_args uniq (whnf uniq gc' n) (check uniq gc' n) lc ty args)).
    { intros lc args. induction args as [|arg args IH]; intros ty; cbn [infer_args]; [apply upto_refl|].
      apply upto_bind_any; [apply upto_eqm, whnf_eta|]. intros ty'. apply upto_bind_any; [apply upto_refl|]. intros [[id a] b].
      apply upto_yes; [apply IH2| |discriminate]. apply upto_bind_any; [apply upto_refl|]. intros b'. apply IH. }
    assert (Hc : forall lc c, upto anya (infer_comb uniq (whnf uniq gc n) (infer uniq gc n) (check uniq gc n) lc c)
      (infer_comb uniq (whnf uniq gc' n) (infer uniq gc' n) (check uniq gc' n) lc c)).
    { intros lc [h args|id a b|id [a|] b]; cbn [infer_comb].
      - apply upto_bind_any; [apply IH1|]. intros ty. apply Hargs.
      - apply upto_bind_any; [apply Hb|]. intros ty. apply upto_refl.
      - apply upto_bind_any; [apply Hb|]. intros ty. apply upto_refl.
      - apply upto_refl. }
    split.
    - intros lc [| |c|x|c|c]; cbn [infer]; try apply upto_refl; apply Hc.
    - intros lc t ty. cbn [check]. destruct (get_abst t) as [[[id arg_ty] tm]|].
      + apply upto_bind_any; [apply upto_eqm, whnf_eta|]. intros ty'. apply upto_bind_any; [apply upto_refl|]. intros [[id' a] b].
        apply upto_yes; [|apply IH2|intros s b' s' [= <- _]; discriminate].
        destruct arg_ty as [arg_ty|]; [|apply upto_refl]. apply upto_bind_any; [apply IH1|]. intros _. apply conv_eta.
      + apply upto_bind_any; [apply IH1|]. intros ty'. apply conv_eta.
  Qed.

  Lemma kintro_eta n it : upto anya (kintro uniq gc n it) (kintro uniq gc' n it).
  Proof.
    destruct (infer_eta n) as [Hi _].
    assert (Hd : forall A, upto anya (declare uniq gc n A) (declare uniq gc' n A)).
    { intros A. unfold declare. apply upto_bind_any; [apply Hi|]. intros ty. apply upto_refl. }
    destruct it as [[A|] [t|]|A t|rw A]; cbn [kintro]; try apply Hd; try apply upto_refl.
    - unfold define. apply upto_bind_any; [apply Hi|]. intros ty. apply upto_refl.
    - unfold define. apply upto_bind_any; [apply Hi|]. intros ty. apply upto_refl.
    - unfold theorem. apply upto_bind_any; [apply Hi|]. intros ty. apply upto_refl.
  Qed.
  Lemma rewrite_eta n r : upto anya (rewrite uniq gc n r) (rewrite uniq gc' n r).
  Proof. unfold rewrite. apply upto_bind_any; [apply infer_eta|]. intros ty. apply upto_refl. Qed.
  Lemma check_check_eta n c : upto anya (check_check uniq gc n c) (check_check uniq gc' n c).
  Proof. unfold check_check. apply upto_yes; [apply infer_eta|apply upto_refl|discriminate]. Qed.

  Lemma run_upto {A} (P : A -> Prop) m m' a : upto P m m' -> run m = Ok a -> P a -> run m' = Ok a.
  Proof.
    unfold run. intros H. destruct (m (MSt [] 0)) as [[b s]| | |] eqn:E; try discriminate. cbn. intros [= ->] Ha. rewrite (H _ _ _ E Ha). reflexivity.
  Qed.
  Lemma run_eqm {A} (m m' : M A) : eqm m m' -> run m = run m'.
  Proof. unfold run. intros H. rewrite H. reflexivity. Qed.
End Machine.
