(** * Samples for C72: a function whose arguments are evaluated by matching, given the same argument twice *)

From Verif Require Import Base ModelTerm ModelGctx ModelSubst ModelReduce ModelCommand SpecQuery SpecWork Samples MainWork.

Open Scope sm_scope.

(** [both 0 0 --> 0] *)
Definition both_rule : rule := MkRule [] (TopPat 8 [PSymb 1 []; PSymb 1 []]) ZERO.
Definition work_gc : gctx := fst (ghist gctx_new (sample_ops ++ [OInsert 8 (typing_new (larr NAT (larr NAT NAT)) None) true; OAddRule both_rule])).
(** [(x => both x x) t] *)
Definition twice (t : lterm) : lterm := lapp (llam NAT (lapp (LConst 8) [LVar 0; LVar 0])) [t].
Definition tower (k : nat) : lterm := Nat.iter k twice ZERO.

Lemma set_app {X} (h h' : list X) k c : list_set (h ++ h') (length h + k) c = h ++ list_set h' k c.
Proof. induction h; cbn; congruence. Qed.
Lemma get_app {X} (h h' : list X) k : nth_error (h ++ h') (length h + k) = nth_error h' k.
Proof. induction h; cbn; congruence. Qed.

Lemma zero_eval uniq n s : state_whnf uniq work_gc (S n) (State [] (SConst 1) []) s = Ok (State [] (SConst 1) [], s).
Proof. reflexivity. Qed.
(** Evaluation of a variable that stands for [t] *)
Lemma var_eval uniq n th l t st s1 s2 h tick :
  nth_error h th = Some (CThunk (TTodo l)) -> nth_error h l = Some (CState (State [] t []) false false) -> th <> l ->
  s1 = MSt (list_set (list_set h th (CThunk TBusy)) th (CThunk (TDone t))) tick ->
  state_whnf uniq work_gc (S (S n)) (State [] t []) s1 = Ok (st, s2) ->
  state_whnf uniq work_gc (S (S (S n))) (State [th] (SVar 0) []) (MSt h tick) = Ok (st, s2).
Proof.
  intros Hth Hl Hn -> H. remember (S (S n)) as m. cbn [state_whnf nth_error]. subst m. unfold bind at 1.
  cbn [force]. unfold bind at 1, read at 1. cbn [m_heap]. rewrite Hth. unfold bind at 1, write at 1. cbn [m_heap m_tick].
  unfold bind at 1. cbn [sterm_of_rstate]. unfold bind at 1, borrow_state. unfold bind at 1, read at 1. cbn [m_heap].
  rewrite nth_set, (proj2 (Nat.eqb_neq _ _) Hn), Hl. cbv beta iota. unfold ret at 1, sterm_of_state. cbn [s_ctx s_stack s_term].
  unfold bind at 1, ret at 1. unfold ret at 1. unfold bind at 1, write at 1. cbn [m_heap m_tick]. unfold ret at 1. exact H.
Qed.
Lemma done_eval uniq n th t st s1 s2 :
  nth_error (m_heap s1) th = Some (CThunk (TDone t)) ->
  state_whnf uniq work_gc (S n) (State [] t []) s1 = Ok (st, s2) ->
  state_whnf uniq work_gc (S (S n)) (State [th] (SVar 0) []) s1 = Ok (st, s2).
Proof.
  intros Hth H. remember (S n) as m. cbn [state_whnf nth_error]. unfold bind at 1. rewrite Heqm at 1.
  cbn [force]. unfold bind at 1, read at 1. rewrite Hth. exact H.
Qed.
(** [rstate_whnf] of the state of a variable *)
Lemma rstate_eval (w : state -> M state) l st st' s s2 : nth_error (m_heap s) l = Some (CState st false false) ->
  w st (MSt (list_set (m_heap s) l (CState st false true)) (m_tick s)) = Ok (st', s2) ->
  rstate_whnf w l s = Ok (tt, MSt (list_set (m_heap s2) l (CState st' true false)) (m_tick s2)).
Proof. intros H E. unfold rstate_whnf, bind at 1, read. rewrite H. unfold bind, write. rewrite E. reflexivity. Qed.

Lemma appl_eval uniq n ctx f args stack : state_whnf uniq work_gc (S n) (State ctx (SLComb (Appl f args)) stack) =
  bind (push_args ctx (map sterm_of_lterm args) stack) (fun stack => state_whnf uniq work_gc n (State ctx (sterm_of_lterm f) stack)).
Proof. reflexivity. Qed.
Lemma beta_eval uniq n ctx id ty b l stack h tick : state_whnf uniq work_gc (S n) (State ctx (SLComb (Abst id ty b)) (l :: stack)) (MSt h tick) =
  state_whnf uniq work_gc n (State (length h :: ctx) (sterm_of_lterm b) stack) (MSt (h ++ [CThunk (TTodo l)]) tick).
Proof. reflexivity. Qed.
Definition zero_done : cell := CState (State [] (SConst 1) []) true false.
Lemma both_eval uniq n ctx l1 l2 s s1 s2 :
  rstate_whnf (state_whnf uniq work_gc (S n)) l1 s = Ok (tt, s1) -> nth_error (m_heap s1) l1 = Some zero_done ->
  rstate_whnf (state_whnf uniq work_gc (S n)) l2 s1 = Ok (tt, s2) -> nth_error (m_heap s2) l2 = Some zero_done ->
  state_whnf uniq work_gc (S (S n)) (State ctx (SConst 8) [l1; l2]) s = Ok (State [] (SConst 1) [], s2).
Proof.
  intros R1 Z1 R2 Z2. remember (S n) as m. cbn [state_whnf].
  replace (get_rules work_gc 8) with (Some [both_rule]) by (vm_compute; reflexivity). cbn [first_match].
  unfold bind at 1. unfold bind at 1. unfold match_flatten, match_rule. cbn [both_rule r_lhs tp_args length Nat.ltb Nat.leb r_ctx repeat match_pats match_pat].
  unfold bind at 1. unfold bind at 1. unfold bind at 1. rewrite R1. unfold bind at 1, borrow_state at 1. unfold bind at 1, read at 1. rewrite Z1.
  cbn [zero_done s_term s_stack length Nat.eqb andb ret]. unfold ret at 1. cbn [s_term s_stack length Nat.eqb andb]. unfold ret at 1.
  unfold bind at 1. unfold bind at 1. rewrite R2. unfold bind at 1, borrow_state at 1. unfold bind at 1, read at 1. rewrite Z2.
  cbn [zero_done s_term s_stack length Nat.eqb andb ret]. unfold ret at 1. cbn [s_term s_stack length Nat.eqb andb]. unfold ret at 1. subst m. reflexivity.
Qed.

Opaque work_gc.
Lemma tower_eval uniq k : forall h tick n, 6 * k < n -> exists h',
  state_whnf uniq work_gc n (State [] (sterm_of_lterm (tower k)) []) (MSt h tick) = Ok (State [] (SConst 1) [], MSt (h ++ h') tick) /\
  length h' = 4 * (2 ^ k - 1).
Proof.
  induction k as [|k IH]; intros h tick n Hn.
  - destruct n as [|n]; [lia|]. exists []. rewrite app_nil_r. split; reflexivity.
  - do 7 (destruct n as [|n]; [lia|]). change (tower (S k)) with (twice (tower k)).
    set (T := sterm_of_lterm (tower k)).
    assert (Hk : 6 * k < S (S n)) by lia.
    (* the four cells *)
    set (H := length h).
    set (c0 := CState (State [] T []) false false).
    set (v := State [H + 1] (SVar 0) []).
    destruct (IH (h ++ [c0; CThunk (TDone T); CState v false false; CState v false true]) tick (S (S n)) Hk) as (h1 & E1 & L1).
    destruct (IH (h ++ ([c0; CThunk (TDone T); CState v false true; CState (State [] (SConst 1) []) true false] ++ h1)) tick (S (S n)) Hk) as (h2 & E2 & L2).
    exists ([c0; CThunk (TDone T); CState (State [] (SConst 1) []) true false; CState (State [] (SConst 1) []) true false] ++ h1 ++ h2).
    split; [|rewrite !app_length, L1, L2; cbn [length]; cbn [Nat.pow]; pose proof (Nat.pow_nonzero 2 k); lia].
    change (sterm_of_lterm (twice (tower k))) with (SLComb (Appl (llam NAT (lapp (LConst 8) [LVar 0; LVar 0])) [tower k])).
    rewrite appl_eval. cbn [map push_args]. unfold bind at 1. unfold bind at 1, ret at 1. unfold bind at 1, from_ctx_term at 1, alloc at 1, ret at 1. cbn [m_heap m_tick].
    change (sterm_of_lterm (llam NAT (lapp (LConst 8) [LVar 0; LVar 0]))) with (SLComb (Abst nm (Some NAT) (lapp (LConst 8) [LVar 0; LVar 0]))).
    rewrite beta_eval. change (sterm_of_lterm (lapp (LConst 8) [LVar 0; LVar 0])) with (SLComb (Appl (LConst 8) [LVar 0; LVar 0])).
    rewrite appl_eval. cbn [map push_args sterm_of_lterm]. unfold bind at 1. unfold bind at 1. unfold bind at 1, ret at 1.
    unfold bind at 1, from_ctx_term at 1, alloc at 1, ret at 1. unfold bind at 1, from_ctx_term at 1, alloc at 1, ret at 1. cbn [m_heap m_tick].
    repeat rewrite <- app_assoc. cbn [app]. rewrite !app_length. cbn [length]. rewrite !(Nat.add_0_r H) || idtac. fold H. fold T. fold v c0.
    replace H with (H + 0) at 1 by lia.
    eapply both_eval.
    + apply rstate_eval with (st := v).
      * cbn [m_heap]. unfold H. rewrite get_app. reflexivity.
      * cbn [m_heap m_tick]. eapply var_eval.
        -- unfold H. rewrite set_app, get_app. cbn. reflexivity.
        -- unfold H. rewrite set_app. replace (length h) with (length h + 0) by lia. rewrite get_app. cbn. reflexivity.
        -- lia.
        -- unfold H. rewrite !set_app. cbn. reflexivity.
        -- fold H. exact E1.
    + cbn [m_heap]. rewrite <- app_assoc. unfold H. rewrite set_app, get_app. cbn. reflexivity.
    + etransitivity.
      { apply rstate_eval with (st := v).
        * cbn [m_heap]. unfold H. rewrite <- app_assoc, set_app, get_app. cbn. reflexivity.
        * cbn [m_heap m_tick]. eapply done_eval; cbn [m_heap].
          -- unfold H. rewrite <- app_assoc, !set_app, get_app. cbn. reflexivity.
          -- unfold H. rewrite <- app_assoc, !set_app. cbn [list_set app]. fold H. exact E2. }
      cbn [m_heap m_tick]. rewrite <- !app_assoc. unfold H. rewrite set_app. reflexivity.
    + cbn [m_heap]. unfold H. rewrite get_app. reflexivity.
Qed.
Transparent work_gc.

Lemma tower_size k : lsize (tower k) = 1 + 7 * k.
Proof. induction k as [|k IH]; [reflexivity|]. change (lsize (tower (S k))) with (7 + lsize (tower k) + 0). lia. Qed.
Lemma work_refuted : exists gc t, forall k, lsize (t k) = 1 + 7 * k /\ forall uniq n, 6 * k < n ->
  exists st s, state_whnf uniq gc n (state_new (sterm_of_lterm (t k))) (MSt [] 0) = Ok (st, s) /\ length (m_heap s) = 4 * (2 ^ k - 1).
Proof.
  exists work_gc, tower. intros k. split; [apply tower_size|]. intros uniq n Hn. destruct (tower_eval uniq k [] 0 n Hn) as (h & E & L).
  exists (State [] (SConst 1) []), (MSt h 0). split; [exact E|exact L].
Qed.

(** [f t t] for [f X Y] with matched arguments: the second occurrence is another state. *)
Definition two : sterm := sterm_of_lterm (PLUS (num 1) (num 1)).
Definition two_cell : cell := CState (state_new two) false false.
