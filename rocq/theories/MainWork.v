(** * Evaluation keeps the work that has been done (C72) *)

From Verif Require Import Base ModelTerm ModelGctx ModelSubst ModelReduce Erase SpecWork.

Open Scope sm_scope.

Lemma later_trans c1 c2 c3 : later c1 c2 -> later c2 c3 -> later c1 c3.
Proof. intros H1 H2. inversion H1; subst; [exact H2| |]; inversion H2; subst; constructor. Qed.
Lemma keeps_refl h : keeps h h.
Proof. intros l c H. exists c. split; [exact H|constructor]. Qed.
Lemma keeps_trans h1 h2 h3 : keeps h1 h2 -> keeps h2 h3 -> keeps h1 h3.
Proof.
  intros H1 H2 l c H. destruct (H1 _ _ H) as (c2 & E2 & L2). destruct (H2 _ _ E2) as (c3 & E3 & L3).
  exists c3. split; [exact E3|eapply later_trans; eassumption].
Qed.

(** Computations that keep the work done *)
Definition kp {X} (m : M X) : Prop := forall s a s', m s = Ok (a, s') -> keeps (m_heap s) (m_heap s').
Lemma kp_ret {X} (a : X) : kp (ret a).
Proof. intros s b s' [= <- <-]. apply keeps_refl. Qed.
Lemma kp_panic {X} : kp (@panic _ _ X).
Proof. intros s b s' H. discriminate. Qed.
Lemma kp_nofuel {X} : kp (@nofuel _ _ X).
Proof. intros s b s' H. discriminate. Qed.
Lemma kp_bind {X Y} (m : M X) (k : X -> M Y) : kp m -> (forall a, kp (k a)) -> kp (bind m k).
Proof.
  intros Hm Hk s b s' H. unfold bind in H. destruct (m s) as [[a s1]| | |] eqn:E; try discriminate.
  eapply keeps_trans; [eapply Hm; exact E|eapply Hk; exact H].
Qed.
Lemma kp_mapM {X Y} (f : X -> M Y) l : (forall a, In a l -> kp (f a)) -> kp (mapM f l).
Proof.
  induction l as [|a l IH]; intros H; cbn [mapM]; [apply kp_ret|]. apply kp_bind; [apply H; left; reflexivity|]. intros b.
  apply kp_bind; [apply IH; intros; apply H; right; assumption|]. intros bs. apply kp_ret.
Qed.
Lemma kp_alloc c : kp (alloc c).
Proof. intros s a s' [= <- <-] l c' H. exists c'. split; [|constructor]. cbn. rewrite nth_error_app1; [exact H|]. apply nth_error_Some. congruence. Qed.
Lemma kp_read l : kp (read l).
Proof. intros s a s' H. unfold read in H. destruct (nth_error _ _); [|discriminate]. injection H as <- <-. apply keeps_refl. Qed.
Lemma kp_usub n k : kp (usub n k).
Proof. unfold usub. destruct (k <=? n); [apply kp_ret|apply kp_panic]. Qed.
Lemma kp_borrow l : kp (borrow_state l).
Proof. unfold borrow_state. apply kp_bind; [apply kp_read|]. intros [st w [|]|th]; first [apply kp_ret|apply kp_panic]. Qed.

Lemma nth_set {X} (h : list X) l c l' : nth_error (list_set h l c) l' = if l =? l' then option_map (fun _ => c) (nth_error h l') else nth_error h l'.
Proof. revert l l'. induction h as [|x h IH]; intros [|l] [|l']; cbn; auto. destruct (l =? l'); reflexivity. Qed.
(** Something is marked, worked on, and then replaced by the result. *)
Lemma kp_mark {X} l c cm (m : M X) (res : X -> cell) : (forall c', later cm c' -> c' = cm) -> (forall a, later c (res a)) -> kp m ->
  forall s a s', nth_error (m_heap s) l = Some c -> (write l cm ;;; a <- m ;; write l (res a) ;;; ret a) s = Ok (a, s') ->
  keeps (m_heap s) (m_heap s') /\ nth_error (m_heap s') l = Some (res a).
Proof.
  intros Hcm Hres Hm s a s' Hl H. unfold bind, write in H.
  match type of H with match m ?s1 with _ => _ end = _ => set (t1 := s1) in H end.
  destruct (m t1) as [[a' s2]| | |] eqn:E; try discriminate. cbn in H. injection H as <- <-. cbn [m_heap].
  pose proof (Hm _ _ _ E) as K. subst t1. cbn [m_heap] in K.
  assert (El : nth_error (m_heap s2) l = Some cm).
  { destruct (K l cm) as (c' & E' & L); [rewrite nth_set, Nat.eqb_refl, Hl; reflexivity|]. rewrite (Hcm _ L) in E'. exact E'. }
  split; [|rewrite nth_set, Nat.eqb_refl, El; reflexivity]. intros l' c1 H1. rewrite nth_set. destruct (Nat.eqb_spec l l') as [<-|Hn].
  - rewrite El. exists (res a'). split; [reflexivity|]. rewrite Hl in H1. injection H1 as <-. apply Hres.
  - apply K. rewrite nth_set. destruct (Nat.eqb_spec l l'); [contradiction|exact H1].
Qed.

Section Uniq.
  Variable uniq : nat -> bool.
  Lemma kp_is_unique : kp (is_unique uniq).
  Proof. intros s a s' [= <- <-]. apply keeps_refl. Qed.

  Lemma kp_comb_apply_subst {T} (go : T -> nat -> M (sterm * bool)) c : comb_all (fun t => forall k, kp (go t k)) c -> forall k, kp (comb_apply_subst go c k).
  Proof.
    destruct c as [h args|id a b|id [a|] b]; cbn [comb_all comb_apply_subst]; intros [Ha Hb] k.
    - apply kp_bind; [apply Ha|]. intros [h' ch]. apply kp_bind; [|intros ps; apply kp_ret]. apply kp_mapM. intros a Hin. rewrite Forall_forall in Hb. apply Hb. exact Hin.
    - apply kp_bind; [apply Ha|]. intros [a' ch]. apply kp_bind; [apply Hb|]. intros [b' ch']. apply kp_ret.
    - apply kp_bind; [apply Hb|]. intros [b' ch]. apply kp_bind; [apply Ha|]. intros [a' ch']. apply kp_ret.
    - apply kp_bind; [apply Hb|]. intros [b' ch]. apply kp_ret.
  Qed.
  Section ApplySubst.
    Variable sb : nat -> nat -> M sterm.
    Hypothesis Hsb : forall n k, kp (sb n k).
    Lemma kp_apply_subst_l t : forall k, kp (apply_subst_l sb t k).
    Proof.
      induction t as [|c|n|c IH] using lterm_ind'; intros k; cbn [apply_subst_l]; try apply kp_ret.
      - destruct (k <=? n); [|apply kp_ret]. apply kp_bind; [apply Hsb|]. intros t'. apply kp_ret.
      - apply kp_bind; [apply kp_comb_apply_subst; exact IH|]. intros [c' ch]. apply kp_ret.
    Qed.
    Lemma kp_apply_subst t : forall k, kp (apply_subst uniq sb t k).
    Proof.
      induction t as [| |c|n|c|c IH] using sterm_ind'; intros k; cbn [apply_subst]; try apply kp_ret.
      - destruct (k <=? n); [|apply kp_ret]. apply kp_bind; [apply Hsb|]. intros t'. apply kp_ret.
      - apply kp_bind; [apply kp_comb_apply_subst, comb_all_intro, kp_apply_subst_l|]. intros [c' ch]. apply kp_ret.
      - apply kp_bind; [apply kp_is_unique|]. intros u. apply kp_bind; [apply kp_comb_apply_subst; exact IH|]. intros [c' ch].
        destruct u; [|destruct ch]; apply kp_ret.
    Qed.
  End ApplySubst.
  Lemma kp_shift_mut t k : kp (shift_mut uniq t k).
  Proof. unfold shift_mut. apply kp_bind; [apply kp_apply_subst; intros; apply kp_ret|]. intros [t' ch]. apply kp_ret. Qed.
  Lemma kp_shift t k : kp (shift uniq t k).
  Proof. unfold shift. destruct (k =? 0); [apply kp_ret|apply kp_shift_mut]. Qed.
  Lemma kp_apply t args : kp args -> kp (apply uniq t args).
  Proof.
    intros Ha. assert (Hd : kp (us <- args ;; ret (SSComb (Appl t us)))) by (apply kp_bind; [exact Ha|intros; apply kp_ret]).
    unfold apply. destruct t as [| |c|n|c|[f args1|id a b|id a b]]; auto.
    apply kp_bind; [apply kp_is_unique|]. intros u. apply kp_bind; [exact Ha|]. intros us. destruct u; apply kp_ret.
  Qed.
  Lemma kp_shift_app t : kp (shift_app uniq t).
  Proof. unfold shift_app. apply kp_bind; [apply kp_shift_mut|]. intros t'. apply kp_apply, kp_ret. Qed.
  Lemma kp_psubst force args n k : (forall l, kp (force l)) -> kp (psubst uniq force args n k).
  Proof.
    intros Hf. unfold psubst. apply kp_bind; [apply kp_usub|]. intros d. destruct (nth_error args d).
    - apply kp_bind; [apply Hf|]. intros t. apply kp_shift.
    - apply kp_bind; [apply kp_usub|]. intros m. apply kp_ret.
  Qed.
  Lemma kp_sterm_of_state force ofr st : (forall l, kp (force l)) -> (forall l, kp (ofr l)) -> kp (sterm_of_state uniq force ofr st).
  Proof.
    intros Hf Ho. unfold sterm_of_state. apply kp_bind.
    - destruct (s_ctx st); [apply kp_ret|]. apply kp_bind; [apply kp_apply_subst; intros; apply kp_psubst; exact Hf|]. intros [t' ch]. apply kp_ret.
    - intros t. destruct (s_stack st); [apply kp_ret|]. apply kp_apply, kp_mapM. intros a _. apply Ho.
  Qed.
  Lemma busy_thunk c' : later (CThunk TBusy) c' -> c' = CThunk TBusy.
  Proof. intros H. inversion H; reflexivity. Qed.
  Lemma busy_state st w c' : later (CState st w true) c' -> c' = CState st w true.
  Proof. intros H. inversion H; reflexivity. Qed.
  (** The term has then been evaluated. *)
  Lemma force_done n l : (forall l, kp (sterm_of_rstate uniq n l)) -> forall s t s', force uniq (S n) l s = Ok (t, s') ->
    keeps (m_heap s) (m_heap s') /\ term_done (m_heap s') l t.
  Proof.
    intros Hn s t s' H. cbn [force] in H. unfold bind at 1, read in H. destruct (nth_error (m_heap s) l) as [c|] eqn:El; [|discriminate].
    destruct c as [st w b|[l'| |t0]]; try discriminate.
    - exact (kp_mark l _ (CThunk TBusy) _ (fun t => CThunk (TDone t)) busy_thunk (fun t => later_thunk l' t) (Hn l') s t s' El H).
    - injection H as <- <-. split; [apply keeps_refl|exact El].
  Qed.
  Lemma kp_force n : (forall l, kp (force uniq n l)) /\ (forall l, kp (sterm_of_rstate uniq n l)).
  Proof.
    induction n as [|n [IH1 IH2]]; [split; intros l; apply kp_nofuel|]. split; intros l.
    - intros s t s' H. apply (force_done n l IH2 s t s' H).
    - cbn [sterm_of_rstate]. apply kp_bind; [apply kp_borrow|]. intros st. apply kp_sterm_of_state; assumption.
  Qed.

  Section Match.
    Variable rw : loc -> M unit.
    Hypothesis Hrw : forall l, kp (rw l).
    Lemma kp_match_pat p : forall l sb, kp (match_pat rw l p sb).
    Proof.
      induction p as [c ps IH|m|] using pattern_ind'; intros l sb; cbn [match_pat]; try apply kp_ret.
      apply kp_bind; [apply Hrw|]. intros _. apply kp_bind; [apply kp_borrow|]. intros st.
      destruct (s_term st); try apply kp_ret. destruct (_ && _); [|apply kp_ret].
      generalize (s_stack st) as stack. revert sb.
      induction IH as [|p ps Hp Hps IHps]; intros sb stack; [apply kp_ret|].
      destruct stack as [|l' stack]; [apply kp_ret|]. apply kp_bind; [apply Hp|]. intros [sb'|]; [apply IHps|apply kp_ret].
    Qed.
    Lemma kp_match_pats ps : forall stack sb, kp (match_pats (match_pat rw) stack ps sb).
    Proof.
      induction ps as [|p ps IH]; intros stack sb; cbn [match_pats]; [apply kp_ret|]. destruct stack as [|l stack]; [apply kp_ret|].
      apply kp_bind; [apply kp_match_pat|]. intros [sb'|]; [apply IH|apply kp_ret].
    Qed.
    Variable cv : sterm -> sterm -> M bool.
    Hypothesis Hcv : forall t u, kp (cv t u).
    Variable n : nat.
    Lemma kp_all_convertible_loop ls : forall t, kp (all_convertible_loop uniq cv n t ls).
    Proof.
      induction ls as [|l ls IH]; intros t; cbn [all_convertible_loop]; [apply kp_ret|].
      apply kp_bind; [apply kp_force|]. intros t1. apply kp_bind; [apply kp_force|]. intros t2.
      apply kp_bind; [apply Hcv|]. intros [|]; [apply IH|apply kp_ret].
    Qed.
    Lemma kp_flatten sb : kp (flatten uniq cv n sb).
    Proof.
      induction sb as [|ls sb IH]; cbn [flatten]; [apply kp_ret|]. apply kp_bind; [apply IH|]. intros [ctx|]; [|apply kp_ret].
      apply kp_bind; [|intros [t|]; apply kp_ret]. destruct ls as [|l ls]; cbn [all_convertible]; [apply kp_ret|].
      apply kp_bind; [apply kp_alloc|]. intros t. apply kp_all_convertible_loop.
    Qed.
    Lemma kp_first_match stack rules : kp (first_match uniq rw cv n stack rules).
    Proof.
      induction rules as [|r rules IH]; cbn [first_match]; [apply kp_ret|]. apply kp_bind; [|intros [ctx|]; [apply kp_ret|exact IH]].
      unfold match_flatten. apply kp_bind; [|intros [sb|]; [apply kp_flatten|apply kp_ret]].
      unfold match_rule. destruct (_ <? _); [apply kp_ret|apply kp_match_pats].
    Qed.
  End Match.

  Lemma kp_step1 c t : kp (step1 uniq c t).
  Proof. destruct c as [h args|id a b|id a b]; cbn [step1]; try apply kp_ret. apply kp_bind; [apply kp_shift_app|]. intros t'. apply kp_ret. Qed.
  Lemma kp_step2 eta c1 c2 : kp (step2 uniq eta c1 c2).
  Proof.
    destruct c1 as [h1 a1|i1 a1 b1|i1 a1 b1]; destruct c2 as [h2 a2|i2 a2 b2|i2 a2 b2]; cbn [step2]; try apply kp_ret;
      first [destruct eta; [apply kp_bind; [apply kp_shift_app|intros t'; apply kp_ret]|apply kp_ret] | destruct (_ =? _); apply kp_ret].
  Qed.
  Lemma kp_step eta t1 t2 : kp (step uniq eta t1 t2).
  Proof.
    destruct t1 as [| |c1|n1|c1|c1]; destruct t2 as [| |c2|n2|c2|c2]; cbn [step]; try apply kp_ret; try apply kp_step2;
      first [destruct eta; [apply kp_step1|apply kp_ret] | destruct (_ =? _); apply kp_ret].
  Qed.

  Variable gc : gctx.
  Lemma kp_push_args ctx args : forall stack, kp (push_args ctx args stack).
  Proof.
    induction args as [|a args IH]; intros stack; cbn [push_args]; [apply kp_ret|]. apply kp_bind; [apply IH|]. intros stack'.
    apply kp_bind; [apply kp_alloc|]. intros l. apply kp_ret.
  Qed.
  (** The state has then been evaluated. *)
  Lemma rstate_done w l : (forall st, kp (w st)) -> forall s a s', rstate_whnf w l s = Ok (a, s') -> keeps (m_heap s) (m_heap s') /\ state_done (m_heap s') l.
  Proof.
    intros Hw s a s' H. unfold rstate_whnf in H. unfold bind at 1, read in H. destruct (nth_error (m_heap s) l) as [c|] eqn:El; [|discriminate].
    destruct c as [st [|] [|]|th]; try discriminate.
    - injection H as <- <-. split; [apply keeps_refl|exists st; exact El].
    - assert (H' : exists st', (write l (CState st false true) ;;; st' <- w st ;; write l (CState st' true false) ;;; ret st') s = Ok (st', s')).
      { unfold bind, write in *. destruct (w st _) as [[st' s1]| | |]; try discriminate. exists st'. injection H as _ <-. reflexivity. }
      destruct H' as (st' & H'). destruct (kp_mark l _ _ _ (fun st' => CState st' true false) (busy_state st false) (fun st' => later_state st st') (Hw st) s st' s' El H') as [K D].
      split; [exact K|exists st'; exact D].
  Qed.
  Lemma kp_whnf_ n w t : kp (whnf_ uniq n w t).
  Proof.
    intros s a s' H. unfold whnf_, with_fresh_heap in H. destruct (bind _ _ _) as [[b s1]| | |]; try discriminate. injection H as _ <-. apply keeps_refl.
  Qed.
  Lemma kp_machine n : (forall st, kp (state_whnf uniq gc n st)) /\ (forall cns, kp (convertible_loop uniq gc n cns)).
  Proof.
    induction n as [|n [IH1 IH2]]; [split; intros; apply kp_nofuel|]. split.
    - intros [ctx t stack]. cbn [state_whnf].
      assert (Hstop : forall st, kp (whnf_break st)).
      { intros st. unfold whnf_break. destruct (s_term st); try apply kp_ret. destruct (s_ctx st); [apply kp_ret|apply kp_panic]. }
      assert (Hcomb : kp
        match get_comb t with
        | None => panic
        | Some (Prod _ _ _) => panic
        | Some (Abst _ _ t) =>
          match stack with
          | [] => panic
          | l :: stack => th <- rtterm_new l ;; state_whnf uniq gc n (State (th :: ctx) t stack)
          end
        | Some (Appl head tail) =>
          stack <- push_args ctx tail stack ;;
          state_whnf uniq gc n (State ctx head stack)
        end).
      { destruct (get_comb t) as [[h args|id a b|id a b]|]; try apply kp_panic.
        - apply kp_bind; [apply kp_push_args|]. intros stack'. apply IH1.
        - destruct stack as [|l stack]; [apply kp_panic|]. apply kp_bind; [apply kp_alloc|]. intros th. apply IH1. }
      destruct t as [| |c|x|c|c]; try apply Hstop.
      + destruct (get_rules gc c) as [rules|]; [|apply Hstop]. apply kp_bind.
        * apply kp_first_match; [|intros; apply IH2]. intros l s a s' H. apply (rstate_done _ l IH1 s a s' H).
        * intros [[ctx' r]|]; [|apply Hstop]. apply kp_bind; [apply kp_usub|]. intros _. apply IH1.
      + destruct (nth_error ctx x); [apply kp_bind; [apply kp_force|]; intros t; apply IH1|].
        destruct ctx; [apply Hstop|]. apply kp_bind; [apply kp_usub|]. intros m. apply Hstop.
      + destruct (is_whnf _ _); [apply Hstop|exact Hcomb].
      + destruct (is_whnf _ _); [apply Hstop|exact Hcomb].
    - intros [|[t u] cns]; [apply kp_ret|]. cbn [convertible_loop]. destruct (sterm_eqb t u); [apply IH2|].
      apply kp_bind; [apply kp_whnf_|]. intros t'. apply kp_bind; [apply kp_whnf_|]. intros u'.
      apply kp_bind; [apply kp_step|]. intros [new|]; [apply IH2|apply kp_ret].
  Qed.
End Uniq.

Theorem main_keeps uniq gc n :
  (forall st s st' s', state_whnf uniq gc n st s = Ok (st', s') -> keeps (m_heap s) (m_heap s')) /\
  (forall l s a s', rstate_whnf (state_whnf uniq gc n) l s = Ok (a, s') -> keeps (m_heap s) (m_heap s') /\ state_done (m_heap s') l) /\
  (forall l s t s', force uniq n l s = Ok (t, s') -> keeps (m_heap s) (m_heap s') /\ term_done (m_heap s') l t) /\
  (forall l s t s', sterm_of_rstate uniq n l s = Ok (t, s') -> keeps (m_heap s) (m_heap s')).
Proof.
  split; [intros st s st' s' H; exact (proj1 (kp_machine uniq gc n) st _ _ _ H)|]. split; [intros l s a s'; apply rstate_done, kp_machine|]. split.
  - intros l s t s' H. destruct n as [|n]; [discriminate|]. apply (force_done uniq n l (proj2 (kp_force uniq n)) _ _ _ H).
  - intros l s t s' H. exact (proj2 (kp_force uniq n) l _ _ _ H).
Qed.
Lemma main_state_once h h' l : keeps h h' -> state_done h l -> forall w tick, rstate_whnf w l (MSt h' tick) = Ok (tt, MSt h' tick).
Proof.
  intros K (st & E) w tick. destruct (K _ _ E) as (c & E' & L). assert (c = CState st true false) by (inversion L; reflexivity). subst c.
  unfold rstate_whnf, bind, read. cbn [m_heap]. rewrite E'. reflexivity.
Qed.
Lemma main_term_once h h' l t : keeps h h' -> term_done h l t -> forall uniq n tick, force uniq (S n) l (MSt h' tick) = Ok (t, MSt h' tick).
Proof.
  intros K E uniq n tick. destruct (K _ _ E) as (c & E' & L). assert (c = CThunk (TDone t)) by (inversion L; reflexivity). subst c.
  cbn [force]. unfold bind, read. cbn [m_heap]. rewrite E'. reflexivity.
Qed.
Lemma main_busy h h' l : keeps h h' ->
  (state_busy h l -> state_busy h' l /\ forall w tick, rstate_whnf w l (MSt h' tick) = Panic) /\
  (term_busy h l -> term_busy h' l /\ forall uniq n tick, force uniq (S n) l (MSt h' tick) = Panic).
Proof.
  intros K. split.
  - intros (st & w & E). destruct (K _ _ E) as (c & E' & L). apply busy_state in L. subst c. split; [exists st, w; exact E'|].
    intros w' tick. unfold rstate_whnf, bind, read. cbn [m_heap]. rewrite E'. destruct w; reflexivity.
  - intros E. destruct (K _ _ E) as (c & E' & L). apply busy_thunk in L. subst c. split; [exact E'|].
    intros uniq n tick. cbn [force]. unfold bind, read. cbn [m_heap]. rewrite E'. reflexivity.
Qed.
Theorem main_once uniq gc n :
  (forall l s a s', rstate_whnf (state_whnf uniq gc n) l s = Ok (a, s') -> forall h, keeps (m_heap s') h ->
    forall w tick, rstate_whnf w l (MSt h tick) = Ok (tt, MSt h tick)) /\
  (forall l s t s', force uniq n l s = Ok (t, s') -> forall h, keeps (m_heap s') h ->
    forall uniq' m tick, force uniq' (S m) l (MSt h tick) = Ok (t, MSt h tick)).
Proof.
  destruct (main_keeps uniq gc n) as (_ & Hr & Hf & _). split.
  - intros l s a s' H h K. apply (main_state_once (m_heap s') h l K). apply (Hr l s a s' H).
  - intros l s t s' H h K. apply (main_term_once (m_heap s') h l t K). apply (Hf l s t s' H).
Qed.
