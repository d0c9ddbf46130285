(** * Fuel monotonicity of the model *)

From Verif Require Import Base LibMono ModelTerm ModelGctx ModelCommand ModelSubst ModelReduce ModelInfer Erase.

Section Sub.
  Variable uniq : nat -> bool.

  Lemma comb_apply_subst_mono {T} (f1 f2 : T -> nat -> M (sterm * bool)) c k :
    comb_all (fun t => forall k, le_m (f1 t k) (f2 t k)) c ->
    le_m (comb_apply_subst f1 c k) (comb_apply_subst f2 c k).
  Proof.
    assert (Hm : forall l, Forall (fun t => forall k, le_m (f1 t k) (f2 t k)) l ->
      le_m (mapM (fun x => f1 x k) l) (mapM (fun x => f2 x k) l)).
    { induction 1; cbn [mapM]; le_auto. }
    destruct c as [h args|id a b|id [a|] b]; cbn; intros [H1 H2]; try solve [le_auto].
    apply le_m_bind; [apply H1|]. intros [f ch]. apply le_m_bind; [now apply Hm|]. intros; apply le_m_refl.
  Qed.

  Section App.
    Variables s1 s2 : nat -> nat -> M sterm.
    Hypothesis Hs : forall n k, le_m (s1 n k) (s2 n k).
    Lemma apply_subst_l_mono t : forall k, le_m (apply_subst_l s1 t k) (apply_subst_l s2 t k).
    Proof.
      induction t as [|c|n|c IH] using lterm_ind'; intros k; cbn [apply_subst_l]; le_auto.
      now apply comb_apply_subst_mono.
    Qed.
    Lemma comb_all_intro_l c : comb_all (fun t => forall k, le_m (apply_subst_l s1 t k) (apply_subst_l s2 t k)) c.
    Proof.
      destruct c as [h args|id a b|id [a|] b]; cbn; auto using apply_subst_l_mono.
      split; [apply apply_subst_l_mono|]. induction args; constructor; auto using apply_subst_l_mono.
    Qed.
    Lemma apply_subst_mono t : forall k, le_m (apply_subst uniq s1 t k) (apply_subst uniq s2 t k).
    Proof.
      induction t as [| |c|n|c|c IH] using sterm_ind'; intros k; cbn [apply_subst]; le_auto.
      - apply comb_apply_subst_mono. apply comb_all_intro_l.
      - now apply comb_apply_subst_mono.
    Qed.
  End App.

  Lemma apply_mono t m1 m2 : le_m m1 m2 -> le_m (apply uniq t m1) (apply uniq t m2).
  Proof. intros H. unfold apply. destruct t as [| |c|n|c|[h args|id a b|id oa b]]; le_auto. Qed.

  Lemma sterm_of_state_mono f1 f2 g1 g2 st :
    (forall l, le_m (f1 l) (f2 l)) -> (forall l, le_m (g1 l) (g2 l)) ->
    le_m (sterm_of_state uniq f1 g1 st) (sterm_of_state uniq f2 g2 st).
  Proof.
    intros Hf Hg. unfold sterm_of_state. apply le_m_bind.
    - destruct (s_ctx st); le_auto. apply apply_subst_mono. intros. unfold psubst. le_auto.
    - intros t. destruct (s_stack st); le_auto. apply apply_mono. le_auto.
  Qed.

  Lemma force_mono_S n : (forall l, le_m (force uniq n l) (force uniq (S n) l)) /\
    (forall l, le_m (sterm_of_rstate uniq n l) (sterm_of_rstate uniq (S n) l)).
  Proof.
    induction n as [|n [IH1 IH2]].
    - split; intros l; apply le_m_nofuel.
    - split; intros l.
      + change (force uniq (S n) l) with
          (bind (read l) (fun c => match c with
             | CThunk (TDone t) => ret t
             | CThunk (TTodo l') =>
               bind (write l (CThunk TBusy)) (fun _ => bind (sterm_of_rstate uniq n l') (fun t =>
               bind (write l (CThunk (TDone t))) (fun _ => ret t)))
             | _ => panic end)).
        cbn [force]. le_auto.
      + cbn [sterm_of_rstate]. apply le_m_bind; [apply le_m_refl|]. intros st. apply sterm_of_state_mono; assumption.
  Qed.
  Lemma force_mono n m l : n <= m -> le_m (force uniq n l) (force uniq m l).
  Proof. induction 1; [apply le_m_refl|]. eapply le_m_trans; [eassumption|]. apply force_mono_S. Qed.
  Lemma sterm_of_rstate_mono n m l : n <= m -> le_m (sterm_of_rstate uniq n l) (sterm_of_rstate uniq m l).
  Proof. induction 1; [apply le_m_refl|]. eapply le_m_trans; [eassumption|]. apply force_mono_S. Qed.

  Section Match.
    Variables w1 w2 : loc -> M unit.
    Hypothesis Hw : forall l, le_m (w1 l) (w2 l).

    Lemma match_pat_mono : forall p l sb, le_m (match_pat w1 l p sb) (match_pat w2 l p sb).
    Proof.
      fix IH 1. intros [c ps|m|] l sb; cbn [match_pat]; try apply le_m_refl.
      apply le_m_bind; auto. intros _. apply le_m_bind; [apply le_m_refl|]. intros st.
      destruct (s_term st); try apply le_m_refl.
      destruct (_ && _); try apply le_m_refl.
      generalize (s_stack st) as stack, sb as sb0. clear sb st.
      induction ps as [|p ps IHps]; intros stack sb; [apply le_m_refl|].
      destruct stack as [|l' stack]; [apply le_m_refl|].
      apply le_m_bind; [apply IH|]. intros [sb'|]; [apply IHps|apply le_m_refl].
    Qed.

    Lemma match_pats_mono : forall ps stack sb,
      le_m (match_pats (match_pat w1) stack ps sb) (match_pats (match_pat w2) stack ps sb).
    Proof.
      induction ps as [|p ps IH]; intros stack sb; cbn; [apply le_m_refl|].
      destruct stack; [apply le_m_refl|]. apply le_m_bind; [apply match_pat_mono|].
      intros [sb'|]; [apply IH|apply le_m_refl].
    Qed.

    Variables c1 c2 : sterm -> sterm -> M bool.
    Hypothesis Hc : forall t u, le_m (c1 t u) (c2 t u).
    Variables n1 n2 : nat.
    Hypothesis Hn : n1 <= n2.

    Lemma all_convertible_loop_mono t ls :
      le_m (all_convertible_loop uniq c1 n1 t ls) (all_convertible_loop uniq c2 n2 t ls).
    Proof.
      induction ls as [|l ls IH]; cbn; [apply le_m_refl|].
      apply le_m_bind; [now apply force_mono|]. intros.
      apply le_m_bind; [now apply sterm_of_rstate_mono|]. intros. le_auto.
    Qed.

    Lemma flatten_mono sb : le_m (flatten uniq c1 n1 sb) (flatten uniq c2 n2 sb).
    Proof.
      induction sb as [|ls sb IH]; cbn; [apply le_m_refl|].
      apply le_m_bind; auto. intros [ctx|]; [|apply le_m_refl].
      apply le_m_bind; [|intros; apply le_m_refl].
      destruct ls; cbn; [apply le_m_refl|]. le_auto. apply all_convertible_loop_mono.
    Qed.

    Lemma first_match_mono stack rules :
      le_m (first_match uniq w1 c1 n1 stack rules) (first_match uniq w2 c2 n2 stack rules).
    Proof.
      induction rules as [|r rules IH]; cbn; [apply le_m_refl|].
      apply le_m_bind; [|intros [ctx|]; [apply le_m_refl|assumption]].
      unfold match_flatten. apply le_m_bind.
      - unfold match_rule. destruct (_ <? _); [apply le_m_refl|apply match_pats_mono].
      - intros [sb|]; [apply flatten_mono|apply le_m_refl].
    Qed.
  End Match.

  Lemma with_fresh_heap_mono {A} (m1 m2 : M A) : le_m m1 m2 -> le_m (with_fresh_heap m1) (with_fresh_heap m2).
  Proof. intros H s. unfold with_fresh_heap. destruct (H (MSt [] (m_tick s))) as [ -> | -> ]; auto. Qed.

  Lemma whnf__mono n1 n2 w1 w2 t : n1 <= n2 -> (forall st, le_m (w1 st) (w2 st)) ->
    le_m (whnf_ uniq n1 w1 t) (whnf_ uniq n2 w2 t).
  Proof.
    intros Hn Hw. apply with_fresh_heap_mono. apply le_m_bind; auto. intros st.
    apply sterm_of_state_mono; intros; [apply force_mono|apply sterm_of_rstate_mono]; auto.
  Qed.

  Variable gc : gctx.

  (** the body of the loop, with the fuel of the callees *)
  Definition loop_body (n : nat) (sw : state -> M state) (cv : sterm -> sterm -> M bool) (st : state) : M state :=
    let '(State ctx t stack) := st in
    let continue_with_comb :=
      match get_comb t with
      | None => panic
      | Some (Prod _ _ _) => panic
      | Some (Abst _ _ t) =>
        match stack with
        | [] => panic
        | l :: stack => bind (rtterm_new l) (fun th => sw (State (th :: ctx) t stack))
        end
      | Some (Appl head tail) =>
        bind (push_args ctx tail stack) (fun stack => sw (State ctx head stack))
      end in
    let no_args := match stack with [] => true | _ => false end in
    match t with
    | SType | SKind => whnf_break st
    | SVar x =>
      match nth_error ctx x with
      | Some ctm => bind (force uniq n ctm) (fun t => sw (State [] t stack))
      | None =>
        match ctx with
        | [] => whnf_break st
        | _ => bind (usub x (length ctx)) (fun m => whnf_break (State [] (SVar m) stack))
        end
      end
    | SConst s =>
      match get_rules gc s with
      | None => whnf_break st
      | Some rules =>
        bind (first_match uniq (rstate_whnf sw) cv n stack rules) (fun o =>
        match o with
        | Some (ctx, r) =>
          bind (usub (length stack) (length (tp_args (r_lhs r)))) (fun _ =>
          sw (State ctx (sterm_of_lterm (r_rhs r)) (skipn (length (tp_args (r_lhs r))) stack)))
        | None => whnf_break st
        end)
      end
    | SLComb c => if is_whnf c no_args then whnf_break st else continue_with_comb
    | SSComb c => if is_whnf c no_args then whnf_break st else continue_with_comb
    end.

  Lemma state_whnf_S n st : state_whnf uniq gc (S n) st =
    loop_body n (state_whnf uniq gc n) (fun t1 t2 => convertible_loop uniq gc n [(t1, t2)]) st.
  Proof. reflexivity. Qed.

  Lemma loop_body_mono n1 n2 w1 w2 c1 c2 st :
    n1 <= n2 -> (forall st, le_m (w1 st) (w2 st)) -> (forall t u, le_m (c1 t u) (c2 t u)) ->
    le_m (loop_body n1 w1 c1 st) (loop_body n2 w2 c2 st).
  Proof.
    intros Hn Hw Hc. destruct st as [ctx t stack]. unfold loop_body.
    assert (Hcomb : forall ot, le_m
      (match ot with
      | None => panic
      | Some (Prod _ _ _) => panic
      | Some (Abst _ _ t) =>
        match stack with
        | [] => panic
        | l :: stack => bind (rtterm_new l) (fun th => w1 (State (th :: ctx) t stack))
        end
      | Some (Appl head tail) =>
        bind (push_args ctx tail stack) (fun stack => w1 (State ctx head stack))
      end)
      (match ot with
      | None => panic
      | Some (Prod _ _ _) => panic
      | Some (Abst _ _ t) =>
        match stack with
        | [] => panic
        | l :: stack => bind (rtterm_new l) (fun th => w2 (State (th :: ctx) t stack))
        end
      | Some (Appl head tail) =>
        bind (push_args ctx tail stack) (fun stack => w2 (State ctx head stack))
      end)).
    { intros [[h args|id a b|id oa b]|]; try apply le_m_refl; le_auto. }
    destruct t as [| |c|x|c|c]; try apply le_m_refl.
    - destruct (get_rules gc c); [|apply le_m_refl]. apply le_m_bind.
      + apply first_match_mono; auto. intros l'. unfold rstate_whnf. le_auto.
      + intros [[ctx' r]|]; le_auto.
    - destruct (nth_error ctx x); [|apply le_m_refl]. apply le_m_bind; [now apply force_mono|]. intros; apply Hw.
    - destruct (is_whnf _ _); [apply le_m_refl|]. apply Hcomb.
    - destruct (is_whnf _ _); [apply le_m_refl|]. apply Hcomb.
  Qed.

  Lemma convertible_loop_S n cns : convertible_loop uniq gc (S n) cns =
    match cns with
    | [] => ret true
    | (cn1, cn2) :: cns =>
      if sterm_eqb cn1 cn2 then convertible_loop uniq gc n cns
      else bind (whnf_ uniq n (state_whnf uniq gc n) cn1) (fun cn1 =>
           bind (whnf_ uniq n (state_whnf uniq gc n) cn2) (fun cn2 =>
           bind (step uniq (g_eta gc) cn1 cn2) (fun o =>
           match o with
           | None => ret false
           | Some new => convertible_loop uniq gc n (new ++ cns)
           end)))
    end.
  Proof. destruct cns as [|[? ?] ?]; reflexivity. Qed.

  Lemma state_whnf_mono_S n :
    (forall st, le_m (state_whnf uniq gc n st) (state_whnf uniq gc (S n) st)) /\
    (forall cns, le_m (convertible_loop uniq gc n cns) (convertible_loop uniq gc (S n) cns)).
  Proof.
    induction n as [|n [IH1 IH2]].
    - split; intros; apply le_m_nofuel.
    - split.
      + intros st. rewrite !state_whnf_S. apply loop_body_mono; auto.
      + intros cns. rewrite !convertible_loop_S.
        destruct cns as [|[cn1 cn2] cns]; [apply le_m_refl|].
        destruct (sterm_eqb cn1 cn2); auto.
        apply le_m_bind; [apply whnf__mono; auto|]. intros x1.
        apply le_m_bind; [apply whnf__mono; auto|]. intros x2.
        apply le_m_bind; [apply le_m_refl|]. intros [new|]; [auto|apply le_m_refl].
  Qed.
  Lemma state_whnf_mono n m st : n <= m -> le_m (state_whnf uniq gc n st) (state_whnf uniq gc m st).
  Proof. induction 1; [apply le_m_refl|]. eapply le_m_trans; [eassumption|]. apply state_whnf_mono_S. Qed.
  Lemma convertible_loop_mono n m cns : n <= m -> le_m (convertible_loop uniq gc n cns) (convertible_loop uniq gc m cns).
  Proof. induction 1; [apply le_m_refl|]. eapply le_m_trans; [eassumption|]. apply state_whnf_mono_S. Qed.
  Lemma whnf_mono n m t : n <= m -> le_m (whnf uniq gc n t) (whnf uniq gc m t).
  Proof. intros H. apply whnf__mono; auto. intros. now apply state_whnf_mono. Qed.
  Lemma convertible_mono n m t u : n <= m -> le_m (convertible uniq gc n t u) (convertible uniq gc m t u).
  Proof. intros H. now apply convertible_loop_mono. Qed.

  (** ** Inference *)
  Lemma infer_comb_mono w1 w2 i1 i2 c1 c2 lc c :
    (forall t, le_m (w1 t) (w2 t)) -> (forall lc t, le_m (i1 lc t) (i2 lc t)) ->
    (forall lc t ty, le_m (c1 lc t ty) (c2 lc t ty)) ->
    le_m (infer_comb uniq w1 i1 c1 lc c) (infer_comb uniq w2 i2 c2 lc c).
  Proof.
    intros Hw Hi Hc. destruct c as [h args|id a b|id [a|] b]; cbn [infer_comb]; unfold bind_of_type; le_auto.
    revert a. induction args as [|x args IH]; intros ty; cbn [infer_args]; le_auto.
  Qed.

  Lemma infer_S n lc t : infer uniq gc (S n) lc t =
    match t with
    | SKind => fail KindNotTypable
    | SType => ret SKind
    | SConst c => bind (ok_or (get_type gc c) TypeNotFound) (fun ty => ret (sterm_of_lterm ty))
    | SVar v => bind (lctx_get_type uniq lc v) (fun ty => ok_or ty TypeNotFound)
    | SSComb c => infer_comb uniq (whnf uniq gc n) (infer uniq gc n) (check uniq gc n) lc c
    | SLComb c => infer_comb uniq (whnf uniq gc n) (infer uniq gc n) (check uniq gc n) lc (scomb_of_lcomb c)
    end.
  Proof. reflexivity. Qed.
  Lemma check_S n lc t ty : check uniq gc (S n) lc t ty =
    match get_abst t with
    | Some (_, arg_ty, tm) =>
      bind (whnf uniq gc n ty) (fun ty =>
      bind (ok_or (get_prod ty) ProductExpected) (fun x => let '(_, ty_a, ty_b) := x in
      bind (match arg_ty with
            | None => ret true
            | Some arg_ty =>
              bind (infer uniq gc n lc arg_ty) (fun _ =>
              convertible uniq gc n arg_ty ty_a)
            end) (fun ok =>
      if ok : bool then check uniq gc n (ty_a :: lc) tm ty_b else ret false)))
    | None =>
      bind (infer uniq gc n lc t) (fun ty_inf =>
      convertible uniq gc n ty_inf ty)
    end.
  Proof. reflexivity. Qed.

  Lemma infer_mono_S n :
    (forall lc t, le_m (infer uniq gc n lc t) (infer uniq gc (S n) lc t)) /\
    (forall lc t ty, le_m (check uniq gc n lc t ty) (check uniq gc (S n) lc t ty)).
  Proof.
    induction n as [|n [IH1 IH2]]; [split; intros; apply le_m_nofuel|].
    assert (Hw : forall t, le_m (whnf uniq gc n t) (whnf uniq gc (S n) t)) by (intros; apply whnf_mono; lia).
    assert (Hc : forall t u, le_m (convertible uniq gc n t u) (convertible uniq gc (S n) t u))
      by (intros; apply convertible_mono; lia).
    split.
    - intros lc t. rewrite !infer_S. destruct t; try apply le_m_refl; apply infer_comb_mono; auto.
    - intros lc t ty. rewrite !check_S. destruct (get_abst t) as [[[id oa] b]|]; le_auto.
  Qed.
  Lemma infer_mono n m lc t : n <= m -> le_m (infer uniq gc n lc t) (infer uniq gc m lc t).
  Proof. induction 1; [apply le_m_refl|]. eapply le_m_trans; [eassumption|]. apply infer_mono_S. Qed.
  Lemma check_mono n m lc t ty : n <= m -> le_m (check uniq gc n lc t ty) (check uniq gc m lc t ty).
  Proof. induction 1; [apply le_m_refl|]. eapply le_m_trans; [eassumption|]. apply infer_mono_S. Qed.

  Lemma kintro_mono n m it : n <= m -> le_m (kintro uniq gc n it) (kintro uniq gc m it).
  Proof.
    intros H. assert (Hi : forall lc t, le_m (infer uniq gc n lc t) (infer uniq gc m lc t)) by (intros; now apply infer_mono).
    destruct it as [[ty|] [tm|]|ty tm|inj ty]; cbn [kintro]; unfold declare, define, theorem; le_auto.
  Qed.
  Lemma rewrite_mono n m r : n <= m -> le_m (rewrite uniq gc n r) (rewrite uniq gc m r).
  Proof. intros H. unfold rewrite. le_auto. now apply infer_mono. Qed.
  Lemma check_check_mono n m c : n <= m -> le_m (check_check uniq gc n c) (check_check uniq gc m c).
  Proof. intros H. unfold check_check. le_auto. now apply check_mono. Qed.
End Sub.

(** Two runs with different fuel that both return, return the same. *)
Lemma run_agree {A} (q : nat -> M A) :
  (forall n m, n <= m -> le_m (q n) (q m)) ->
  forall n m, run (q n) <> Fuel -> run (q m) <> Fuel -> run (q n) = run (q m).
Proof.
  intros H.
  assert (G : forall n m, n <= m -> run (q n) <> Fuel -> run (q n) = run (q m)).
  { intros n m L Hn. unfold run in *. destruct (H n m L (MSt [] 0)) as [E|E]; rewrite E in *; [now contradict Hn|reflexivity]. }
  intros n m Hn Hm. destruct (Nat.le_ge_cases n m) as [L|L]; [now apply G|symmetry; now apply G].
Qed.
