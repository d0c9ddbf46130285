(** * The reference machine never panics

    [safe h b l]: everything reachable from location [l] exists, is not being evaluated, has the
    right kind ([b = true]: state, [b = false]: thunk), and is acyclic (the predicate is inductive).
    Every operation keeps safe locations safe and touches only locations that are safe afterwards. *)

From Verif Require Import Base ModelSubst ModelReduce SpecTerm SpecConv RefMachine.

Lemma nth_error_list_set_eq {A} (l : list A) n a : n < length l -> nth_error (list_set l n a) n = Some a.
Proof. revert n. induction l; intros [|n]; cbn; intros H; try lia; auto. apply IHl. lia. Qed.
Lemma nth_error_list_set_neq {A} (l : list A) n m a : n <> m -> nth_error (list_set l n a) m = nth_error l m.
Proof. revert n m. induction l; intros [|n] [|m]; cbn; intros H; try lia; auto. Qed.
Lemma length_list_set {A} (l : list A) n a : length (list_set l n a) = length l.
Proof. revert n. induction l; intros [|n]; cbn; auto. Qed.
Lemma nth_error_lt {A} (l : list A) n a : nth_error l n = Some a -> n < length l.
Proof. intros H. apply nth_error_Some. congruence. Qed.
Lemma nth_error_snoc {A} (l : list A) a : nth_error (l ++ [a]) (length l) = Some a.
Proof. rewrite nth_error_app2 by lia. rewrite Nat.sub_diag. reflexivity. Qed.
Lemma nth_error_app_l {A} (l l' : list A) n a : nth_error l n = Some a -> nth_error (l ++ l') n = Some a.
Proof. intros H. rewrite nth_error_app1; auto. eapply nth_error_lt; eauto. Qed.

Inductive safe (h : heap) : bool -> loc -> Prop :=
| safe_state l st w :
  nth_error h l = Some (RCState st w false) ->
  (forall l', In l' (rs_ctx st) -> safe h false l') ->
  (forall l', In l' (rs_stack st) -> safe h true l') ->
  safe h true l
| safe_todo l l' : nth_error h l = Some (RCThunk (RTodo l')) -> safe h true l' -> safe h false l
| safe_done l t : nth_error h l = Some (RCThunk (RDone t)) -> safe h false l.

Definition kind (c : rcell) : bool := match c with RCState _ _ _ => true | RCThunk _ => false end.
Definition busy (c : rcell) : Prop :=
  match c with RCState _ _ b => b = true | RCThunk RBusy => True | _ => False end.
Definition cell_safe (h : heap) (c : rcell) : Prop :=
  match c with
  | RCState st _ b => b = false /\ (forall l, In l (rs_ctx st) -> safe h false l) /\ (forall l, In l (rs_stack st) -> safe h true l)
  | RCThunk (RTodo l) => safe h true l
  | RCThunk RBusy => False
  | RCThunk (RDone _) => True
  end.

Lemma safe_cell h b l : safe h b l -> exists c, nth_error h l = Some c /\ kind c = b /\ cell_safe h c /\ ~ busy c.
Proof.
  destruct 1; eexists; (split; [eassumption|]); cbn; repeat split; auto; congruence.
Qed.
Lemma cell_safe_safe h l c : nth_error h l = Some c -> cell_safe h c -> safe h (kind c) l.
Proof.
  intros H. destruct c as [st w b|[l'| |t]]; cbn.
  - intros (-> & H1 & H2). econstructor; eauto.
  - intros. eapply safe_todo; eauto.
  - tauto.
  - intros _. eapply safe_done; eauto.
Qed.
Lemma cell_safe_mono h h' c : (forall b l, safe h b l -> safe h' b l) -> cell_safe h c -> cell_safe h' c.
Proof.
  intros H. destruct c as [st w b|[l'| |t]]; cbn; auto. intros (? & ? & ?); repeat split; auto.
Qed.

Record ext (h h' : heap) : Prop := MkExt {
  ext_len : length h <= length h';
  ext_safe : forall b l, safe h b l -> safe h' b l;
  ext_upd : forall l c, nth_error h l = Some c -> nth_error h' l = Some c \/ safe h' (kind c) l;
  ext_kind : forall l c, nth_error h l = Some c -> exists c', nth_error h' l = Some c' /\ kind c' = kind c;
  ext_busy : forall l c, nth_error h l = Some c -> busy c -> nth_error h' l = Some c
}.

Lemma ext_refl h : ext h h.
Proof. constructor; eauto. Qed.

Lemma ext_trans h1 h2 h3 : ext h1 h2 -> ext h2 h3 -> ext h1 h3.
Proof.
  intros [a1 a2 a3 a4 a5] [b1 b2 b3 b4 b5]. constructor; eauto.
  - lia.
  - intros l c H. destruct (a3 _ _ H) as [H'|H']; auto.
  - intros l c H. destruct (a4 _ _ H) as (c' & H1 & H2).
    destruct (b4 _ _ H1) as (c'' & H3 & H4). exists c''. split; congruence.
Qed.

Lemma ext_alloc h c : ext h (h ++ [c]).
Proof.
  constructor.
  - rewrite app_length. lia.
  - induction 1; [eapply safe_state | eapply safe_todo | eapply safe_done]; eauto using nth_error_app_l.
  - eauto using nth_error_app_l.
  - eauto using nth_error_app_l.
  - eauto using nth_error_app_l.
Qed.

Lemma safe_alloc h c : cell_safe h c -> safe (h ++ [c]) (kind c) (length h).
Proof.
  intros H. apply cell_safe_safe.
  - apply nth_error_snoc.
  - eapply cell_safe_mono; [|eassumption]. apply ext_safe. apply ext_alloc.
Qed.

(** ** A cell does not reach itself *)
Definition edge (h : heap) (x y : loc) : Prop :=
  match nth_error h x with
  | Some (RCState st _ _) => In y (rs_ctx st) \/ In y (rs_stack st)
  | Some (RCThunk (RTodo l)) => y = l
  | _ => False
  end.
Inductive reach (h : heap) : loc -> loc -> Prop :=
| reach_refl x : reach h x x
| reach_step x y z : edge h x y -> reach h y z -> reach h x z.

Lemma reach_trans h x y z : reach h x y -> reach h y z -> reach h x z.
Proof. induction 1; auto. intros. econstructor; eauto. Qed.

Lemma reach_cycle h x y : edge h x y -> reach h y x -> exists z, edge h y z /\ reach h z y.
Proof.
  intros He Hr. destruct Hr as [y|y z x Hyz Hzx].
  - exists y. split; auto. constructor.
  - exists z. split; auto. eapply reach_trans; eauto. econstructor; eauto. constructor.
Qed.

Lemma safe_acyclic h b x : safe h b x -> forall y, edge h x y -> ~ reach h y x.
Proof.
  induction 1 as [l st w Hn H1 IH1 H2 IH2|l l' Hn H IH|l t Hn]; intros y He Hr.
  - assert (Hi : (exists z, edge h y z /\ reach h z y)).
    { eapply reach_cycle; eauto. }
    unfold edge in He. rewrite Hn in He. destruct Hi as (z & Hz1 & Hz2).
    destruct He as [He|He]; [eapply IH1|eapply IH2]; eauto.
  - assert (Hi : (exists z, edge h y z /\ reach h z y)).
    { eapply reach_cycle; eauto. }
    unfold edge in He. rewrite Hn in He. subst y. destruct Hi as (z & Hz1 & Hz2). eapply IH; eauto.
  - unfold edge in He. rewrite Hn in He. assumption.
Qed.

Lemma safe_set_unreached h l c b x :
  safe h b x -> ~ reach h x l -> safe (list_set h l c) b x.
Proof.
  intros H. induction H as [x st w Hn H1 IH1 H2 IH2|x l' Hn H IH|x t Hn]; intros Hr.
  - assert (l <> x) by (intros ->; apply Hr; constructor).
    eapply safe_state.
    + rewrite nth_error_list_set_neq; eauto.
    + intros y Hy. apply IH1; auto. intros Hy'. apply Hr. econstructor; [|eassumption].
      unfold edge. rewrite Hn. auto.
    + intros y Hy. apply IH2; auto. intros Hy'. apply Hr. econstructor; [|eassumption].
      unfold edge. rewrite Hn. auto.
  - assert (l <> x) by (intros ->; apply Hr; constructor).
    eapply safe_todo.
    + rewrite nth_error_list_set_neq; eauto.
    + apply IH. intros Hy'. apply Hr. econstructor; [|eassumption]. unfold edge. rewrite Hn. auto.
  - assert (l <> x) by (intros ->; apply Hr; constructor).
    eapply safe_done. rewrite nth_error_list_set_neq; eauto.
Qed.

(** children of a safe cell stay safe while the cell is being evaluated *)
Lemma cell_safe_set h b l c cb :
  safe h b l -> nth_error h l = Some c -> cell_safe h c -> cell_safe (list_set h l cb) c.
Proof.
  intros Hs Hn Hc. pose proof (safe_acyclic _ _ _ Hs) as Ha.
  destruct c as [st w m|[l'| |t]]; cbn in *; auto.
  - destruct Hc as (-> & H1 & H2). repeat split; auto; intros y Hy; apply safe_set_unreached; auto;
      apply Ha; unfold edge; rewrite Hn; auto.
  - apply safe_set_unreached; auto. apply Ha. unfold edge. rewrite Hn. auto.
Qed.

(** evaluating a cell: mark it busy, work, store the result *)
Lemma ext_update h l c cb h2 c' :
  nth_error h l = Some c -> ~ busy c -> busy cb -> kind cb = kind c -> ext (list_set h l cb) h2 ->
  kind c' = kind c -> cell_safe h2 c' ->
  ext h (list_set h2 l c').
Proof.
  intros Hn Hc Hcb Hkb [e1 e2 e3 e4 e5] Hk Hs.
  assert (Hl : l < length h) by (eapply nth_error_lt; eauto).
  assert (Hl2 : l < length h2) by (rewrite length_list_set in e1; lia).
  assert (Hb : nth_error h2 l = Some cb).
  { apply e5; auto. apply nth_error_list_set_eq; auto. }
  assert (S23 : forall b z, safe h2 b z -> safe (list_set h2 l c') b z).
  { intros b z Hz. induction Hz as [z st w Hz H1 IH1 H2 IH2|z z' Hz H IH|z t Hz].
    - assert (l <> z) by (intros ->; rewrite Hb in Hz; injection Hz as ->; cbn in Hcb; congruence).
      eapply safe_state; [rewrite nth_error_list_set_neq; eauto| |]; auto.
    - assert (l <> z) by (intros ->; rewrite Hb in Hz; injection Hz as ->; cbn in Hcb; congruence).
      eapply safe_todo; [rewrite nth_error_list_set_neq; eauto|]; auto.
    - assert (l <> z) by (intros ->; rewrite Hb in Hz; injection Hz as ->; cbn in Hcb; congruence).
      eapply safe_done; rewrite nth_error_list_set_neq; eauto. }
  assert (L3 : nth_error (list_set h2 l c') l = Some c') by (apply nth_error_list_set_eq; auto).
  assert (S3 : safe (list_set h2 l c') (kind c') l).
  { apply cell_safe_safe; auto. eapply cell_safe_mono; eauto. }
  assert (U : forall z cz, l <> z -> nth_error h z = Some cz ->
     nth_error (list_set h2 l c') z = Some cz \/ safe (list_set h2 l c') (kind cz) z).
  { intros z cz Hz Hcz. rewrite <- (nth_error_list_set_neq h l z cb) in Hcz by auto.
    destruct (e3 _ _ Hcz) as [H|H]; auto. left. rewrite nth_error_list_set_neq; auto. }
  constructor.
  - rewrite !length_list_set in *. lia.
  - intros b z Hz. induction Hz as [z st w Hz H1 IH1 H2 IH2|z z' Hz H IH|z t Hz].
    + destruct (Nat.eq_dec l z) as [<-|Hne].
      * rewrite Hn in Hz. injection Hz as ->. cbn in Hk. rewrite Hk in S3. exact S3.
      * destruct (U _ _ Hne Hz) as [H|H]; auto. eapply safe_state; eauto.
    + destruct (Nat.eq_dec l z) as [<-|Hne].
      * rewrite Hn in Hz. injection Hz as ->. cbn in Hk. rewrite Hk in S3. exact S3.
      * destruct (U _ _ Hne Hz) as [H'|H']; auto. eapply safe_todo; eauto.
    + destruct (Nat.eq_dec l z) as [<-|Hne].
      * rewrite Hn in Hz. injection Hz as ->. cbn in Hk. rewrite Hk in S3. exact S3.
      * destruct (U _ _ Hne Hz) as [H'|H']; auto. eapply safe_done; eauto.
  - intros z cz Hz. destruct (Nat.eq_dec l z) as [<-|Hne]; auto.
    right. rewrite Hn in Hz. injection Hz as <-. rewrite <- Hk. exact S3.
  - intros z cz Hz. destruct (Nat.eq_dec l z) as [<-|Hne].
    + exists c'. split; auto. congruence.
    + rewrite <- (nth_error_list_set_neq h l z cb) in Hz by auto.
      rewrite nth_error_list_set_neq by auto. eauto.
  - intros z cz Hz Hbz. destruct (Nat.eq_dec l z) as [<-|Hne].
    + congruence.
    + rewrite <- (nth_error_list_set_neq h l z cb) in Hz by auto.
      rewrite nth_error_list_set_neq by auto. eauto.
Qed.

(** ** Triples *)
Definition triple {A} (h : heap) (m : RM A) (Q : A -> heap -> Prop) : Prop :=
  match m h with
  | Ok (a, h') => ext h h' /\ Q a h'
  | Fuel => True
  | Err _ | Panic => False
  end.
Definition top {A} (_ : A) (_ : heap) : Prop := True.

Lemma triple_bind {A B} h (m : RM A) (k : A -> RM B) Q R :
  triple h m Q -> (forall a h', ext h h' -> Q a h' -> triple h' (k a) R) -> triple h (bind m k) R.
Proof.
  unfold triple, bind. destruct (m h) as [[a h']| | |]; auto. intros [He Hq] Hk.
  specialize (Hk a h' He Hq). destruct (k a h') as [[b h'']| | |]; auto.
  destruct Hk. split; auto. eapply ext_trans; eauto.
Qed.
Lemma triple_ret {A} h (a : A) (Q : A -> heap -> Prop) : Q a h -> triple h (ret a) Q.
Proof. intros H. split; auto. apply ext_refl. Qed.
Lemma triple_nofuel {A} h (Q : A -> heap -> Prop) : triple h nofuel Q.
Proof. exact I. Qed.
Lemma triple_weaken {A} h (m : RM A) (Q R : A -> heap -> Prop) :
  triple h m Q -> (forall a h', ext h h' -> Q a h' -> R a h') -> triple h m R.
Proof. unfold triple. destruct (m h) as [[a h']| | |]; auto. intros [He Hq] Hi. auto. Qed.
Lemma triple_read h l c (Q : rcell -> heap -> Prop) : nth_error h l = Some c -> Q c h -> triple h (r_read l) Q.
Proof. intros H Hq. unfold triple, r_read. rewrite H. split; auto. apply ext_refl. Qed.
Lemma triple_usub h n k (Q : nat -> heap -> Prop) : k <= n -> Q (n - k) h -> triple h (r_usub n k) Q.
Proof. intros H Hq. unfold r_usub. apply Nat.leb_le in H. rewrite H. apply triple_ret. assumption. Qed.

Definition safes h b ls := forall l, In l ls -> safe h b l.
Lemma safes_ext h h' b ls : ext h h' -> safes h b ls -> safes h' b ls.
Proof. intros He H l Hl. eapply ext_safe; eauto. Qed.
Lemma safes_cons h b l ls : safe h b l -> safes h b ls -> safes h b (l :: ls).
Proof. intros H1 H2 x [<-|Hx]; auto. Qed.
Lemma safes_nil h b : safes h b [].
Proof. intros x []. Qed.
Definition st_safe h (st : rstate) := safes h false (rs_ctx st) /\ safes h true (rs_stack st).
Lemma st_safe_ext h h' st : ext h h' -> st_safe h st -> st_safe h' st.
Proof. intros He [? ?]; split; eapply safes_ext; eauto. Qed.

Lemma triple_mapM {A B} (f : A -> RM B) (P : A -> heap -> Prop) l :
  (forall a h h', ext h h' -> P a h -> P a h') ->
  (forall a h, P a h -> triple h (f a) top) ->
  forall h, (forall a, In a l -> P a h) -> triple h (mapM f l) top.
Proof.
  intros Hmono Hf. induction l as [|a l IH]; intros h Hl; cbn.
  - apply triple_ret. exact I.
  - eapply triple_bind; [apply Hf; apply Hl; left; reflexivity|]. intros b h' He _.
    eapply triple_bind; [apply IH; intros; eapply Hmono; eauto; apply Hl; right; assumption|].
    intros; apply triple_ret; exact I.
Qed.

Lemma rsub_safe f (P : heap -> Prop) :
  (forall h h', ext h h' -> P h -> P h') ->
  (forall n k h, P h -> k <= n -> triple h (f n k) top) ->
  forall t k h, P h -> triple h (rsub f t k) top.
Proof.
  intros Hm Hf. induction t; intros k h HP; cbn [rsub]; try (apply triple_ret; exact I).
  - destruct (k <=? n) eqn:E; [|apply triple_ret; exact I]. apply Nat.leb_le in E. auto.
  - eapply triple_bind; [eauto|]. intros a h' He _. eapply triple_bind; [eauto|]. intros; apply triple_ret; exact I.
  - eapply triple_bind; [eauto|]. intros a h' He _. eapply triple_bind; [eauto|]. intros; apply triple_ret; exact I.
  - eapply triple_bind; [eauto|]. intros; apply triple_ret; exact I.
  - eapply triple_bind; [eauto|]. intros a h' He _. eapply triple_bind; [eauto|]. intros; apply triple_ret; exact I.
Qed.

Lemma r_psubst_safe force ctx n k h :
  (forall h l, safe h false l -> triple h (force l) top) ->
  safes h false ctx -> k <= n -> triple h (r_psubst force ctx n k) top.
Proof.
  intros Hf Hs Hk. unfold r_psubst.
  eapply triple_bind; [apply triple_usub with (Q := fun d _ => d = n - k); [assumption|reflexivity]|].
  intros d h' He ->. destruct (nth_error ctx (n - k)) eqn:E.
  - eapply triple_bind; [apply Hf; eapply safes_ext; eauto using nth_error_In|].
    intros; apply triple_ret; exact I.
  - apply nth_error_None in E.
    eapply triple_bind; [apply triple_usub with (Q := top); [lia|exact I]|]. intros; apply triple_ret; exact I.
Qed.

Lemma r_of_state_safe force of_rstate :
  (forall h l, safe h false l -> triple h (force l) top) ->
  (forall h l, safe h true l -> triple h (of_rstate l) top) ->
  forall h st, st_safe h st -> triple h (r_of_state force of_rstate st) top.
Proof.
  intros Hf Hg h [ctx t stack] [H1 H2]. unfold r_of_state. cbn [rs_ctx rs_term rs_stack] in *.
  eapply triple_bind with (Q := top).
  { assert (triple h (rsub (r_psubst force ctx) t 0) top).
    { apply rsub_safe with (P := fun h => safes h false ctx); auto.
      - intros; eapply safes_ext; eauto.
      - intros. now apply r_psubst_safe. }
    destruct ctx; auto. apply triple_ret. exact I. }
  intros t' h' He _.
  eapply triple_bind with (Q := top).
  - apply triple_mapM with (P := fun l h => safe h true l); auto.
    + intros. eapply ext_safe; eauto.
    + intros l Hl. eapply ext_safe; eauto.
  - intros. apply triple_ret. exact I.
Qed.

Lemma triple_borrow h l (Q : rstate -> heap -> Prop) :
  safe h true l -> (forall st w, nth_error h l = Some (RCState st w false) -> st_safe h st -> Q st h) ->
  triple h (r_borrow l) Q.
Proof.
  intros Hs HQ. inversion Hs as [? st w Hn H1 H2| |]; subst. unfold r_borrow.
  eapply triple_bind; [eapply triple_read with (Q := fun c h' => c = RCState st w false /\ h' = h); eauto|].
  intros c h' _ [-> ->]. apply triple_ret. eapply HQ; eauto. split; auto.
Qed.

Lemma triple_eval {A} h l b c cb (m : RM A) (c' : A -> rcell) (Q : A -> heap -> Prop) (R : unit -> heap -> Prop) :
  safe h b l -> nth_error h l = Some c -> busy cb -> kind cb = kind c ->
  (cell_safe (list_set h l cb) c -> triple (list_set h l cb) m Q) ->
  (forall a h', Q a h' -> kind (c' a) = kind c /\ cell_safe h' (c' a)) ->
  (forall a h', R a h') ->
  triple h (bind (r_write l cb) (fun _ => bind m (fun a => r_write l (c' a)))) R.
Proof.
  intros Hs Hn Hb Hk Hm Hc HR.
  destruct (safe_cell _ _ _ Hs) as (c0 & Hn0 & Hk0 & Hs0 & Hb0). rewrite Hn in Hn0. injection Hn0 as <-.
  specialize (Hm (cell_safe_set _ _ _ _ _ Hs Hn Hs0)).
  unfold triple, bind, r_write in *.
  destruct (m (list_set h l cb)) as [[a h']| | |]; auto.
  destruct Hm as [He Hq]. destruct (Hc _ _ Hq) as [Hk' Hs']. split; auto.
  eapply ext_update; eauto.
Qed.

Lemma r_force_safe n :
  (forall h l, safe h false l -> triple h (r_force n l) top) /\
  (forall h l, safe h true l -> triple h (r_of_rstate n l) top).
Proof.
  induction n as [|n [IH1 IH2]].
  - split; intros; apply triple_nofuel.
  - split.
    + intros h l Hs. cbn [r_force]. pose proof Hs as Hs'. inversion Hs as [|? l' Hn Hs1|? t Hn]; subst.
      * eapply triple_bind; [eapply triple_read with (Q := fun c h' => c = RCThunk (RTodo l') /\ h' = h); eauto|].
        intros c h' _ [-> ->].
        unfold triple, bind, r_write, ret in *.
        destruct (safe_cell _ _ _ Hs) as (c0 & Hn0 & Hk0 & Hs0 & Hb0). rewrite Hn in Hn0. injection Hn0 as <-.
        pose proof (cell_safe_set _ _ _ _ (RCThunk RBusy) Hs Hn Hs0) as Hc. cbn in Hc.
        specialize (IH2 _ _ Hc). unfold triple in IH2.
        destruct (r_of_rstate n l' (list_set h l (RCThunk RBusy))) as [[a h']| | |]; auto.
        destruct IH2 as [He _]. split; [|exact I].
        apply ext_update with (c := RCThunk (RTodo l')) (cb := RCThunk RBusy); cbn; auto.
      * eapply triple_bind; [eapply triple_read with (Q := fun c h' => c = RCThunk (RDone t) /\ h' = h); eauto|].
        intros c h' _ [-> ->]. apply triple_ret. exact I.
    + intros h l Hs. cbn [r_of_rstate].
      eapply triple_bind; [apply triple_borrow with (Q := fun st h' => st_safe h' st); eauto|].
      intros st h' He Hst. now apply r_of_state_safe.
Qed.

Lemma triple_alloc h c : cell_safe h c -> triple h (r_alloc c) (fun l h' => safe h' (kind c) l).
Proof. intros H. split; [apply ext_alloc|apply safe_alloc; assumption]. Qed.

(** ** Matching *)
Definition sb_safe h (sb : list (list loc)) := forall ls, In ls sb -> safes h true ls.
Lemma sb_safe_ext h h' sb : ext h h' -> sb_safe h sb -> sb_safe h' sb.
Proof. intros He H ls Hls. eapply safes_ext; eauto. Qed.
Lemma sb_safe_push h sb m l sb' : sb_safe h sb -> safe h true l -> subst_push sb m l = Some sb' -> sb_safe h sb'.
Proof.
  revert m sb'. induction sb as [|ls sb IH]; intros m sb' Hs Hl; cbn; [discriminate|].
  destruct m as [|m].
  - intros [= <-] x [<-|Hx].
    + intros y Hy. apply in_app_or in Hy. destruct Hy as [Hy|[<-|[]]]; auto. eapply Hs; eauto. left; auto.
    + apply Hs. right; auto.
  - destruct (subst_push sb m l) as [sb1|] eqn:E; [|discriminate]. intros [= <-] x [<-|Hx].
    + apply Hs. left; auto.
    + eapply IH; eauto. intros y Hy. apply Hs. right; auto.
Qed.
Definition osb_safe (o : option (list (list loc))) h := match o with Some sb => sb_safe h sb | None => True end.

Section Match.
  Variable rwhnf : loc -> RM unit.
  Hypothesis Hw : forall h l, safe h true l -> triple h (rwhnf l) top.

  Lemma r_match_pat_safe : forall p l sb h, safe h true l -> sb_safe h sb ->
    triple h (r_match_pat rwhnf l p sb) osb_safe.
  Proof.
    fix IH 1. intros [c ps|m|] l sb h Hl Hsb; cbn [r_match_pat].
    - eapply triple_bind; [apply Hw; assumption|]. intros _ h1 He1 _.
      eapply triple_bind; [apply triple_borrow with (Q := fun st h' => st_safe h' st); eauto using ext_safe|].
      intros st h2 He2 [_ Hst].
      destruct (rs_term st); try (apply triple_ret; exact I).
      destruct (_ && _); try (apply triple_ret; exact I).
      assert (He : ext h h2) by eauto using ext_trans.
      pose proof (sb_safe_ext _ _ _ He Hsb) as Hsb2. clear - IH Hst Hsb2.
      revert h2 Hst sb Hsb2. generalize (rs_stack st) as stack.
      induction ps as [|p ps IHps]; intros stack h2 Hst sb Hsb; [apply triple_ret; assumption|].
      destruct stack as [|l' stack]; [apply triple_ret; assumption|].
      eapply triple_bind; [apply IH; auto; apply Hst; left; reflexivity|].
      intros [sb'|] h3 He Hsb'; [|apply triple_ret; exact I].
      apply IHps; auto. eapply safes_ext; eauto. intros x Hx. apply Hst. right; auto.
    - apply triple_ret. destruct (subst_push sb m l) eqn:E; cbn; auto. eapply sb_safe_push; eauto.
    - apply triple_ret. exact Hsb.
  Qed.

  Lemma r_match_pats_safe : forall ps stack sb h, safes h true stack -> sb_safe h sb ->
    triple h (r_match_pats rwhnf stack ps sb) osb_safe.
  Proof.
    induction ps as [|p ps IH]; intros stack sb h Hst Hsb; cbn [r_match_pats]; [apply triple_ret; assumption|].
    destruct stack as [|l' stack]; [apply triple_ret; assumption|].
    eapply triple_bind; [apply r_match_pat_safe; auto; apply Hst; left; reflexivity|].
    intros [sb'|] h3 He Hsb'; [|apply triple_ret; exact I].
    apply IH; auto. eapply safes_ext; eauto. intros x Hx. apply Hst. right; auto.
  Qed.

  Variable conv : tm -> tm -> RM bool.
  Hypothesis Hc : forall h t u, triple h (conv t u) top.
  Variable n : nat.

  Definition ol_safe (o : option loc) h := match o with Some l => safe h false l | None => True end.

  Lemma r_all_conv_loop_safe : forall ls t h, safe h false t -> safes h true ls ->
    triple h (r_all_conv_loop conv n t ls) ol_safe.
  Proof.
    induction ls as [|l ls IH]; intros t h Ht Hls; cbn [r_all_conv_loop]; [apply triple_ret; assumption|].
    eapply triple_bind; [apply r_force_safe; assumption|]. intros t1 h1 He1 _.
    eapply triple_bind; [apply r_force_safe; eapply ext_safe; eauto; apply Hls; left; reflexivity|].
    intros t2 h2 He2 _. eapply triple_bind; [apply Hc|]. intros b h3 He3 _.
    assert (He : ext h h3) by eauto using ext_trans.
    destruct b; [|apply triple_ret; exact I].
    apply IH; [eapply ext_safe; eauto|]. eapply safes_ext; eauto. intros x Hx. apply Hls; right; auto.
  Qed.

  Lemma r_all_conv_safe ls h : safes h true ls -> triple h (r_all_conv conv n ls) ol_safe.
  Proof.
    intros Hls. destruct ls as [|l ls]; cbn [r_all_conv]; [apply triple_ret; exact I|].
    eapply triple_bind; [apply triple_alloc; cbn; apply Hls; left; reflexivity|].
    intros t h' He Ht. apply r_all_conv_loop_safe; auto.
    eapply safes_ext; eauto. intros x Hx. apply Hls; right; auto.
  Qed.

  Definition octx_safe (o : option (list loc)) h := match o with Some ls => safes h false ls | None => True end.

  Lemma r_flatten_safe : forall sb h, sb_safe h sb -> triple h (r_flatten conv n sb) octx_safe.
  Proof.
    induction sb as [|ls sb IH]; intros h Hsb; cbn [r_flatten].
    - apply triple_ret. apply safes_nil.
    - eapply triple_bind; [apply IH; intros x Hx; apply Hsb; right; auto|].
      intros [ctx|] h1 He1 Hctx; [|apply triple_ret; exact I].
      eapply triple_bind; [apply r_all_conv_safe; eapply safes_ext; eauto; apply Hsb; left; auto|].
      intros [t|] h2 He2 Ht; apply triple_ret; [|exact I].
      apply safes_cons; auto. eapply safes_ext; eauto.
  Qed.

  Lemma r_first_match_safe stack : forall rules h, safes h true stack ->
    triple h (r_first_match rwhnf conv n stack rules)
      (fun o h' => match o with Some (ctx, r) => safes h' false ctx /\ length (sr_args r) <= length stack | None => True end).
  Proof.
    induction rules as [|r rules IH]; intros h Hst; cbn [r_first_match]; [apply triple_ret; exact I|].
    eapply triple_bind with (Q := fun o h' => octx_safe o h' /\ (o <> None -> length (sr_args r) <= length stack)).
    - unfold r_match_flatten, r_match_rule. destruct (_ <? _) eqn:E.
      + eapply triple_bind; [apply triple_ret with (Q := fun o _ => o = None); reflexivity|].
        intros o h' _ ->. apply triple_ret. split; [exact I|congruence].
      + apply Nat.ltb_ge in E.
        eapply triple_bind; [apply r_match_pats_safe; auto; intros x Hx; apply repeat_spec in Hx; subst; apply safes_nil|].
        intros [sb|] h' He Hsb; [|apply triple_ret; split; [exact I|congruence]].
        eapply triple_weaken; [apply r_flatten_safe; exact Hsb|]. intros; split; auto.
    - intros [ctx|] h' He [Hctx Hl]; [|apply IH; eapply safes_ext; eauto].
      apply triple_ret. split; auto. apply Hl. congruence.
  Qed.
End Match.

Lemma r_fresh_safe {A} (m : RM A) Q h : triple [] m Q -> triple h (r_fresh m) top.
Proof.
  unfold triple, r_fresh. destruct (m []) as [[a h']| | |]; auto. intros _. split; [apply ext_refl|exact I].
Qed.

Lemma r_unwind_safe ctx : forall t stack h, safes h false ctx -> safes h true stack ->
  triple h (r_unwind ctx t stack)
    (fun '(t', stack') h' => safes h' true stack' /\ match t' with App _ _ => False | _ => True end).
Proof.
  induction t; intros stack h Hc Hs; cbn [r_unwind]; try (apply triple_ret; auto).
  eapply triple_bind; [apply triple_alloc; cbn; repeat split; auto; intros x []|].
  intros l h' He Hl. apply IHt1; [eapply safes_ext; eauto|].
  apply safes_cons; auto. eapply safes_ext; eauto.
Qed.

Section Machine.
  Variable sg : sig.

  Lemma r_rwhnf_safe w :
    (forall h st, st_safe h st -> triple h (w st) (fun st' h' => st_safe h' st')) ->
    forall h l, safe h true l -> triple h (r_rwhnf w l) top.
  Proof.
    intros Hw h l Hs. pose proof Hs as Hs'. inversion Hs as [? st wh Hn H1 H2| |]; subst. unfold r_rwhnf.
    eapply triple_bind; [eapply triple_read with (Q := fun c h' => c = RCState st wh false /\ h' = h); eauto|].
    intros c h' _ [-> ->]. destruct wh; [apply triple_ret; exact I|].
    eapply triple_eval with (c := RCState st false false) (c' := fun st => RCState st true false)
      (Q := fun st' h' => st_safe h' st'); eauto.
    - reflexivity.
    - intros (_ & G1 & G2). apply Hw. split; auto.
    - intros st' h' [G1 G2]. cbn. auto.
    - exact (fun _ _ => I).
  Qed.

  Lemma r_head_safe n w conv :
    (forall h st, st_safe h st -> triple h (w st) (fun st' h' => st_safe h' st')) ->
    (forall h t u, triple h (conv t u) top) ->
    forall h ctx t stack, match t with App _ _ => False | _ => True end ->
      safes h false ctx -> safes h true stack ->
      triple h (r_head sg n w conv ctx t stack) (fun st' h' => st_safe h' st').
  Proof.
    intros Hw Hc h ctx t stack Ht Hctx Hst. unfold r_head.
    assert (Hlam : forall b, triple h (match stack with [] => ret (RState ctx t stack)
        | l :: stack => bind (r_thunk_new l) (fun th => w (RState (th :: ctx) b stack)) end) (fun st' h' => st_safe h' st')).
    { intros b. destruct stack as [|l stack]; [apply triple_ret; split; auto|].
      eapply triple_bind; [apply triple_alloc; cbn; apply Hst; left; auto|].
      intros th h' He Hth. apply Hw. split; cbn.
      - apply safes_cons; auto. eapply safes_ext; eauto.
      - eapply safes_ext; eauto. intros x Hx. apply Hst; right; auto. }
    destruct t; try contradiction; try (apply triple_ret; split; assumption); auto.
    - destruct (sg_rules sg c) as [rules|]; [|apply triple_ret; split; assumption].
      eapply triple_bind; [apply r_first_match_safe; auto; intros; apply r_rwhnf_safe; auto|].
      intros [[ctx' r]|] h' He; [|intros _; apply triple_ret; split; eapply safes_ext; eauto].
      intros [Hctx' Hl].
      eapply triple_bind; [apply triple_usub with (Q := top); [assumption|exact I]|].
      intros _ h'' He' _. apply Hw. split; cbn.
      + eapply safes_ext; eauto.
      + intros x Hx. eapply ext_safe; eauto. eapply ext_safe; eauto. apply Hst.
        rewrite <- (firstn_skipn (length (sr_args r)) stack). apply in_or_app. auto.
    - destruct (nth_error ctx n0) eqn:E.
      + eapply triple_bind; [apply r_force_safe; apply Hctx; eauto using nth_error_In|].
        intros t h' He _. apply Hw. split; cbn; [apply safes_nil|]. eapply safes_ext; eauto.
      + apply nth_error_None in E.
        eapply triple_bind; [apply triple_usub with (Q := top); [assumption|exact I]|].
        intros m h' He _. apply triple_ret. split; cbn; [apply safes_nil|]. eapply safes_ext; eauto.
  Qed.

  Lemma r_whnf__safe n w t h :
    (forall h st, st_safe h st -> triple h (w st) (fun st' h' => st_safe h' st')) ->
    triple h (r_whnf_ n w t) top.
  Proof.
    intros Hw. eapply r_fresh_safe with (Q := top). eapply triple_bind; [apply Hw; split; apply safes_nil|].
    intros st h' He Hst. apply r_of_state_safe; auto; intros; apply r_force_safe; auto.
  Qed.

  Lemma r_machine_safe n :
    (forall h st, st_safe h st -> triple h (r_state_whnf sg n st) (fun st' h' => st_safe h' st')) /\
    (forall h cns, triple h (r_conv_loop sg n cns) top).
  Proof.
    induction n as [|n [IH1 IH2]].
    - split; intros; apply triple_nofuel.
    - split.
      + intros h [ctx t stack] [Hctx Hst]. cbn [r_state_whnf rs_ctx rs_term rs_stack] in *.
        eapply triple_bind; [apply r_unwind_safe; assumption|]. intros [t' stack'] h' He [Hst' Ht'].
        apply r_head_safe; auto. eapply safes_ext; eauto.
      + intros h [|[t u] cns]; cbn [r_conv_loop]; [apply triple_ret; exact I|].
        destruct (tm_eq_dec t u); auto.
        eapply triple_bind; [apply r_whnf__safe; auto|]. intros w1 h1 _ _.
        eapply triple_bind; [apply r_whnf__safe; auto|]. intros w2 h2 _ _.
        destruct (r_step _ w1 w2); auto. apply triple_ret; exact I.
  Qed.

  (** Convertibility and evaluation of terms return or run forever, and do not touch the heap. *)
  Lemma r_whnf_safe n t h : triple h (r_whnf sg n t) top.
  Proof. apply r_whnf__safe. apply r_machine_safe. Qed.
  Lemma r_conv_safe n cns h : triple h (r_conv_loop sg n cns) top.
  Proof. apply r_machine_safe. Qed.
End Machine.
