(** * The model computes the same as the reference machine, whatever the uniqueness oracle says *)

From Verif Require Import Base LibMono ModelTerm ModelGctx ModelSubst ModelReduce SpecTerm SpecConv
  RefMachine RefMono RefSafe Erase.

Definition not_appl (t : sterm) : Prop := match get_comb t with Some (Appl _ _) => False | _ => True end.

(** states on which the machine stops *)
Definition head_ok (st : state) : Prop :=
  not_appl (s_term st) /\ match s_term st with SVar _ => s_ctx st = [] | _ => True end.

(** Cells marked as evaluated contain states on which the machine stops. *)
Definition hinv (s : mst) : Prop :=
  forall l st b, nth_error (m_heap s) l = Some (CState st true b) -> head_ok st.

(** [simm f P m m']: if [m] returns, then [m'] returns the same up to [f], [P] holds of the result,
    and [hinv] is preserved. *)
Definition simm {A B} (f : A -> B) (P : A -> Prop) (m : M A) (m' : RM B) : Prop :=
  forall s, hinv s ->
            match m s with
            | Ok (a, s') => m' (erh s) = Ok (f a, erh s') /\ P a /\ hinv s'
            | Err e => m' (erh s) = Err e
            | Panic => m' (erh s) = Panic
            | Fuel => True
            end.
Definition any {A} (_ : A) : Prop := True.
Ltac s3 := split; [try reflexivity|split; [try exact I; auto|auto]].

Lemma simm_ret {A B} (f : A -> B) (P : A -> Prop) a b : b = f a -> P a -> simm f P (ret a) (ret b).
Proof. intros -> H s Hs. s3. Qed.
Lemma simm_nofuel {A B} (f : A -> B) P m : simm f P nofuel m.
Proof. intros s Hs. exact I. Qed.
Lemma simm_panic {A B} (f : A -> B) P : simm f P panic panic.
Proof. intros s Hs. reflexivity. Qed.
Lemma simm_fail {A B} (f : A -> B) P e : simm f P (fail e) (fail e).
Proof. intros s Hs. reflexivity. Qed.
Lemma simm_bind {A A' B B'} (f : A -> A') (g : B -> B') P Q m m' k k' :
  simm f P m m' -> (forall a, P a -> simm g Q (k a) (k' (f a))) -> simm g Q (bind m k) (bind m' k').
Proof.
  intros Hm Hk s Hs. unfold bind. specialize (Hm s Hs). destruct (m s) as [[a s']|e| |]; auto.
  - destruct Hm as (-> & Ha & Hs'). apply Hk; assumption.
  - rewrite Hm. reflexivity.
  - rewrite Hm. reflexivity.
Qed.
(** the right-hand side does an administrative step less *)
Lemma simm_bind_l {A B B'} (f : A -> unit) (g : B -> B') P Q m k k' :
  simm f P m (ret tt) -> (forall a, P a -> simm g Q (k a) k') -> simm g Q (bind m k) k'.
Proof.
  intros Hm Hk s Hs. unfold bind. specialize (Hm s Hs). destruct (m s) as [[a s']|e| |]; auto.
  - destruct Hm as (Hr & Ha & Hs'). specialize (Hk a Ha s' Hs'). injection Hr as _ ->. exact Hk.
  - discriminate Hm.
  - discriminate Hm.
Qed.
Definition eqm {S E A} (m1 m2 : SM S E A) : Prop := forall s, m1 s = m2 s.
Lemma simm_eqm {A B} (f : A -> B) P m m1 m2 : eqm m1 m2 -> simm f P m m1 -> simm f P m m2.
Proof. intros He H s Hs. specialize (H s Hs). rewrite <- He. exact H. Qed.
Lemma simm_eqm_l {A B} (f : A -> B) P m1 m2 m : eqm m1 m2 -> simm f P m1 m -> simm f P m2 m.
Proof. intros He H s Hs. specialize (H s Hs). rewrite <- He. exact H. Qed.
Lemma simm_le {A B} (f : A -> B) P m m1 m2 : le_m m1 m2 -> simm f P m m1 -> simm f P m m2.
Proof.
  intros He H s Hs. specialize (H s Hs). destruct (He (erh s)) as [Hf|Hf].
  - rewrite Hf in H. destruct (m s) as [[a s']|e| |]; try discriminate; auto. destruct H; discriminate.
  - rewrite <- Hf. exact H.
Qed.
Lemma simm_post {A B} (f : A -> B) (P Q : A -> Prop) m m' :
  (forall a, P a -> Q a) -> simm f P m m' -> simm f Q m m'.
Proof. intros HQ H s Hs. specialize (H s Hs). destruct (m s) as [[a s']|e| |]; auto. intuition. Qed.

Lemma bind_bind {S E A B C} (m : SM S E A) (k : A -> SM S E B) (k' : B -> SM S E C) :
  eqm (bind (bind m k) k') (bind m (fun a => bind (k a) k')).
Proof. intros s. unfold bind. destruct (m s) as [[a s']|e| |]; auto. Qed.
Lemma bind_ret_l {S E A B} (a : A) (k : A -> SM S E B) : eqm (bind (ret a) k) (k a).
Proof. intros s. reflexivity. Qed.
Lemma bind_ret_r {S E A} (m : SM S E A) : eqm (bind m ret) m.
Proof. intros s. unfold bind, ret. destruct (m s) as [[a s']|e| |]; auto. Qed.
Lemma eqm_refl {S E A} (m : SM S E A) : eqm m m.
Proof. intros s. reflexivity. Qed.
Lemma eqm_sym {S E A} (m m' : SM S E A) : eqm m m' -> eqm m' m.
Proof. intros H s. symmetry. apply H. Qed.
Lemma eqm_trans {S E A} (m1 m2 m3 : SM S E A) : eqm m1 m2 -> eqm m2 m3 -> eqm m1 m3.
Proof. intros H1 H2 s. rewrite H1. apply H2. Qed.
Lemma eqm_bind {S E A B} (m m' : SM S E A) (k k' : A -> SM S E B) :
  eqm m m' -> (forall a, eqm (k a) (k' a)) -> eqm (bind m k) (bind m' k').
Proof. intros H1 H2 s. unfold bind. rewrite H1. destruct (m' s) as [[a s']|e| |]; auto. apply H2. Qed.

Lemma simm_mapM {A B A' B'} (g : A -> A') (f : B -> B') (Q : A -> B -> Prop) (F : A -> M B) (F' : A' -> RM B') l :
  (forall a, In a l -> simm f (Q a) (F a) (F' (g a))) ->
  simm (map f) (Forall2 Q l) (mapM F l) (mapM F' (map g l)).
Proof.
  induction l as [|a l IH]; intros H; cbn [mapM map].
  - apply simm_ret; auto.
  - eapply simm_bind; [apply H; left; reflexivity|]. intros b Hb.
    eapply simm_bind; [apply IH; intros; apply H; right; assumption|]. intros bs Hbs.
    apply simm_ret; auto.
Qed.

(** ** Heap operations *)
Definition not_whnfed (c : cell) : Prop := match c with CState _ true _ => False | _ => True end.
Lemma simm_alloc c c' : not_whnfed c -> c' = er_cell c -> simm id any (alloc c) (r_alloc c').
Proof.
  intros Hw -> s Hs. unfold alloc, r_alloc, erh. cbn. rewrite map_length, map_app.
  s3. intros l st b. cbn. intros H. destruct (lt_dec l (length (m_heap s))).
  - rewrite nth_error_app1 in H by assumption. eapply Hs; eassumption.
  - rewrite nth_error_app2 in H by lia. destruct (l - length (m_heap s)) as [|[|?]]; try discriminate.
    injection H as ->. contradiction.
Qed.
Lemma simm_read l : simm er_cell any (read l) (r_read l).
Proof.
  intros s Hs. unfold read, r_read, erh. rewrite nth_error_map.
  destruct (nth_error (m_heap s) l); cbn; auto. s3.
Qed.
Lemma map_list_set {A B} (f : A -> B) l n a : map f (list_set l n a) = list_set (map f l) n (f a).
Proof. revert n. induction l; intros [|n]; cbn; auto. now rewrite IHl. Qed.
Lemma simm_write l c c' : (forall st b, c = CState st true b -> head_ok st) -> c' = er_cell c ->
  simm id any (write l c) (r_write l c').
Proof.
  intros Hc -> s Hs. unfold write, r_write, erh. cbn. rewrite map_list_set. s3.
  intros l' st b. cbn. intros H. destruct (Nat.eq_dec l l') as [<-|Hne].
  - destruct (lt_dec l (length (m_heap s))).
    + rewrite nth_error_list_set_eq in H by assumption. injection H as ->. eapply Hc; reflexivity.
    + assert (nth_error (list_set (m_heap s) l c) l = None) by (apply nth_error_None; rewrite length_list_set; lia).
      congruence.
  - rewrite nth_error_list_set_neq in H by assumption. eapply Hs; eassumption.
Qed.
Lemma simm_usub n k : simm id any (usub n k) (r_usub n k).
Proof. unfold usub, r_usub. destruct (k <=? n); [apply simm_ret; [reflexivity|exact I]|apply simm_panic]. Qed.
Lemma simm_borrow l : simm er_state any (borrow_state l) (r_borrow l).
Proof.
  unfold borrow_state, r_borrow. eapply simm_bind; [apply simm_read|]. intros c _.
  destruct c as [st w [|]|th]; cbn; try apply simm_panic. apply simm_ret; [reflexivity|exact I].
Qed.

Section Sim.
  Variable uniq : nat -> bool.

  Lemma simm_is_unique : simm (fun _ => tt) any (is_unique uniq) (ret tt).
  Proof. intros s Hs. s3. Qed.

  (** ** Substitution *)
  Lemma rsub_apps f us : forall t k,
    eqm (rsub f (apps t us) k)
        (bind (rsub f t k) (fun t' => bind (mapM (fun u => rsub f u k) us) (fun us' => ret (apps t' us')))).
  Proof.
    induction us as [|u us IH]; intros t k; cbn [apps mapM].
    - intros s. unfold bind, ret. destruct (rsub f t k s) as [[a s']|e| |]; auto.
    - eapply eqm_trans; [apply IH|]. cbn [rsub].
      eapply eqm_trans; [apply bind_bind|]. apply eqm_bind; [apply eqm_refl|]. intros t'.
      eapply eqm_trans; [apply bind_bind|]. eapply eqm_trans; [|apply eqm_sym, bind_bind].
      apply eqm_bind; [apply eqm_refl|]. intros u'.
      eapply eqm_trans; [apply bind_ret_l|]. eapply eqm_trans; [|apply eqm_sym, bind_bind].
      apply eqm_bind; [apply eqm_refl|]. intros us'. eapply eqm_trans; [|apply eqm_sym, bind_ret_l]. apply eqm_refl.
  Qed.

  Lemma fold_or_false (ps : list (sterm * bool)) : forall b,
    fold_left (fun ch p => snd p || ch) ps b = false -> b = false /\ Forall (fun p => snd p = false) ps.
  Proof.
    induction ps as [|[t c] ps IH]; cbn; intros b H; auto.
    apply IH in H. destruct H as [H1 H2]. apply orb_false_iff in H1. destruct H1. auto.
  Qed.

  Definition unchanged (t : tm) (p : sterm * bool) : Prop := snd p = false -> ers (fst p) = t.
  Notation erfst := (fun p : sterm * bool => ers (fst p)).

  Section ApplySubst.
    Variable sb : nat -> nat -> M sterm.
    Variable f : nat -> nat -> RM tm.
    Hypothesis Hsb : forall n k, k <= n -> simm ers any (sb n k) (f n k).

    Lemma comb_apply_subst_sim {T} (er : T -> tm) (go : T -> nat -> M (sterm * bool)) c :
      comb_all (fun t => forall k, simm erfst (unchanged (er t)) (go t k) (rsub f (er t) k)) c ->
      forall k, simm (fun p : scomb * bool => er_comb ers (fst p))
                     (fun p => snd p = false -> er_comb ers (fst p) = er_comb er c)
                     (comb_apply_subst go c k) (rsub f (er_comb er c) k).
    Proof.
      destruct c as [h args|id a b|id [a|] b]; cbn [comb_all er_comb comb_apply_subst]; intros Hall k.
      - destruct Hall as [Hh Ha]. eapply simm_eqm; [apply eqm_sym, rsub_apps|].
        eapply simm_bind; [apply Hh|]. intros [h' ch] Hh'.
        eapply simm_bind with (f := map erfst).
        + apply simm_mapM with (g := er) (Q := fun t => unchanged (er t)).
          intros a Hin. rewrite Forall_forall in Ha. apply Ha. assumption.
        + intros ps Hps. apply simm_ret.
          * cbn. rewrite map_map. reflexivity.
          * cbn. intros Hf. apply fold_or_false in Hf. destruct Hf as [-> Hf].
            unfold unchanged in Hh'. cbn in Hh'. rewrite Hh' by reflexivity. f_equal.
            rewrite map_map. clear - Hps Hf. revert Hf. induction Hps; intros Hf; cbn; auto.
            inversion Hf; subst. f_equal; auto.
      - destruct Hall as [Ha Hb]. cbn [rsub].
        eapply simm_bind; [apply Ha|]. intros [a' ch] Ha'. eapply simm_bind; [apply Hb|]. intros [b' ch'] Hb'.
        apply simm_ret; cbn; auto. intros Hf. apply orb_false_iff in Hf. destruct Hf as [-> ->].
        unfold unchanged in *; cbn in *. rewrite Ha', Hb'; auto.
      - destruct Hall as [Ha Hb]. cbn [rsub].
        eapply simm_bind; [apply Hb|]. intros [b' ch'] Hb'. eapply simm_bind; [apply Ha|]. intros [a' ch] Ha'.
        apply simm_ret; cbn; auto. intros Hf. apply orb_false_iff in Hf. destruct Hf as [-> ->].
        unfold unchanged in *; cbn in *. rewrite Ha', Hb'; auto.
      - destruct Hall as [_ Hb]. cbn [rsub].
        eapply simm_bind; [apply Hb|]. intros [b' ch'] Hb'.
        apply simm_ret; cbn; auto. intros ->.
        unfold unchanged in *; cbn in *. rewrite Hb'; auto.
    Qed.

    Lemma apply_subst_l_sim t : forall k,
      simm erfst (unchanged (erl t)) (apply_subst_l sb t k) (rsub f (erl t) k).
    Proof.
      induction t as [|c|n|c IH] using lterm_ind'; intros k; cbn [apply_subst_l erl].
      - cbn [rsub]. apply simm_ret; [reflexivity|]. intros _; reflexivity.
      - cbn [rsub]. apply simm_ret; [reflexivity|]. intros _; reflexivity.
      - cbn [rsub]. destruct (k <=? n) eqn:E.
        + eapply simm_eqm; [apply bind_ret_r|]. eapply simm_bind; [apply Hsb; now apply Nat.leb_le|].
          intros t' _. apply simm_ret; auto. intros H. discriminate.
        + apply simm_ret; [reflexivity|]. intros _; reflexivity.
      - eapply simm_eqm; [apply bind_ret_r|]. eapply simm_bind; [apply comb_apply_subst_sim; exact IH|].
        intros [c' ch] Hc. apply simm_ret; auto.
    Qed.

    Lemma apply_subst_sim t : forall k,
      simm erfst (unchanged (ers t)) (apply_subst uniq sb t k) (rsub f (ers t) k).
    Proof.
      induction t as [| |c|n|c|c IH] using sterm_ind'; intros k; cbn [apply_subst ers].
      - cbn [rsub]. apply simm_ret; [reflexivity|]. intros _; reflexivity.
      - cbn [rsub]. apply simm_ret; [reflexivity|]. intros _; reflexivity.
      - cbn [rsub]. apply simm_ret; [reflexivity|]. intros _; reflexivity.
      - cbn [rsub]. destruct (k <=? n) eqn:E.
        + eapply simm_eqm; [apply bind_ret_r|]. eapply simm_bind; [apply Hsb; now apply Nat.leb_le|].
          intros t' _. apply simm_ret; auto. intros H. discriminate.
        + apply simm_ret; [reflexivity|]. intros _; reflexivity.
      - eapply simm_eqm; [apply bind_ret_r|]. eapply simm_bind.
        + apply comb_apply_subst_sim. apply comb_all_intro. apply apply_subst_l_sim.
        + intros [c' ch] Hc. apply simm_ret; auto.
      - eapply simm_bind_l; [apply simm_is_unique|]. intros u _.
        eapply simm_eqm; [apply bind_ret_r|]. eapply simm_bind; [apply comb_apply_subst_sim; exact IH|].
        intros [c' ch] Hc. cbn in Hc. destruct u; [|destruct ch].
        + apply simm_ret; auto.
        + apply simm_ret; auto.
        + apply simm_ret; cbn; auto. intros _; reflexivity.
    Qed.
  End ApplySubst.

  (** pure substitutions *)
  Lemma rsub_pure f s :
    (forall n k, k <= n -> f n k = ret (ren (fun x => x + k) (s (n - k)))) ->
    forall t k, eqm (rsub f t k) (ret (sub (fun n => if n <? k then Var n else ren (fun x => x + k) (s (n - k))) t)).
  Proof.
    intros Hf.
    assert (Hup : forall t k, sub (fun n => if n <? k + 1 then Var n else ren (fun x => x + (k + 1)) (s (n - (k + 1)))) t =
       sub (up (fun n => if n <? k then Var n else ren (fun x => x + k) (s (n - k)))) t).
    { intros t k. apply sub_ext. intros [|n]; cbn [up].
      - destruct (Nat.ltb_spec 0 (k + 1)); [reflexivity|lia].
      - destruct (Nat.ltb_spec (S n) (k + 1)); destruct (Nat.ltb_spec n k); try lia; cbn [ren]; auto.
        rewrite ren_ren. replace (S n - (k + 1)) with (n - k) by lia. apply ren_ext. intros; lia. }
    induction t; intros k h; cbn [rsub sub]; try reflexivity.
    - destruct (Nat.leb_spec k n); destruct (Nat.ltb_spec n k); try lia; auto. now rewrite Hf.
    - unfold bind. rewrite IHt1. unfold ret at 1. rewrite IHt2. reflexivity.
    - unfold bind. rewrite IHt2. unfold ret at 1. rewrite IHt1. rewrite Hup. reflexivity.
    - unfold bind. rewrite IHt. rewrite Hup. reflexivity.
    - unfold bind. rewrite IHt1. unfold ret at 1. rewrite IHt2. rewrite Hup. reflexivity.
  Qed.

  Lemma rsub_pure_0 f s t :
    (forall n k, k <= n -> f n k = ret (ren (fun x => x + k) (s (n - k)))) ->
    eqm (rsub f t 0) (ret (sub s t)).
  Proof.
    intros H h. rewrite (rsub_pure f s H t 0 h). unfold ret. do 2 f_equal. apply sub_ext.
    intros n. cbn. rewrite Nat.sub_0_r. apply ren_id_ext. intros; lia.
  Qed.

  Lemma shift_mut_sim t k : simm ers any (shift_mut uniq t k) (ret (lift k (ers t))).
  Proof.
    unfold lift. rewrite ren_as_sub. unfold shift_mut. eapply simm_eqm.
    - eapply eqm_trans; [apply bind_ret_r|].
      apply rsub_pure_0 with (s := fun n => Var (n + k)) (f := fun n _ => ret (Var (n + k))).
      intros n j Hj. cbn. do 2 f_equal. lia.
    - eapply simm_bind.
      + apply apply_subst_sim. intros n j Hj. apply simm_ret; [reflexivity|exact I].
      + intros [t' ch] _. apply simm_ret; [reflexivity|exact I].
  Qed.

  Lemma shift_sim t k : simm ers any (shift uniq t k) (ret (lift k (ers t))).
  Proof.
    unfold shift. destruct (k =? 0) eqn:E.
    - apply Nat.eqb_eq in E. subst. rewrite lift_0. apply simm_ret; [reflexivity|exact I].
    - apply shift_mut_sim.
  Qed.

  Lemma subst_sim t u : simm ers any (subst uniq t u) (ret (subst1 (ers u) (ers t))).
  Proof.
    unfold subst, subst1. eapply simm_eqm.
    - eapply eqm_trans; [apply bind_ret_r|].
      apply rsub_pure_0 with (s := scons (ers u) Var)
        (f := fun n k => ret (if n =? k then lift k (ers u) else Var (n - 1))).
      intros n k Hk. destruct (Nat.eqb_spec n k).
      + subst. rewrite Nat.sub_diag. reflexivity.
      + destruct (n - k) eqn:E; [lia|]. cbn. do 2 f_equal. lia.
    - eapply simm_bind.
      + apply apply_subst_sim. intros n k Hk. unfold psubst_single.
        destruct (Nat.eqb_spec n k); [apply shift_sim|].
        intros s Hs. unfold bind, usub. destruct (Nat.leb_spec 1 n); [|lia]. cbn. s3.
      + intros [t' ch] _. apply simm_ret; [reflexivity|exact I].
  Qed.

  (** ** Application *)
  Lemma apply_sim t args args' P : simm (map ers) P args args' ->
    simm ers (fun r => not_appl t -> exists us, P us /\ r = SSComb (Appl t us))
      (apply uniq t args) (bind args' (fun us => ret (apps (ers t) us))).
  Proof.
    intros Ha.
    assert (Hdef : simm ers (fun r => not_appl t -> exists us, P us /\ r = SSComb (Appl t us))
      (bind args (fun us => ret (SSComb (Appl t us)))) (bind args' (fun us => ret (apps (ers t) us)))).
    { eapply simm_bind; [apply Ha|]. intros us Hus. apply simm_ret; cbn; eauto. }
    unfold apply. destruct t as [| |c|n|c|[f args1|id a b|id a b]]; auto.
    eapply simm_bind_l; [apply simm_is_unique|]. intros u _.
    eapply simm_bind; [apply Ha|]. intros us Hus.
    destruct u; apply simm_ret; cbn; try tauto. rewrite map_app, apps_app. reflexivity.
  Qed.

  Lemma shift_app_sim t : simm ers any (shift_app uniq t) (ret (r_shift_app (ers t))).
  Proof.
    unfold shift_app, r_shift_app.
    apply simm_eqm with (m1 := bind (ret (lift 1 (ers t))) (fun t => bind (ret [Var 0]) (fun us => ret (apps t us)))).
    - intros s. reflexivity.
    - eapply simm_bind; [apply shift_mut_sim|]. intros t' _.
      eapply simm_post; [|apply apply_sim with (P := any)]; [intros; exact I|].
      apply simm_ret; [reflexivity|exact I].
  Qed.

  (** ** Reading back *)
  Lemma psubst_sim force force' args n k :
    (forall l, simm ers any (force l) (force' l)) -> k <= n ->
    simm ers any (psubst uniq force args n k) (r_psubst force' args n k).
  Proof.
    intros Hf Hk. unfold psubst, r_psubst. eapply simm_bind; [apply simm_usub|]. intros d _. unfold id.
    destruct (nth_error args d).
    - eapply simm_bind; [apply Hf|]. intros t _. apply shift_sim.
    - eapply simm_bind; [apply simm_usub|]. intros m _. apply simm_ret; [reflexivity|exact I].
  Qed.

  Lemma comb_apply_subst_shape {T} (go : T -> nat -> M (sterm * bool)) c k s r :
    (forall h a, c <> Appl h a) -> comb_apply_subst go c k s = Ok r -> forall h a, fst (fst r) <> Appl h a.
  Proof.
    intros Hc. destruct c as [h args|id a b|id [a|] b]; cbn.
    - exfalso. eapply Hc; reflexivity.
    - unfold bind. destruct (go a k s) as [[[? ?] s1]| | |]; try discriminate.
      destruct (go b (k + 1) s1) as [[[? ?] s2]| | |]; try discriminate. intros [= <-] h a'. discriminate.
    - unfold bind. destruct (go b (k + 1) s) as [[[? ?] s1]| | |]; try discriminate.
      destruct (go a k s1) as [[[? ?] s2]| | |]; try discriminate. intros [= <-] h a'. discriminate.
    - unfold bind. destruct (go b (k + 1) s) as [[[? ?] s1]| | |]; try discriminate.
      intros [= <-] h a'. discriminate.
  Qed.

  Lemma apply_subst_not_appl sb t k s r :
    not_appl t -> (forall n, t <> SVar n) -> apply_subst uniq sb t k s = Ok r -> not_appl (fst (fst r)).
  Proof.
    intros Hn Hv. destruct t as [| |c|n|c|c]; cbn [apply_subst].
    - intros [= <-]. exact I.
    - intros [= <-]. exact I.
    - intros [= <-]. exact I.
    - exfalso. eapply Hv; reflexivity.
    - unfold bind. destruct (comb_apply_subst _ c k s) as [[[c' ch] s']| | |] eqn:E; try discriminate.
      intros [= <-]. cbn.
      assert (Hc : forall h a, c <> Appl h a) by (intros h a ->; exact Hn).
      pose proof (comb_apply_subst_shape _ _ _ _ _ Hc E) as E'. cbn in E'.
      unfold not_appl. cbn. destruct c'; auto. eapply E'; reflexivity.
    - unfold bind, is_unique.
      destruct (comb_apply_subst _ c k _) as [[[c' ch] s']| | |] eqn:E; try discriminate.
      assert (Hs : not_appl (SSComb c')).
      { assert (Hc : forall h a, c <> Appl h a) by (intros h a ->; exact Hn).
        pose proof (comb_apply_subst_shape _ _ _ _ _ Hc E) as E'. cbn in E'.
        unfold not_appl. cbn. destruct c'; auto. eapply E'; reflexivity. }
      destruct (uniq _); [|destruct ch]; intros [= <-]; auto.
  Qed.

  (** the term is an atom, a product, an abstraction, or a non-application applied to at least one argument *)
  Definition canon (t : sterm) : Prop :=
    match get_comb t with
    | Some (Appl h args) => not_appl h /\ args <> []
    | _ => True
    end.
  Lemma not_appl_canon t : not_appl t -> canon t.
  Proof. unfold not_appl, canon. destruct (get_comb t) as [[| |]|]; tauto. Qed.

  Lemma sterm_of_state_sim force force' ofr ofr' st :
    (forall l, simm ers any (force l) (force' l)) -> (forall l, simm ers any (ofr l) (ofr' l)) ->
    simm ers (fun t => head_ok st -> canon t)
      (sterm_of_state uniq force ofr st) (r_of_state force' ofr' (er_state st)).
  Proof.
    intros Hf Hg. unfold sterm_of_state, r_of_state. destruct st as [ctx t stack].
    cbn [s_ctx s_term s_stack er_state rs_ctx rs_term rs_stack].
    eapply simm_bind with (P := fun t' => head_ok (State ctx t stack) -> not_appl t').
    { destruct ctx as [|l ctx].
      - apply simm_ret; auto. intros [H _]. exact H.
      - intros s Hs.
        assert (H : simm (fun p => ers (fst p)) any (apply_subst uniq (psubst uniq force (l :: ctx)) t 0)
                      (rsub (r_psubst force' (l :: ctx)) (ers t) 0)).
        { eapply simm_post; [|apply apply_subst_sim]; [intros; exact I|].
          intros n k Hk. now apply psubst_sim. }
        specialize (H s Hs). unfold bind. destruct (apply_subst _ _ t 0 s) as [[[t' ch] s']|e| |] eqn:E; auto.
        destruct H as (-> & _ & Hs'). split; [reflexivity|]. split; [|exact Hs']. intros [H1 H2]. cbn in H1, H2.
        apply apply_subst_not_appl in E; auto. intros n ->. discriminate. }
    intros t' Ht'. destruct stack as [|l stack].
    - apply simm_eqm with (m1 := ret (ers t')); [intros s; reflexivity|].
      apply simm_ret; auto using not_appl_canon.
    - eapply simm_post; [|apply apply_sim with (P := Forall2 (fun _ _ => True) (l :: stack))].
      + intros r Hr Hh. specialize (Ht' Hh). destruct (Hr Ht') as (us & Hus & ->). cbn. split; auto.
        inversion Hus; subst. discriminate.
      + assert (Hid : forall x : list loc, simm (map ers) (Forall2 (fun _ _ => True) x) (mapM ofr x) (mapM ofr' (map id x))).
        { intros x. apply simm_mapM. intros a _. eapply simm_post; [|apply Hg]. auto. }
        specialize (Hid (l :: stack)). rewrite map_id in Hid. exact Hid. 
  Qed.

  Lemma force_sim n :
    (forall l, simm ers any (force uniq n l) (r_force n l)) /\
    (forall l, simm ers any (sterm_of_rstate uniq n l) (r_of_rstate n l)).
  Proof.
    induction n as [|n [IH1 IH2]].
    - split; intros; apply simm_nofuel.
    - split; intros l.
      + cbn [force r_force]. eapply simm_bind; [apply simm_read|]. intros c _.
        destruct c as [st w b|[l'| |t]]; cbn [er_cell er_thunk]; try apply simm_panic.
        * eapply simm_bind; [apply simm_write; [discriminate|reflexivity]|]. intros _ _.
          eapply simm_bind; [apply IH2|]. intros t _.
          eapply simm_bind; [apply simm_write; [discriminate|reflexivity]|]. intros _ _.
          apply simm_ret; [reflexivity|exact I].
        * apply simm_ret; [reflexivity|exact I].
      + cbn [sterm_of_rstate r_of_rstate]. eapply simm_bind; [apply simm_borrow|]. intros st _.
        eapply simm_post; [|apply sterm_of_state_sim; assumption]. intros; exact I.
  Qed.


  (** ** Matching *)
  Section Match.
    Variable rw : loc -> M unit.
    Variable rw' : loc -> RM unit.
    Hypothesis Hrw : forall l,
      simm er_state head_ok (bind (rw l) (fun _ => borrow_state l)) (bind (rw' l) (fun _ => r_borrow l)).

    Lemma match_pat_sim p : forall l sb, simm id any (match_pat rw l p sb) (r_match_pat rw' l (erp p) sb).
    Proof.
      induction p as [c ps IH|m|] using pattern_ind'; intros l sb; cbn [match_pat erp r_match_pat];
        try (apply simm_ret; [reflexivity|exact I]).
      eapply simm_eqm_l; [apply bind_bind|]. eapply simm_eqm; [apply bind_bind|].
      eapply simm_bind; [apply Hrw|]. intros [ctx t stack] [Hok _]. cbn [er_state rs_term rs_stack s_term s_stack] in *.
      destruct t as [| |c'|n|cb|cb]; cbn [ers];
        try (apply simm_ret; [reflexivity|exact I]).
      - rewrite map_length. destruct (_ && _); [|apply simm_ret; [reflexivity|exact I]].
        clear Hok. revert stack sb.
        induction IH as [|p ps Hp Hps IHps]; intros stack sb; cbn [map].
        + apply simm_ret; [reflexivity|exact I].
        + destruct stack as [|l' stack]; [apply simm_ret; [reflexivity|exact I]|].
          eapply simm_bind; [apply Hp|]. intros [sb'|] _; unfold id; [apply IHps|apply simm_ret; [reflexivity|exact I]].
      - destruct cb as [h a|id a b|id [a|] b]; cbn [er_comb]; try (apply simm_ret; [reflexivity|exact I]).
        contradiction.
      - destruct cb as [h a|id a b|id [a|] b]; cbn [er_comb]; try (apply simm_ret; [reflexivity|exact I]).
        contradiction.
    Qed.

    Lemma match_pats_sim ps : forall stack sb,
      simm id any (match_pats (match_pat rw) stack ps sb) (r_match_pats rw' stack (map erp ps) sb).
    Proof.
      induction ps as [|p ps IH]; intros stack sb; cbn [match_pats r_match_pats map].
      - apply simm_ret; [reflexivity|exact I].
      - destruct stack as [|l stack]; [apply simm_ret; [reflexivity|exact I]|].
        eapply simm_bind; [apply match_pat_sim|]. intros [sb'|] _; unfold id; [apply IH|apply simm_ret; [reflexivity|exact I]].
    Qed.

    Variable cv : sterm -> sterm -> M bool.
    Variable cv' : tm -> tm -> RM bool.
    Hypothesis Hcv : forall t u, simm id any (cv t u) (cv' (ers t) (ers u)).
    Variable n : nat.

    Lemma all_convertible_loop_sim ls : forall t,
      simm id any (all_convertible_loop uniq cv n t ls) (r_all_conv_loop cv' n t ls).
    Proof.
      induction ls as [|l ls IH]; intros t; cbn [all_convertible_loop r_all_conv_loop].
      - apply simm_ret; [reflexivity|exact I].
      - eapply simm_bind; [apply force_sim|]. intros t1 _.
        eapply simm_bind; [apply force_sim|]. intros t2 _.
        eapply simm_bind; [apply Hcv|]. intros [|] _; unfold id; [apply IH|apply simm_ret; [reflexivity|exact I]].
    Qed.

    Lemma all_convertible_sim ls :
      simm id any (all_convertible uniq cv n ls) (r_all_conv cv' n ls).
    Proof.
      destruct ls as [|l ls]; cbn [all_convertible r_all_conv]; [apply simm_ret; [reflexivity|exact I]|].
      eapply simm_bind; [apply simm_alloc; [exact I|reflexivity]|]. intros t _. apply all_convertible_loop_sim.
    Qed.

    Lemma flatten_sim sb : simm id any (flatten uniq cv n sb) (r_flatten cv' n sb).
    Proof.
      induction sb as [|ls sb IH]; cbn [flatten r_flatten]; [apply simm_ret; [reflexivity|exact I]|].
      eapply simm_bind; [apply IH|]. intros [ctx|] _; unfold id; [|apply simm_ret; [reflexivity|exact I]].
      eapply simm_bind; [apply all_convertible_sim|]. intros [t|] _; apply simm_ret; try reflexivity; exact I.
    Qed.

    Definition er_match (o : option (list loc * rule)) : option (list loc * srule) :=
      option_map (fun p => (fst p, er_rule (snd p))) o.

    Lemma first_match_sim stack rules :
      simm er_match any (first_match uniq rw cv n stack rules) (r_first_match rw' cv' n stack (map er_rule rules)).
    Proof.
      induction rules as [|r rules IH]; cbn [first_match r_first_match map]; [apply simm_ret; [reflexivity|exact I]|].
      eapply simm_bind with (f := id) (P := any).
      - unfold match_flatten, r_match_flatten, match_rule, r_match_rule. cbn [er_rule sr_args sr_vars].
        rewrite map_length.
        eapply simm_bind with (f := id) (P := any).
        + destruct (_ <? _); [apply simm_ret; [reflexivity|exact I]|apply match_pats_sim].
        + intros [sb|] _; unfold id; [apply flatten_sim|apply simm_ret; [reflexivity|exact I]].
      - intros [ctx|] _; unfold id; [apply simm_ret; [reflexivity|exact I]|exact IH].
    Qed.
  End Match.

  (** ** Convertibility step *)
  Definition er_pair (p : sterm * sterm) : tm * tm := (ers (fst p), ers (snd p)).

  Lemma spine_apps us : forall t vs, spine (apps t us) vs = spine t (us ++ vs).
  Proof.
    induction us as [|u us IH]; intros t vs; cbn; auto. rewrite IH. reflexivity.
  Qed.
  Lemma apps_is_App t us : us <> [] -> exists x y, apps t us = App x y.
  Proof.
    revert t. induction us as [|u us IH]; intros t H; [congruence|]. cbn.
    destruct us as [|v us]; [cbn; eauto|]. apply IH. discriminate.
  Qed.
  Lemma not_appl_er t : not_appl t -> match ers t with App _ _ => False | _ => True end.
  Proof.
    unfold not_appl. destruct t as [| |c|n|[h a|id a b|id [a|] b]|[h a|id a b|id [a|] b]]; cbn;
      intros H; try contradiction; exact I.
  Qed.
  Lemma spine_not_app t us : match t with App _ _ => False | _ => True end -> spine t us = (t, us).
  Proof. destruct t; cbn; tauto. Qed.
  Lemma spine_er_appl h args : not_appl h -> spine (apps (ers h) (map ers args)) [] = (ers h, map ers args).
  Proof.
    intros H. rewrite spine_apps, app_nil_r. apply spine_not_app. now apply not_appl_er.
  Qed.

  Definition comb_canon (c : scomb) : Prop :=
    match c with Appl h args => not_appl h /\ args <> [] | _ => True end.

  Lemma lam_body_apps t us : us <> [] -> lam_body (apps t us) = None.
  Proof. intros H. destruct (apps_is_App t us H) as (x & y & ->). reflexivity. Qed.

  Lemma map_combine {A B} (f : A -> B) l : forall l',
    map (fun p => (f (fst p), f (snd p))) (combine l l') = combine (map f l) (map f l').
  Proof. induction l; intros [|? ?]; cbn; auto. f_equal. auto. Qed.

  Lemma step2_sim eta c1 c2 : comb_canon c1 -> comb_canon c2 ->
    simm (option_map (map er_pair)) any (step2 uniq eta c1 c2) (ret (r_step eta (er_comb ers c1) (er_comb ers c2))).
  Proof.
    intros H1 H2.
    assert (Hcons : forall (A : Type) (l : list A) (P : Prop), (l <> [] -> P) -> l <> [] -> P) by auto.
    assert (Hshift : forall b a, simm (option_map (map er_pair)) any
      (if eta then bind (shift_app uniq (SSComb a)) (fun t => ret (Some [(b, t)])) else ret None)
      (ret (if eta then Some [(ers b, r_shift_app (er_comb ers a))] else None))).
    { intros b a. destruct eta; [|apply simm_ret; [reflexivity|exact I]].
      apply simm_eqm with (m1 := bind (ret (r_shift_app (ers (SSComb a)))) (fun t => ret (Some [(ers b, t)]))).
      - intros s; reflexivity.
      - eapply simm_bind; [apply shift_app_sim|]. intros t _. apply simm_ret; [reflexivity|exact I]. }
    destruct c1 as [h1 a1|i1 a1 b1|i1 a1 b1]; destruct c2 as [h2 a2|i2 a2 b2|i2 a2 b2];
      cbn [step2]; unfold r_step; cbn [comb_canon] in *.
    - destruct H1 as [Hh1 Ha1], H2 as [Hh2 Ha2]. cbn [er_comb].
      assert (Hm1 : map ers a1 <> []) by (destruct a1; cbn; congruence).
      assert (Hm2 : map ers a2 <> []) by (destruct a2; cbn; congruence).
      rewrite !lam_body_apps by assumption.
      pose proof (spine_er_appl _ a1 Hh1) as S1. pose proof (spine_er_appl _ a2 Hh2) as S2.
      destruct (apps_is_App (ers h1) _ Hm1) as (x1 & y1 & E1). rewrite E1 in *.
      destruct (apps_is_App (ers h2) _ Hm2) as (x2 & y2 & E2). rewrite E2 in *.
      rewrite S1, S2, !map_length. destruct (length a1 =? length a2).
      + apply simm_ret; [|exact I]. unfold option_map. f_equal. rewrite map_rev. cbn [map]. f_equal. f_equal.
        unfold er_pair. rewrite map_combine. reflexivity.
      + apply simm_ret; [reflexivity|exact I].
    - destruct H1 as [Hh1 Ha1]. cbn [er_comb].
      assert (Hm1 : map ers a1 <> []) by (destruct a1; cbn; congruence).
      rewrite lam_body_apps by assumption. cbn [lam_body].
      destruct (apps_is_App (ers h1) _ Hm1) as (x1 & y1 & E1). rewrite E1 in *.
      apply simm_ret; [reflexivity|exact I].
    - destruct H1 as [Hh1 Ha1].
      assert (Hm1 : map ers a1 <> []) by (destruct a1; cbn; congruence).
      pose proof (lam_body_apps (ers h1) _ Hm1) as L. specialize (Hshift b2 (Appl h1 a1)).
      change (er_comb ers (Appl h1 a1)) with (apps (ers h1) (map ers a1)) in *. rewrite L.
      destruct a2; exact Hshift.
    - destruct H2 as [Hh1 Ha1]. cbn [er_comb].
      assert (Hm1 : map ers a2 <> []) by (destruct a2; cbn; congruence).
      rewrite lam_body_apps by assumption. cbn [lam_body].
      destruct (apps_is_App (ers h2) _ Hm1) as (x1 & y1 & E1). rewrite E1 in *.
      apply simm_ret; [reflexivity|exact I].
    - apply simm_ret; [reflexivity|exact I].
    - specialize (Hshift b2 (Prod i1 a1 b1)). destruct a2; exact Hshift.
    - destruct H2 as [Hh1 Ha1].
      assert (Hm1 : map ers a2 <> []) by (destruct a2; cbn; congruence).
      pose proof (lam_body_apps (ers h2) _ Hm1) as L. specialize (Hshift b1 (Appl h2 a2)).
      change (er_comb ers (Appl h2 a2)) with (apps (ers h2) (map ers a2)) in *. rewrite L.
      destruct a1; exact Hshift.
    - specialize (Hshift b1 (Prod i2 a2 b2)). destruct a1; exact Hshift.
    - destruct a1, a2; apply simm_ret; try reflexivity; exact I.
  Qed.

  Lemma step1_sim c t : comb_canon c -> get_comb t = None ->
    simm (option_map (map er_pair)) any (step1 uniq c t) (ret (r_step true (er_comb ers c) (ers t))) /\
    simm (option_map (map er_pair)) any (step1 uniq c t) (ret (r_step true (ers t) (er_comb ers c))).
  Proof.
    intros Hc Ht.
    assert (Hl : lam_body (ers t) = None) by (destruct t; cbn in *; congruence).
    destruct c as [h a|i a b|i a b]; cbn [step1].
    - destruct Hc as [Hh Ha].
      assert (Hm1 : map ers a <> []) by (destruct a; cbn; congruence).
      pose proof (lam_body_apps (ers h) _ Hm1) as L.
      destruct (apps_is_App (ers h) _ Hm1) as (x1 & y1 & E1).
      change (er_comb ers (Appl h a)) with (apps (ers h) (map ers a)). rewrite E1 in *.
      unfold r_step. rewrite L, Hl. destruct t; cbn in Ht; try discriminate Ht;
        split; apply simm_ret; try reflexivity; exact I.
    - unfold r_step. cbn [er_comb lam_body]. rewrite Hl. destruct t; cbn in Ht; try discriminate Ht;
        split; apply simm_ret; try reflexivity; exact I.
    - assert (Hb : lam_body (er_comb ers (Abst i a b)) = Some (ers b)) by (destruct a; reflexivity).
      unfold r_step. rewrite Hl, Hb.
      assert (simm (option_map (map er_pair)) any (bind (shift_app uniq t) (fun t => ret (Some [(b, t)])))
                (ret (Some [(ers b, r_shift_app (ers t))]))).
      { apply simm_eqm with (m1 := bind (ret (r_shift_app (ers t))) (fun t => ret (Some [(ers b, t)]))).
        - intros s; reflexivity.
        - eapply simm_bind; [apply shift_app_sim|]. intros t' _. apply simm_ret; [reflexivity|exact I]. }
      split; assumption.
  Qed.

  Lemma step_comb_atom_noeta c t : comb_canon c -> get_comb t = None ->
    r_step false (er_comb ers c) (ers t) = None /\ r_step false (ers t) (er_comb ers c) = None.
  Proof.
    intros Hc Ht.
    assert (Hl : lam_body (ers t) = None) by (destruct t; cbn in *; congruence).
    unfold r_step. rewrite Hl. destruct c as [h a|i a b|i [a|] b]; cbn [er_comb lam_body]; auto.
    - destruct Hc as [Hh Ha].
      assert (Hm1 : map ers a <> []) by (destruct a; cbn; congruence).
      rewrite lam_body_apps by assumption.
      destruct (apps_is_App (ers h) _ Hm1) as (x1 & y1 & ->). destruct t; cbn in Ht; try discriminate Ht; auto.
    - destruct t; cbn in Ht; try discriminate Ht; auto.
  Qed.

  Lemma step_sim eta t1 t2 : canon t1 -> canon t2 ->
    simm (option_map (map er_pair)) any (step uniq eta t1 t2) (ret (r_step eta (ers t1) (ers t2))).
  Proof.
    unfold canon. intros H1 H2.
    assert (Hatom : forall c t, comb_canon c -> get_comb t = None ->
      simm (option_map (map er_pair)) any (if eta then step1 uniq c t else ret None)
        (ret (r_step eta (er_comb ers c) (ers t))) /\
      simm (option_map (map er_pair)) any (if eta then step1 uniq c t else ret None)
        (ret (r_step eta (ers t) (er_comb ers c)))).
    { intros c t Hc Ht. destruct eta; [now apply step1_sim|].
      destruct (step_comb_atom_noeta c t Hc Ht) as [-> ->].
      split; apply simm_ret; try reflexivity; exact I. }
    assert (CL : forall c, match get_comb (SLComb c) with Some (Appl h args) => not_appl h /\ args <> [] | _ => True end ->
      comb_canon (scomb_of_lcomb c)) by (intros c H; exact H).
    assert (CS : forall c, match get_comb (SSComb c) with Some (Appl h args) => not_appl h /\ args <> [] | _ => True end ->
      comb_canon c) by (intros c H; exact H).
    destruct t1 as [| |c1|n1|c1|c1]; destruct t2 as [| |c2|n2|c2|c2]; cbn [step];
      try (apply simm_ret; [reflexivity|exact I]);
      try (match goal with |- context [?x =? ?y] =>
             cbv beta iota delta [r_step ers lam_body]; destruct (x =? y); apply simm_ret; try reflexivity; exact I
           end).
    all: try apply CL in H1; try apply CS in H1; try apply CL in H2; try apply CS in H2.
    all: cbn [ers]; rewrite <- ?er_scomb_of_lcomb.
    all: try (apply step2_sim; assumption).
    all: match goal with
         | |- simm _ _ _ (ret (r_step _ (er_comb ers ?c) ?e)) =>
           match e with
           | Kind => destruct (Hatom c SKind) as [? ?]; [assumption|reflexivity|assumption]
           | Typ => destruct (Hatom c SType) as [? ?]; [assumption|reflexivity|assumption]
           | Const ?x => destruct (Hatom c (SConst x)) as [? ?]; [assumption|reflexivity|assumption]
           | Var ?x => destruct (Hatom c (SVar x)) as [? ?]; [assumption|reflexivity|assumption]
           end
         | |- simm _ _ _ (ret (r_step _ ?e (er_comb ers ?c))) =>
           match e with
           | Kind => destruct (Hatom c SKind) as [? ?]; [assumption|reflexivity|assumption]
           | Typ => destruct (Hatom c SType) as [? ?]; [assumption|reflexivity|assumption]
           | Const ?x => destruct (Hatom c (SConst x)) as [? ?]; [assumption|reflexivity|assumption]
           | Var ?x => destruct (Hatom c (SVar x)) as [? ?]; [assumption|reflexivity|assumption]
           end
         end.
  Qed.

  (** ** The machine *)
  Fixpoint r_push (ctx : list loc) (us : list tm) (stack : list loc) : RM (list loc) :=
    match us with
    | [] => ret stack
    | u :: us => bind (r_push ctx us stack) (fun stack => bind (r_from_ctx_term ctx u) (fun l => ret (l :: stack)))
    end.

  Lemma r_unwind_apps ctx us : forall t stack,
    eqm (r_unwind ctx (apps t us) stack) (bind (r_push ctx us stack) (r_unwind ctx t)).
  Proof.
    induction us as [|u us IH]; intros t stack; cbn [apps r_push].
    - intros s. reflexivity.
    - eapply eqm_trans; [apply IH|]. eapply eqm_trans; [|apply eqm_sym, bind_bind].
      apply eqm_bind; [apply eqm_refl|]. intros stack'. cbn [r_unwind].
      eapply eqm_trans; [|apply eqm_sym, bind_bind]. apply eqm_bind; [apply eqm_refl|]. intros l.
      apply eqm_sym, bind_ret_l.
  Qed.

  Lemma push_args_sim ctx args : forall stack,
    simm id any (push_args ctx args stack) (r_push ctx (map ers args) stack).
  Proof.
    induction args as [|a args IH]; intros stack; cbn [push_args r_push map].
    - apply simm_ret; [reflexivity|exact I].
    - eapply simm_bind; [apply IH|]. intros stack' _. unfold id.
      eapply simm_bind; [apply simm_alloc; [exact I|reflexivity]|]. intros l _. unfold id.
      apply simm_ret; [reflexivity|exact I].
  Qed.

  Definition simm_at {A B} (f : A -> B) (P : A -> Prop) (m : M A) (m' : RM B) (s : mst) : Prop :=
    match m s with
    | Ok (a, s') => m' (erh s) = Ok (f a, erh s') /\ P a /\ hinv s'
    | Err e => m' (erh s) = Err e
    | Panic => m' (erh s) = Panic
    | Fuel => True
    end.
  Lemma simm_read_bind {A B} (g : A -> B) Q l k k' :
    (forall c s, hinv s -> nth_error (m_heap s) l = Some c -> simm_at g Q (k c) (k' (er_cell c)) s) ->
    simm g Q (bind (read l) k) (bind (r_read l) k').
  Proof.
    intros H s Hs. unfold bind, read, r_read, erh. rewrite nth_error_map.
    destruct (nth_error (m_heap s) l) as [c|] eqn:El; cbn; auto. exact (H c s Hs El).
  Qed.

  Lemma rstate_whnf_sim w w' :
    (forall st, simm er_state head_ok (w st) (w' (er_state st))) ->
    forall l, simm er_state head_ok (bind (rstate_whnf w l) (fun _ => borrow_state l))
                                    (bind (r_rwhnf w' l) (fun _ => r_borrow l)).
  Proof.
    intros Hw l. unfold rstate_whnf, r_rwhnf.
    eapply simm_eqm_l; [apply eqm_sym, bind_bind|]. eapply simm_eqm; [apply eqm_sym, bind_bind|].
    apply simm_read_bind. intros c s Hs El.
    destruct c as [st [|] [|]|th]; cbn [option_map er_cell]; try reflexivity.
    - unfold simm_at, bind, ret, borrow_state, r_borrow, read, r_read, bind, ret. rewrite El. cbn.
      unfold erh. rewrite nth_error_map, El. cbn. split; [reflexivity|]. split; [eapply Hs; eassumption|assumption].
    - clear El. revert s Hs.
      change (simm er_state head_ok
        (bind (bind (write l (CState st false true)) (fun _ => bind (w st) (fun st' => write l (CState st' true false))))
              (fun _ => borrow_state l))
        (bind (bind (r_write l (RCState (er_state st) false true))
                    (fun _ => bind (w' (er_state st)) (fun st' => r_write l (RCState st' true false))))
              (fun _ => r_borrow l))).
      eapply simm_eqm_l; [apply eqm_sym, bind_bind|]. eapply simm_eqm; [apply eqm_sym, bind_bind|].
      eapply simm_bind; [apply simm_write; [discriminate|reflexivity]|]. intros _ _.
      eapply simm_eqm_l; [apply eqm_sym, bind_bind|]. eapply simm_eqm; [apply eqm_sym, bind_bind|].
      eapply simm_bind; [apply Hw|]. intros st' Hst'. intros s Hs.
      pose proof (simm_write l (CState st' true false) (RCState (er_state st') true false)) as Hwr.
      specialize (Hwr ltac:(intros ? ? [= <- <-]; assumption) eq_refl s Hs).
      unfold bind. unfold write in *. destruct Hwr as (Hwr1 & _ & Hwr3). rewrite Hwr1. cbn [id].
      pose proof (simm_borrow l _ Hwr3) as Hb. revert Hb.
      unfold borrow_state at 1 2, bind at 1 2, read at 1 2. cbn [m_heap].
      destruct (lt_dec l (length (m_heap s))).
      + rewrite nth_error_list_set_eq by assumption. cbv beta iota delta [ret]. intuition.
      + assert (nth_error (list_set (m_heap s) l (CState st' true false)) l = None) as ->
          by (apply nth_error_None; rewrite length_list_set; lia). auto.
  Qed.

  Variable gc : gctx.
  Notation sg := (er_gctx gc).

  Lemma whnf__sim n w w' : (forall st, simm er_state head_ok (w st) (w' (er_state st))) ->
    forall t, simm ers canon (whnf_ uniq n w t) (r_whnf_ n w' (ers t)).
  Proof.
    intros Hw t s Hs. unfold whnf_, r_whnf_, with_fresh_heap, r_fresh.
    assert (H : simm ers canon (bind (w (state_new t)) (fun st => sterm_of_state uniq (force uniq n) (sterm_of_rstate uniq n) st))
      (bind (w' (RState [] (ers t) [])) (fun st => r_of_state (r_force n) (r_of_rstate n) st))).
    { eapply simm_bind; [apply (Hw (state_new t))|]. intros st Hst.
      eapply simm_post; [|apply sterm_of_state_sim; apply force_sim]. auto. }
    specialize (H (MSt [] (m_tick s))).
    assert (H0 : hinv (MSt [] (m_tick s))) by (intros l st b Hl; destruct l; discriminate).
    specialize (H H0). cbn [erh map] in H. change (erh (MSt [] (m_tick s))) with (@nil rcell) in H.
    destruct (bind (w (state_new t)) _ _) as [[a s']| | |]; try (rewrite H; reflexivity); auto.
    destruct H as (-> & Ha & _). split; [reflexivity|]. split; [assumption|exact Hs].
  Qed.

  Lemma r_conv_pop_refl n ps : Forall (fun p : tm * tm => fst p = snd p) ps -> forall cns,
    le_m (r_conv_loop sg n (ps ++ cns)) (r_conv_loop sg n cns).
  Proof.
    intros H. revert n. induction H as [|[x y] ps Hp Hps IH]; intros n cns; [apply le_m_refl|].
    destruct n as [|n]; [apply le_m_nofuel|]. cbn [app]. cbn [r_conv_loop]. cbn in Hp. subst y.
    destruct (tm_eq_dec x x); [|congruence]. eapply le_m_trans; [apply IH|].
    eapply le_m_trans; [|apply (r_conv_loop_mono sg n (S n)); lia]. apply le_m_refl.
  Qed.

  Lemma r_step_refl eta t : exists ps, r_step eta t t = Some ps /\ Forall (fun p : tm * tm => fst p = snd p) ps.
  Proof.
    unfold r_step. destruct t; cbn [lam_body]; rewrite ?Nat.eqb_refl; try (eexists; split; [reflexivity|]; repeat constructor).
    destruct (spine (App t1 t2) []) as [f us]. rewrite Nat.eqb_refl. eexists; split; [reflexivity|].
    apply Forall_rev. constructor; [reflexivity|]. clear. induction us; cbn; constructor; auto.
  Qed.

  Lemma convertible_loop_cons n t u cns :
    convertible_loop uniq gc (S n) ((t, u) :: cns) =
    if sterm_eqb t u then convertible_loop uniq gc n cns
    else
      bind (whnf_ uniq n (state_whnf uniq gc n) t) (fun t =>
      bind (whnf_ uniq n (state_whnf uniq gc n) u) (fun u =>
      bind (step uniq (g_eta gc) t u) (fun o =>
      match o with
      | None => ret false
      | Some new => convertible_loop uniq gc n (new ++ cns)
      end))).
  Proof. reflexivity. Qed.

  Lemma machine_sim n :
    (forall st, simm er_state head_ok (state_whnf uniq gc n st) (r_state_whnf sg n (er_state st))) /\
    (forall cns, simm id any (convertible_loop uniq gc n cns) (r_conv_loop sg n (map er_pair cns))).
  Proof.
    induction n as [|n [IH1 IH2]]; [split; intros; apply simm_nofuel|]. split.
    - intros [ctx t stack]. cbn [state_whnf].
      assert (Hhead : not_appl t -> forall m, simm er_state head_ok m (r_head sg n (r_state_whnf sg n)
                (fun t1 t2 => r_conv_loop sg n [(t1, t2)]) ctx (ers t) stack) ->
                simm er_state head_ok m (r_state_whnf sg (S n) (er_state (State ctx t stack)))).
      { intros Ht m. apply simm_eqm. cbn [r_state_whnf er_state rs_ctx rs_term rs_stack s_ctx s_term s_stack].
        apply not_appl_er in Ht. destruct (ers t); try contradiction; intros s; reflexivity. }
      assert (Happl : forall h args, get_comb t = Some (Appl h args) ->
        simm er_state head_ok
          (bind (push_args ctx args stack) (fun stack => state_whnf uniq gc n (State ctx h stack)))
          (r_state_whnf sg (S n) (er_state (State ctx t stack)))).
      { intros h args Hc. change (er_state (State ctx t stack)) with (RState ctx (ers t) stack). rewrite (get_comb_er _ _ Hc). cbn [er_comb].
        apply simm_eqm with (m1 := bind (r_push ctx (map ers args) stack)
                                     (fun stack => r_state_whnf sg (S n) (RState ctx (ers h) stack))).
        - cbn [r_state_whnf rs_ctx rs_term rs_stack]. apply eqm_sym.
          eapply eqm_trans; [apply eqm_bind; [apply r_unwind_apps|intros; apply eqm_refl]|]. apply bind_bind.
        - eapply simm_bind; [apply push_args_sim|]. intros stack' _.
          eapply simm_le; [apply (r_state_whnf_mono sg n (S n)); lia|]. apply IH1. }
      assert (Habst : forall id a b l rest, get_comb t = Some (Abst id a b) -> stack = l :: rest ->
        simm er_state head_ok
          (bind (rtterm_new l) (fun th => state_whnf uniq gc n (State (th :: ctx) b rest)))
          (r_state_whnf sg (S n) (er_state (State ctx t stack)))).
      { intros id a b l rest Hc ->. apply Hhead; [unfold not_appl; rewrite Hc; exact I|].
        rewrite (get_comb_er _ _ Hc).
        assert (simm er_state head_ok
          (bind (rtterm_new l) (fun th => state_whnf uniq gc n (State (th :: ctx) b rest)))
          (bind (r_thunk_new l) (fun th => r_state_whnf sg n (RState (th :: ctx) (ers b) rest)))).
        { eapply simm_bind; [apply simm_alloc; [exact I|reflexivity]|]. intros th _. apply IH1. }
        destruct a; assumption. }
      assert (Hstop : not_appl t -> (forall x, t <> SVar x) -> forall r, r = RState ctx (ers t) stack ->
                      simm er_state head_ok (whnf_break (State ctx t stack)) (ret r)).
      { intros Ht Hv r ->. assert (whnf_break (State ctx t stack) = ret (State ctx t stack)) as ->.
        { unfold whnf_break; cbn. destruct t; try reflexivity. exfalso; eapply Hv; reflexivity. }
        apply simm_ret; [reflexivity|]. split; [exact Ht|]. destruct t; try exact I. exfalso; eapply Hv; reflexivity. }
      assert (Hwhnf : forall (c : scomb), get_comb t = Some c -> 
                is_whnf c (match stack with [] => true | _ => false end) = true ->
                simm er_state head_ok (whnf_break (State ctx t stack))
                  (r_state_whnf sg (S n) (er_state (State ctx t stack)))).
      { intros c Hc Hw. assert (Hn : not_appl t) by (unfold not_appl; rewrite Hc; destruct c; [discriminate|exact I|exact I]).
        apply Hhead; [exact Hn|]. rewrite (get_comb_er _ _ Hc).
        assert (Hr : r_head sg n (r_state_whnf sg n) (fun t1 t2 => r_conv_loop sg n [(t1, t2)]) ctx (er_comb ers c) stack
                = ret (RState ctx (er_comb ers c) stack)).
        { destruct c as [h a|i a b|i [a|] b]; cbn in Hw |- *; try discriminate; auto; destruct stack; try discriminate; auto. }
        rewrite Hr. apply Hstop; auto; [intros x ->; discriminate|]. rewrite (get_comb_er _ _ Hc). reflexivity. }
      destruct t as [| |c|x|c|c].
      + apply Hhead; [exact I|]. apply Hstop; [exact I|discriminate|reflexivity].
      + apply Hhead; [exact I|]. apply Hstop; [exact I|discriminate|reflexivity].
      + apply Hhead; [exact I|]. cbn [ers r_head er_gctx sg_rules].
        destruct (get_rules gc c) as [rules|]; cbn [option_map].
        * eapply simm_bind.
          { apply first_match_sim.
            - apply rstate_whnf_sim. apply IH1.
            - intros t u. apply (IH2 [(t, u)]). }
          intros [[ctx' r]|] _; cbn [er_match option_map fst snd].
          -- cbn [er_rule sr_args sr_rhs]. rewrite map_length.
             eapply simm_bind; [apply simm_usub|]. intros _ _.
             specialize (IH1 (State ctx' (sterm_of_lterm (r_rhs r)) (skipn (length (tp_args (r_lhs r))) stack))).
             unfold er_state in IH1. cbn [s_ctx s_term s_stack] in IH1. rewrite ers_sterm_of_lterm in IH1. exact IH1.
          -- apply Hstop; [exact I|discriminate|reflexivity].
        * apply Hstop; [exact I|discriminate|reflexivity].
      + apply Hhead; [exact I|]. cbn [ers r_head].
        destruct (nth_error ctx x) as [l|] eqn:Ex.
        * eapply simm_bind; [apply force_sim|]. intros t _. apply (IH1 (State [] t stack)).
        * destruct ctx as [|l ctx].
          -- intros s Hs. unfold whnf_break, r_usub, bind, ret. cbn. rewrite Nat.sub_0_r. s3.
             split; [exact I|reflexivity].
          -- eapply simm_bind; [apply simm_usub|]. intros m _. unfold whnf_break, id. cbn [s_term s_ctx].
             apply simm_ret; [reflexivity|]. split; [exact I|reflexivity].
      + destruct c as [h a|i a b|i a b]; cbn [is_whnf].
        * apply (Happl (sterm_of_lterm h) (map sterm_of_lterm a)). reflexivity.
        * apply (Hwhnf (scomb_of_lcomb (Prod i a b))); reflexivity.
        * destruct stack as [|l rest].
          -- apply (Hwhnf (scomb_of_lcomb (Abst i a b))); reflexivity.
          -- apply (Habst i (option_map sterm_of_lterm a) (sterm_of_lterm b) l rest); reflexivity.
      + destruct c as [h a|i a b|i a b]; cbn [is_whnf].
        * apply (Happl h a). reflexivity.
        * apply (Hwhnf (Prod i a b)); reflexivity.
        * destruct stack as [|l rest].
          -- apply (Hwhnf (Abst i a b)); reflexivity.
          -- apply (Habst i a b l rest); reflexivity.
    - intros [|[t u] cns].
      { cbn [convertible_loop r_conv_loop map]. apply simm_ret; [reflexivity|exact I]. }
      rewrite convertible_loop_cons. cbn [map].
      destruct (sterm_eqb t u) eqn:E.
      { apply sterm_eqb_eq in E. subst. cbn [r_conv_loop]. unfold er_pair at 1; cbn [fst snd].
        destruct (tm_eq_dec _ _); [|congruence]. apply IH2. }
      pose proof (whnf__sim n _ _ IH1) as Hwh.
      unfold er_pair at 1; cbn [fst snd].
      destruct (tm_eq_dec (ers t) (ers u)) as [He|He].
      + (* equal up to erasure, but not equal: the model evaluates both sides *)
        rewrite <- He. intros s Hs.
        pose proof (Hwh t s Hs) as H1. unfold bind at 1.
        assert (Hno : forall h, match r_whnf_ n (r_state_whnf sg n) (ers t) h with Err _ | Panic => False | _ => True end).
        { intros h. pose proof (r_whnf_safe sg n (ers t) h) as Hsafe. unfold triple in Hsafe. unfold r_whnf in Hsafe.
          destruct (r_whnf_ n (r_state_whnf sg n) (ers t) h) as [[? ?]| | |]; auto. }
        assert (Hdet : forall h a h', r_whnf_ n (r_state_whnf sg n) (ers t) h = Ok (a, h') ->
                       forall h2, r_whnf_ n (r_state_whnf sg n) (ers t) h2 = Ok (a, h2) /\ h' = h).
        { unfold r_whnf_, r_fresh. intros h a h'. match goal with |- context [match ?m with _ => _ end] => destruct m as [[? ?]| | |] end; try discriminate.
          intros [= -> ->]. auto. }
        destruct (whnf_ uniq n (state_whnf uniq gc n) t s) as [[t' s1]|e| |].
        2:{ exfalso. specialize (Hno (erh s)). rewrite H1 in Hno. exact Hno. }
        2:{ exfalso. specialize (Hno (erh s)). rewrite H1 in Hno. exact Hno. }
        2: exact I.
        destruct H1 as (H1 & Hc1 & Hs1). pose proof (Hwh u s1 Hs1) as H2. unfold bind at 1.
        rewrite <- He in H2.
        destruct (whnf_ uniq n (state_whnf uniq gc n) u s1) as [[u' s2]|e| |].
        2:{ exfalso. specialize (Hno (erh s1)). rewrite H2 in Hno. exact Hno. }
        2:{ exfalso. specialize (Hno (erh s1)). rewrite H2 in Hno. exact Hno. }
        2: exact I.
        destruct H2 as (H2 & Hc2 & Hs2).
        destruct (Hdet _ _ _ H1 (erh s1)) as [H1' Hh1]. rewrite H1' in H2. injection H2 as Heq Hh2.
        pose proof (step_sim (g_eta gc) t' u' Hc1 Hc2 s2 Hs2) as H3. unfold bind at 1.
        rewrite <- Heq in H3. destruct (r_step_refl (g_eta gc) (ers t')) as (ps & Hps & Hall). rewrite Hps in H3.
        destruct (step uniq (g_eta gc) t' u' s2) as [[o s3]|e| |]; try discriminate H3; try exact I.
        destruct H3 as (H3 & _ & Hs3). injection H3 as H3 Hh3.
        destruct o as [new|]; [|discriminate]. injection H3 as H3.
        pose proof (IH2 (new ++ cns) s3 Hs3) as H4.
        assert (Hle : le_m (r_conv_loop sg n (map er_pair (new ++ cns))) (r_conv_loop sg (S n) ((ers t, ers t) :: map er_pair cns))).
        { rewrite map_app, <- H3. eapply le_m_trans; [apply r_conv_pop_refl; assumption|].
          cbn [r_conv_loop]. destruct (tm_eq_dec (ers t) (ers t)); [apply le_m_refl|congruence]. }
        rewrite <- Hh3, <- Hh2, Hh1 in H4.
        specialize (Hle (erh s)).
        destruct (convertible_loop uniq gc n (new ++ cns) s3) as [[b s4]|e| |].
        * destruct H4 as (H4 & _ & Hs4). rewrite H4 in Hle. destruct Hle as [Hle|Hle]; [discriminate|].
          rewrite <- Hle. s3.
        * rewrite H4 in Hle. destruct Hle as [Hle|Hle]; [discriminate|congruence].
        * rewrite H4 in Hle. destruct Hle as [Hle|Hle]; [discriminate|congruence].
        * exact I.
      + cbn [r_conv_loop]. destruct (tm_eq_dec (ers t) (ers u)); [congruence|].
        eapply simm_bind; [apply Hwh|]. intros t' Ht'.
        eapply simm_bind; [apply Hwh|]. intros u' Hu'.
        apply simm_eqm with (m1 := bind (ret (r_step (sg_eta sg) (ers t') (ers u')))
           (fun o => match o with None => ret false | Some new => r_conv_loop sg n (new ++ map er_pair cns) end)).
        { intros s. unfold bind, ret. reflexivity. }
        eapply simm_bind; [apply step_sim; assumption|].
        intros [new|] _; cbn [option_map]; [|apply simm_ret; [reflexivity|exact I]].
        rewrite <- map_app. apply IH2.
  Qed.

  Lemma whnf_sim n t : simm ers canon (whnf uniq gc n t) (r_whnf sg n (ers t)).
  Proof. apply whnf__sim. apply machine_sim. Qed.
  Lemma convertible_sim n t u : simm id any (convertible uniq gc n t u) (r_convertible sg n (ers t) (ers u)).
  Proof. apply (proj2 (machine_sim n) [(t, u)]). Qed.
End Sim.
