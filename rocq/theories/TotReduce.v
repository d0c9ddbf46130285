(** * The abstract machine of the model returns on strongly normalising terms

    [tot s F]: with enough fuel, the computation [F] started in [s] is not cut off. *)

From Verif Require Import Base LibMono ModelTerm ModelGctx ModelSubst ModelReduce
  SpecTerm SpecConv SpecConvFacts SpecWhnf SpecRed SpecSN RedConfl RedSN Erase
  RefMachine RefSafe RefSound RefWhnf SimReduce RefRed.

Open Scope sm_scope.

Definition tot {A} (s : mst) (F : nat -> M A) : Prop :=
  exists n0 r, r <> Fuel /\ forall n, n0 <= n -> F n s = r.

Lemma tot_ret {A} s (a : A) : tot s (fun _ => ret a).
Proof. exists 0, (Ok (a, s)). split; [discriminate|reflexivity]. Qed.
Lemma tot_const {A} s (m : M A) : m s <> Fuel -> tot s (fun _ => m).
Proof. intros H. exists 0, (m s). auto. Qed.
Lemma tot_panic {A} s : @tot A s (fun _ => panic).
Proof. apply tot_const. discriminate. Qed.
Lemma tot_bind {A B} s (F : nat -> M A) (K : nat -> A -> M B) :
  tot s F -> (forall n a s', F n s = Ok (a, s') -> tot s' (fun n => K n a)) -> tot s (fun n => bind (F n) (K n)).
Proof.
  intros (n0 & r & Hr & HF) HK. destruct r as [[a s']|e| |].
  - destruct (HK n0 a s' (HF n0 (le_n _))) as (n1 & r1 & Hr1 & HK1). exists (Nat.max n0 n1), r1. split; [exact Hr1|].
    intros n Hn. unfold bind. rewrite HF by lia. apply HK1. lia.
  - exists n0, (Err e). split; [discriminate|]. intros n Hn. unfold bind. rewrite HF by lia. reflexivity.
  - exists n0, Panic. split; [discriminate|]. intros n Hn. unfold bind. rewrite HF by lia. reflexivity.
  - congruence.
Qed.
Lemma tot_S {A} s (F F' : nat -> M A) : (forall n, F (S n) s = F' n s) -> tot s F' -> tot s F.
Proof.
  intros H (n0 & r & Hr & HF). exists (S n0), r. split; [exact Hr|]. intros [|n] Hn; [lia|]. rewrite H. apply HF. lia.
Qed.
Lemma tot_ext {A} s (F F' : nat -> M A) : (forall n, F n s = F' n s) -> tot s F' -> tot s F.
Proof. intros H (n0 & r & Hr & HF). exists n0, r. split; [exact Hr|]. intros n Hn. rewrite H. auto. Qed.

(** ** Substitution *)
Section Subst.
  Variable uniq : nat -> bool.
  Variable I : mst -> Prop.
  Hypothesis HI : forall s, I s -> I (MSt (m_heap s) (S (m_tick s))).

  (** [tot] with an invariant *)
  Definition totI {A} (s : mst) (F : nat -> M A) : Prop :=
    exists n0 r, (forall n, n0 <= n -> F n s = r) /\
      match r with Ok (_, s') => I s' | Fuel => False | _ => True end.
  Lemma totI_tot {A} s (F : nat -> M A) : totI s F -> tot s F.
  Proof. intros (n0 & r & H & Hr). exists n0, r. split; [|exact H]. intros ->. exact Hr. Qed.
  Lemma totI_ret {A} s (a : A) : I s -> totI s (fun _ => ret a).
  Proof. intros H. exists 0, (Ok (a, s)). auto. Qed.
  Lemma totI_panic {A} s : @totI A s (fun _ => panic).
  Proof. exists 0, Panic. auto. Qed.
  Lemma totI_bind {A B} s (F : nat -> M A) (K : nat -> A -> M B) :
    totI s F -> (forall a s', I s' -> totI s' (fun n => K n a)) -> totI s (fun n => bind (F n) (K n)).
  Proof.
    intros (n0 & r & HF & Hr) HK. destruct r as [[a s']|e| |].
    - destruct (HK a s' Hr) as (n1 & r1 & HK1 & Hr1). exists (Nat.max n0 n1), r1. split; [|exact Hr1].
      intros n Hn. unfold bind. rewrite HF by lia. apply HK1. lia.
    - exists n0, (Err e). split; [|exact Logic.I]. intros n Hn. unfold bind. rewrite HF by lia. reflexivity.
    - exists n0, Panic. split; [|exact Logic.I]. intros n Hn. unfold bind. rewrite HF by lia. reflexivity.
    - destruct Hr.
  Qed.
  Lemma totI_unique s : I s -> totI s (fun _ => is_unique uniq).
  Proof. intros H. eexists 0, _. split; [intros; reflexivity|]. cbn. auto. Qed.
  Lemma totI_mapM {A B} (F : nat -> A -> M B) l :
    Forall (fun a => forall s, I s -> totI s (fun n => F n a)) l -> forall s, I s -> totI s (fun n => mapM (F n) l).
  Proof.
    induction 1 as [|a l Ha _ IH]; intros s Hs; [exact (totI_ret s [] Hs)|]. cbn [mapM].
    apply (totI_bind s (fun n => F n a)); [auto|]. intros b s1 H1.
    apply (totI_bind s1 (fun n => mapM (F n) l)); [auto|]. intros bs s2 H2. apply (totI_ret s2 (b :: bs) H2).
  Qed.
  Lemma totI_usub s n k : I s -> totI s (fun _ => usub n k).
  Proof. intros H. unfold usub. destruct (k <=? n); [apply totI_ret; exact H|apply totI_panic]. Qed.

  Section Apply.
    Variable sb : nat -> nat -> nat -> M sterm.
    Hypothesis Hsb : forall n k s, I s -> totI s (fun f => sb f n k).

    Lemma comb_apply_subst_tot {T} (go : nat -> T -> nat -> M (sterm * bool)) c :
      comb_all (fun t => forall k s, I s -> totI s (fun f => go f t k)) c ->
      forall k s, I s -> totI s (fun f => comb_apply_subst (go f) c k).
    Proof.
      destruct c as [h args|id a b|id [a|] b]; cbn [comb_all comb_apply_subst]; intros Hall k s Hs.
      - destruct Hall as [Hh Ha].
        apply (totI_bind s (fun f => go f h k)); [auto|]. intros [h' ch] s1 H1.
        apply (totI_bind s1 (fun f => mapM (fun x => go f x k) args)).
        + apply totI_mapM; [|exact H1]. eapply Forall_impl; [|exact Ha]. cbn. auto.
        + intros ps s2 H2. apply (totI_ret s2 _ H2).
      - destruct Hall as [Ha Hb].
        apply (totI_bind s (fun f => go f a k)); [auto|]. intros [a' ch] s1 H1.
        apply (totI_bind s1 (fun f => go f b (k + 1))); [auto|]. intros [b' ch'] s2 H2. apply (totI_ret s2 _ H2).
      - destruct Hall as [Ha Hb].
        apply (totI_bind s (fun f => go f b (k + 1))); [auto|]. intros [b' ch'] s2 H2.
        apply (totI_bind s2 (fun f => go f a k)); [auto|]. intros [a' ch] s1 H1. apply (totI_ret s1 _ H1).
      - destruct Hall as [_ Hb].
        apply (totI_bind s (fun f => go f b (k + 1))); [auto|]. intros [b' ch'] s2 H2. apply (totI_ret s2 _ H2).
    Qed.
    Lemma apply_subst_l_tot t : forall k s, I s -> totI s (fun f => apply_subst_l (sb f) t k).
    Proof.
      induction t as [|c|n|c IH] using lterm_ind'; intros k s Hs; cbn [apply_subst_l]; try (apply (totI_ret s _ Hs)).
      - destruct (k <=? n); [|apply (totI_ret s _ Hs)].
        apply (totI_bind s (fun f => sb f n k)); [auto|]. intros t s1 H1. apply (totI_ret s1 _ H1).
      - apply (totI_bind s (fun f => comb_apply_subst (apply_subst_l (sb f)) c k)).
        + apply (comb_apply_subst_tot (fun f => apply_subst_l (sb f))); assumption.
        + intros [c' ch] s1 H1. apply (totI_ret s1 _ H1).
    Qed.
    Lemma apply_subst_tot t : forall k s, I s -> totI s (fun f => apply_subst uniq (sb f) t k).
    Proof.
      induction t as [| |c|n|c|c IH] using sterm_ind'; intros k s Hs; cbn [apply_subst]; try (apply (totI_ret s _ Hs)).
      - destruct (k <=? n); [|apply (totI_ret s _ Hs)].
        apply (totI_bind s (fun f => sb f n k)); [auto|]. intros t s1 H1. apply (totI_ret s1 _ H1).
      - apply (totI_bind s (fun f => comb_apply_subst (apply_subst_l (sb f)) c k)).
        + apply (comb_apply_subst_tot (fun f => apply_subst_l (sb f))); [|exact Hs].
          apply comb_all_intro. apply apply_subst_l_tot.
        + intros [c' ch] s1 H1. apply (totI_ret s1 _ H1).
      - apply (totI_bind s (fun f => is_unique uniq)); [apply totI_unique; exact Hs|]. intros u s1 H1.
        apply (totI_bind s1 (fun f => comb_apply_subst (apply_subst uniq (sb f)) c k)).
        + apply (comb_apply_subst_tot (fun f => apply_subst uniq (sb f))); assumption.
        + intros [c' ch] s2 H2. destruct u, ch; apply (totI_ret s2 _ H2).
    Qed.
  End Apply.

  Lemma shift_mut_tot t k s : I s -> totI s (fun _ => shift_mut uniq t k).
  Proof.
    intros Hs. unfold shift_mut.
    apply (totI_bind s (fun f => apply_subst uniq ((fun _ => fun n _ => ret (SVar (n + k))) f) t 0)).
    - apply apply_subst_tot; [|exact Hs]. intros n j s0 H0. apply (totI_ret s0 _ H0).
    - intros [t' ch] s1 H1. apply (totI_ret s1 _ H1).
  Qed.
  Lemma shift_tot t k s : I s -> totI s (fun _ => shift uniq t k).
  Proof. intros Hs. unfold shift. destruct (k =? 0); [apply (totI_ret s _ Hs)|apply shift_mut_tot; exact Hs]. Qed.
  Lemma apply_tot t args s : (forall s, I s -> totI s args) -> I s -> totI s (fun n => apply uniq t (args n)).
  Proof.
    intros Ha Hs.
    assert (H : totI s (fun n => args0 <- args n ;; ret (SSComb (Appl t args0)))).
    { apply (totI_bind s args); [auto|]. intros us s1 H1. apply (totI_ret s1 _ H1). }
    destruct t as [| |c|n|c|[f args1|id a b|id a b]]; try exact H. cbn [apply].
    apply (totI_bind s (fun f => is_unique uniq)); [apply totI_unique; exact Hs|]. intros u s1 H1.
    apply (totI_bind s1 args); [auto|]. intros us s2 H2. destruct u; apply (totI_ret s2 _ H2).
  Qed.

  (** ** Reading back *)
  Lemma psubst_tot (force : nat -> loc -> M sterm) args n k s :
    (forall l s, In l args -> I s -> totI s (fun f => force f l)) -> I s ->
    totI s (fun f => psubst uniq (force f) args n k).
  Proof.
    intros Hf Hs. unfold psubst. apply (totI_bind s (fun _ => usub n k)); [apply totI_usub; exact Hs|].
    intros d s1 H1. destruct (nth_error args d) as [l|] eqn:El.
    - apply (totI_bind s1 (fun f => force f l)); [apply Hf; [eapply nth_error_In; exact El|exact H1]|].
      intros t s2 H2. apply shift_tot. exact H2.
    - apply (totI_bind s1 (fun _ => usub n (length args))); [apply totI_usub; exact H1|].
      intros m s2 H2. apply (totI_ret s2 _ H2).
  Qed.
  Lemma sterm_of_state_tot (force ofr : nat -> loc -> M sterm) st s :
    (forall l s, In l (s_ctx st) -> I s -> totI s (fun f => force f l)) ->
    (forall l s, In l (s_stack st) -> I s -> totI s (fun f => ofr f l)) -> I s ->
    totI s (fun f => sterm_of_state uniq (force f) (ofr f) st).
  Proof.
    intros Hf Ho Hs. unfold sterm_of_state. destruct st as [ctx t stack]. cbn [s_ctx s_term s_stack] in *.
    apply (totI_bind s (fun f => match ctx with [] => ret t
         | _ => ' (t, _) <- apply_subst uniq (psubst uniq (force f) ctx) t 0 ;; ret t end)).
    - destruct ctx as [|l ctx0]; [apply (totI_ret s _ Hs)|]. remember (l :: ctx0) as ctx.
      apply (totI_bind s (fun f => apply_subst uniq (psubst uniq (force f) ctx) t 0)).
      + apply (apply_subst_tot (fun f => psubst uniq (force f) ctx)); [|exact Hs].
        intros n k s0 H0. apply psubst_tot; assumption.
      + intros [t' ch] s1 H1. apply (totI_ret s1 _ H1).
    - intros t' s1 H1. destruct stack as [|l stack0]; [apply (totI_ret s1 _ H1)|]. remember (l :: stack0) as stack.
      apply (apply_tot t' (fun f => mapM (ofr f) stack)); [|exact H1]. intros s2 H2.
      apply totI_mapM; [|exact H2]. apply Forall_forall. auto.
  Qed.
End Subst.

(** Reading back changes nothing but thunks. *)
Definition ntodo (h : heap) (l : loc) : Prop :=
  exists th, nth_error h l = Some (RCThunk th) /\ forall l', th <> RTodo l'.
Definition fext (h h' : heap) : Prop := forall l,
  match nth_error h l with
  | Some (RCState st w b) => nth_error h' l = Some (RCState st w b)
  | Some (RCThunk (RTodo l')) => nth_error h' l = Some (RCThunk (RTodo l')) \/ ntodo h' l
  | Some (RCThunk _) => ntodo h' l
  | None => True
  end.
Lemma fext_refl h : fext h h.
Proof.
  intros l. destruct (nth_error h l) as [[st w b|[l'| |t]]|] eqn:E; auto; eexists; (split; [exact E|discriminate]).
Qed.
Lemma fext_set h h' l l' th : fext h h' -> nth_error h l = Some (RCThunk (RTodo l')) -> (forall l', th <> RTodo l') ->
  fext h (list_set h' l (RCThunk th)).
Proof.
  intros H Hl Hth x. specialize (H x) as Hx. pose proof (H l) as Hl'. rewrite Hl in Hl'.
  assert (Hlen : l < length h').
  { destruct Hl' as [Hl'|(th' & Hl' & _)]; eapply nth_error_lt; exact Hl'. }
  destruct (Nat.eq_dec l x) as [<-|Hne].
  - rewrite Hl. right. exists th. split; [apply nth_error_list_set_eq; exact Hlen|exact Hth].
  - unfold ntodo in *. rewrite nth_error_list_set_neq by exact Hne. exact Hx.
Qed.

Definition rb (h : heap) (s : mst) : Prop := hinv s /\ fext h (erh s).
Lemma rb_tick h s : rb h s -> rb h (MSt (m_heap s) (S (m_tick s))).
Proof. intros [H1 H2]. split; [exact H1|exact H2]. Qed.
Lemma erh_nth s l c : nth_error (erh s) l = Some c -> exists c', nth_error (m_heap s) l = Some c' /\ c = er_cell c'.
Proof. unfold erh. rewrite nth_error_map. destruct (nth_error (m_heap s) l); cbn; [|discriminate]. intros [= <-]. eauto. Qed.

Lemma totI_S {A} I s (F F' : nat -> M A) : (forall n, F (S n) s = F' n s) -> totI I s F' -> totI I s F.
Proof.
  intros H (n0 & r & HF & Hr). exists (S n0), r. split; [|exact Hr]. intros [|n] Hn; [lia|]. rewrite H. apply HF. lia.
Qed.
Lemma totI_set h l l' th s : rb h s -> nth_error h l = Some (RCThunk (RTodo l')) -> (forall l', th <> TTodo l') ->
  totI (rb h) s (fun _ => write l (CThunk th)).
Proof.
  intros [H1 H2] Hl Hth. eexists 0, _. split; [intros; reflexivity|]. split.
  - pose proof (simm_write l (CThunk th) _ ltac:(discriminate) eq_refl s H1) as (_ & _ & H). exact H.
  - unfold erh. cbn. rewrite map_list_set. cbn. eapply fext_set; [exact H2|exact Hl|].
    intros x. destruct th; cbn; try discriminate. destruct (Hth l0 eq_refl).
Qed.

Lemma force_tot uniq h b l : safe h b l -> forall s, rb h s ->
  if b then totI (rb h) s (fun n => sterm_of_rstate uniq n l) else totI (rb h) s (fun n => force uniq n l).
Proof.
  induction 1 as [l st w Hl Hc IHc Hs IHs|l l' Hl Hs IH|l t Hl]; intros s Hrb; cbn beta iota in *.
  - pose proof (proj2 Hrb l) as Hx. rewrite Hl in Hx. destruct (erh_nth _ _ _ Hx) as (c & Ec & Hc').
    destruct c as [st' w' b'|th]; [|discriminate]. injection Hc' as -> -> <-.
    apply (totI_S _ _ _ (fun n => sterm_of_state uniq (force uniq n) (sterm_of_rstate uniq n) st')).
    { intros n. cbn [sterm_of_rstate]. unfold borrow_state, read, bind, ret. rewrite Ec. reflexivity. }
    apply (sterm_of_state_tot uniq (rb h) (rb_tick h) (force uniq) (sterm_of_rstate uniq)); [| |exact Hrb].
    + intros x s0 Hx0 H0. apply IHc; assumption.
    + intros x s0 Hx0 H0. apply IHs; assumption.
  - pose proof (proj2 Hrb l) as Hx. rewrite Hl in Hx. destruct Hx as [Hx|(th & Hx & Hth)].
    + destruct (erh_nth _ _ _ Hx) as (c & Ec & Hc'). destruct c as [|[x| |t]]; try discriminate. injection Hc' as <-.
      apply (totI_S _ _ _ (fun n => write l (CThunk TBusy) ;;; t <- sterm_of_rstate uniq n l' ;; write l (CThunk (TDone t)) ;;; ret t)).
      { intros n. cbn [force]. unfold read, bind at 1. rewrite Ec. reflexivity. }
      apply (totI_bind (rb h) s (fun _ => write l (CThunk TBusy))); [eapply totI_set; [exact Hrb|exact Hl|discriminate]|].
      intros _ s1 H1. apply (totI_bind (rb h) s1 (fun n => sterm_of_rstate uniq n l')); [apply IH; exact H1|].
      intros t s2 H2. apply (totI_bind (rb h) s2 (fun _ => write l (CThunk (TDone t)))); [eapply totI_set; [exact H2|exact Hl|discriminate]|].
      intros _ s3 H3. apply (totI_ret (rb h) s3 _ H3).
    + destruct (erh_nth _ _ _ Hx) as (c & Ec & Hc'). destruct c as [|th']; [discriminate|]. injection Hc' as ->.
      destruct th' as [x| |t]; [destruct (Hth x eq_refl)| |].
      * apply (totI_S _ _ _ (fun n => panic)); [|apply totI_panic].
        intros n. cbn [force]. unfold read, bind at 1. rewrite Ec. reflexivity.
      * apply (totI_S _ _ _ (fun n => ret t)); [|apply (totI_ret (rb h) s _ Hrb)].
        intros n. cbn [force]. unfold read, bind at 1. rewrite Ec. reflexivity.
  - pose proof (proj2 Hrb l) as Hx. rewrite Hl in Hx. destruct Hx as (th & Hx & Hth).
    destruct (erh_nth _ _ _ Hx) as (c & Ec & Hc'). destruct c as [|th']; [discriminate|]. injection Hc' as ->.
    destruct th' as [x| |t']; [destruct (Hth x eq_refl)| |].
    * apply (totI_S _ _ _ (fun n => panic)); [|apply totI_panic].
      intros n. cbn [force]. unfold read, bind at 1. rewrite Ec. reflexivity.
    * apply (totI_S _ _ _ (fun n => ret t')); [|apply (totI_ret (rb h) s _ Hrb)].
      intros n. cbn [force]. unfold read, bind at 1. rewrite Ec. reflexivity.
Qed.
Lemma force_returns uniq s l : hinv s -> safe (erh s) false l -> tot s (fun n => force uniq n l).
Proof. intros Hi Hs. eapply totI_tot. apply (force_tot uniq _ _ _ Hs s). split; [exact Hi|apply fext_refl]. Qed.
Lemma readback_returns uniq s st : hinv s -> st_safe (erh s) (er_state st) ->
  tot s (fun n => sterm_of_state uniq (force uniq n) (sterm_of_rstate uniq n) st).
Proof.
  intros Hi [Hc Hs]. eapply totI_tot. apply (sterm_of_state_tot uniq (rb (erh s)) (rb_tick _) (force uniq) (sterm_of_rstate uniq)).
  - intros l s0 Hl H0. apply (force_tot uniq _ _ _ (Hc l Hl) s0 H0).
  - intros l s0 Hl H0. apply (force_tot uniq _ _ _ (Hs l Hl) s0 H0).
  - split; [exact Hi|apply fext_refl].
Qed.

(** ** The machine *)
Section Machine.
  Variable uniq : nat -> bool.
  Variable gc : gctx.
  Notation sg := (er_gctx gc).
  Hypothesis Hlin : left_linear sg.

  Definition inv (G : list tm) (s : mst) : Prop := hinv s /\ heap_ok sg G (erh s).
  Notation rw := (fun n => rstate_whnf (state_whnf uniq gc n)).
  Notation rrw := (fun n => r_rwhnf (r_state_whnf sg n)).

  Lemma part {A B} (f : A -> B) P m m' G Q Qs s a s' :
    simm f P m m' -> tr sg G m' Q -> triple (erh s) m' Qs -> inv G s -> m s = Ok (a, s') ->
    P a /\ ext (erh s) (erh s') /\ Qs (f a) (erh s') /\ exists G', pre G G' /\ inv G' s' /\ Q G' (f a).
  Proof.
    intros Hs Ht Htr [H1 H2] E. specialize (Hs s H1). rewrite E in Hs. destruct Hs as (E' & HP & H1').
    specialize (Ht _ H2). unfold triple in Htr. rewrite E' in Ht, Htr. destruct Htr as [He HQs].
    destruct Ht as (G' & Hp & Hh & HQ). repeat (split; [assumption|]). exists G'. split; [exact Hp|]. split; [split; [exact H1'|exact Hh]|exact HQ].
  Qed.

  Lemma rw_sim n l : simm er_state head_ok (bind (rw n l) (fun _ => borrow_state l)) (bind (rrw n l) (fun _ => r_borrow l)).
  Proof. apply (rstate_whnf_sim uniq). apply machine_sim. Qed.
  Lemma rrw_red n G l g : look G l g -> tr sg G (rrw n l) (fun _ _ => True).
  Proof. apply r_rwhnf_red. apply r_state_whnf_red. exact Hlin. Qed.
  Lemma rrw_safe n h l : safe h true l -> triple h (rrw n l) top.
  Proof. apply r_rwhnf_safe. apply r_machine_safe. Qed.
  Lemma cv_sim n t u : simm id any (convertible_loop uniq gc n [(t, u)]) (r_conv_loop sg n [(ers t, ers u)]).
  Proof. apply (proj2 (machine_sim uniq gc n) [(t, u)]). Qed.
  Lemma cv_safe n h t u : triple h (r_conv_loop sg n [(t, u)]) top.
  Proof. apply r_machine_safe. Qed.

  (** *** Matching, given that cells that denote smaller terms can be evaluated *)
  Section Match.
    Variable d : tm.
    Hypothesis HW : forall G s l g, inv G s -> safe (erh s) true l -> look G l g -> below sg (strip g) d ->
      tot s (fun n => rw n l).

    Lemma borrow_tot s l : borrow_state l s <> Fuel.
    Proof.
      unfold borrow_state, bind, read. destruct (nth_error (m_heap s) l) as [[st w [|]|th]|]; discriminate.
    Qed.
    Lemma rw_borrow_tot G s l g : inv G s -> safe (erh s) true l -> look G l g -> below sg (strip g) d ->
      tot s (fun n => bind (rw n l) (fun _ => borrow_state l)).
    Proof.
      intros Hi Hs Hl Hb. apply (tot_bind s (fun n => rw n l)); [eapply HW; eassumption|].
      intros _ _ s' _. apply tot_const. apply borrow_tot.
    Qed.
    Lemma rw_borrow_part n G s l g st s' : inv G s -> safe (erh s) true l -> look G l g ->
      bind (rw n l) (fun _ => borrow_state l) s = Ok (st, s') ->
      ext (erh s) (erh s') /\ st_safe (erh s') (er_state st) /\ exists G', pre G G' /\ inv G' s' /\ st_sem sg G' (er_state st) g.
    Proof.
      intros Hi Hs Hl E.
      refine (proj2 (part _ _ _ (bind (rrw n l) (fun _ => r_borrow l)) G (fun G' st => st_sem sg G' st g)
               (fun st h => st_safe h st) s st s' (rw_sim n l) _ _ Hi E)).
      - eapply tr_bind; [eapply rrw_red; exact Hl|]. intros G1 [] Hp _. apply tr_borrow. eapply look_pre; eassumption.
      - eapply triple_bind; [apply rrw_safe; exact Hs|]. intros [] h1 He _.
        apply triple_borrow; [eapply ext_safe; eassumption|]. auto.
    Qed.

    Definition pat_tot (p : pattern) : Prop :=
      forall G s l g sb, inv G s -> safe (erh s) true l -> look G l g -> below sg (strip g) d ->
        sb_ok G sb -> sb_safe (erh s) sb -> tot s (fun n => match_pat (rw n) l p sb).

    Lemma match_pat_part n p G s l g sb o s' : inv G s -> safe (erh s) true l -> look G l g ->
      sb_ok G sb -> sb_safe (erh s) sb -> match_pat (rw n) l p sb s = Ok (o, s') ->
      ext (erh s) (erh s') /\ osb_safe o (erh s') /\ exists G', pre G G' /\ inv G' s' /\ match_post sg (erp p) g sb G' o.
    Proof.
      intros Hi Hs Hl Ho Hsb E.
      refine (proj2 (part _ _ _ _ G (match_post sg (erp p) g sb) osb_safe s o s' (match_pat_sim (rw n) (rrw n) (rw_sim n) p l sb) _ _ Hi E)).
      - apply r_match_pat_red; auto. intros. eapply rrw_red; eassumption.
      - apply r_match_pat_safe; auto. intros. apply rrw_safe. assumption.
    Qed.
    Lemma pats_tot ps : Forall pat_tot ps -> forall G s stack gs sb, inv G s -> safes (erh s) true stack ->
      Forall2 (look G) stack gs -> (forall g, In g gs -> below sg (strip g) d) -> sb_ok G sb -> sb_safe (erh s) sb ->
      tot s (fun n => match_pats (match_pat (rw n)) stack ps sb).
    Proof.
      induction 1 as [|p ps Hp _ IH]; intros G s stack gs sb Hi Hs Hl Hb Ho Hsb; [apply tot_ret|].
      destruct Hl as [|l g stack gs Hl Hls]; [apply tot_ret|].
      assert (Hsl : safe (erh s) true l) by (apply Hs; left; reflexivity).
      apply (tot_bind s (fun n => match_pat (rw n) l p sb)).
      { eapply Hp; try eassumption. apply Hb. left. reflexivity. }
      intros n [sb'|] s' E; [|apply tot_ret].
      destruct (match_pat_part _ _ _ _ _ _ _ _ _ Hi Hsl Hl Ho Hsb E) as (He & Hsb' & G' & Hpre & Hi' & Hm).
      eapply IH; [exact Hi'| |eapply looks_pre; eassumption| |apply Hm|exact Hsb'].
      - eapply safes_ext; [exact He|]. intros x Hx. apply Hs. right. exact Hx.
      - intros x Hx. apply Hb. right. exact Hx.
    Qed.
    Lemma match_pat_tot p : pat_tot p.
    Proof.
      induction p as [c ps IH|m|] using pattern_ind'; intros G s l g sb Hi Hs Hl Hb Ho Hsb; [|apply tot_ret|apply tot_ret].
      cbn [match_pat].
      apply (tot_ext _ _ (fun n => bind (bind (rw n l) (fun _ => borrow_state l)) (fun st =>
        match s_term st with
        | SConst s => if (c =? s) && (length (s_stack st) =? length ps)
                      then match_pats (match_pat (rw n)) (s_stack st) ps sb else ret None
        | _ => ret None end))).
      { intros n. rewrite bind_bind. reflexivity. }
      apply (tot_bind s (fun n => bind (rw n l) (fun _ => borrow_state l))); [eapply rw_borrow_tot; eassumption|].
      intros n st s' E. destruct (rw_borrow_part _ _ _ _ _ _ _ Hi Hs Hl E) as (He & [Hsc Hss] & G' & Hpre & Hi' & Hst).
      destruct st as [ctx t stack]. cbn [s_term s_stack]. destruct t as [| |c'| | |]; try apply tot_ret.
      destruct ((c =? c') && _); [|apply tot_ret].
      destruct Hst as (ts & us & Hc & Hu & Hg). cbn in Hc, Hu, Hg, Hss.
      eapply pats_tot; [exact IH|exact Hi'|exact Hss|exact Hu| | |].
      - intros u Hin. unfold pc in Hg. rewrite strip_apps in Hg. cbn in Hg.
        eapply below_trans; [|exact Hb]. eapply below_reds; [|exact Hg]. apply below_apps. apply in_map. exact Hin.
      - eapply sb_ok_pre; eassumption.
      - eapply sb_safe_ext; eassumption.
    Qed.

    (** Without repeated variables, nothing is compared. *)
    Lemma flatten_tot cv sb : single sb -> forall s, tot s (fun n => flatten uniq (cv n) n sb).
    Proof.
      induction sb as [|ls sb IH]; intros H1 s; cbn [flatten]; [apply tot_ret|].
      apply (tot_bind s (fun n => flatten uniq (cv n) n sb)); [apply IH; intros x Hx; apply H1; right; exact Hx|].
      intros _ [ctx|] s' _; [|apply tot_ret].
      apply (tot_bind s' (fun n => all_convertible uniq (cv n) n ls)).
      - specialize (H1 ls (or_introl eq_refl)). destruct ls as [|l [|l' ls]]; [apply tot_ret| |cbn in H1; lia].
        cbn [all_convertible all_convertible_loop]. apply tot_const. discriminate.
      - intros _ [t|] s2 _; apply tot_ret.
    Qed.

    Notation cv := (fun n t u => convertible_loop uniq gc n [(t, u)]).
    Notation rcv := (fun n t u => r_conv_loop sg n [(t, u)]).
    Lemma match_rule_sim n stack r :
      simm id any (match_rule (rw n) stack r) (r_match_rule (rrw n) stack (er_rule r)).
    Proof.
      unfold match_rule, r_match_rule. cbn [er_rule sr_args sr_vars]. rewrite map_length.
      destruct (_ <? _); [apply simm_ret; [reflexivity|exact I]|apply match_pats_sim; apply rw_sim].
    Qed.
    Lemma match_flatten_sim n stack r :
      simm id any (match_flatten uniq (rw n) (cv n) n stack r) (r_match_flatten (rrw n) (rcv n) n stack (er_rule r)).
    Proof.
      unfold match_flatten, r_match_flatten.
      eapply simm_bind with (f := id) (P := any); [apply match_rule_sim|].
      intros [sb|] _; unfold id; [apply flatten_sim; apply cv_sim|apply simm_ret; [reflexivity|exact I]].
    Qed.
    Lemma r_match_rule_safe n h stack r : safes h true stack -> triple h (r_match_rule (rrw n) stack r) osb_safe.
    Proof.
      intros Hs. unfold r_match_rule. destruct (_ <? _); [apply triple_ret; exact I|].
      apply r_match_pats_safe; [intros; apply rrw_safe; assumption|exact Hs|].
      intros x Hx. apply repeat_spec in Hx. subst. apply safes_nil.
    Qed.
    Lemma r_match_flatten_safe n h stack r : safes h true stack ->
      triple h (r_match_flatten (rrw n) (rcv n) n stack r) octx_safe.
    Proof.
      intros Hs. unfold r_match_flatten. eapply triple_bind; [apply r_match_rule_safe; exact Hs|].
      intros [sb|] h' He Hsb; [|apply triple_ret; exact I]. apply r_flatten_safe; [intros; apply cv_safe|exact Hsb].
    Qed.
    Lemma r_match_rule_single n G stack us r : linear r -> Forall2 (look G) stack us ->
      tr sg G (r_match_rule (rrw n) stack r) (fun _ o => match o with Some sb => single sb | None => True end).
    Proof.
      intros Hr Hu. unfold r_match_rule. pose proof (Forall2_length Hu) as Hlen.
      destruct (Nat.ltb_spec (length stack) (length (sr_args r))); [apply tr_ret; exact I|].
      eapply tr_post; [|apply (r_match_pats_red sg (rrw n) (rrw_red n)); [lia|eassumption|]].
      - intros G' [sb|] _; [|auto]. intros (_ & _ & Hcnt & _) ls Hin. apply In_nth_error in Hin. destruct Hin as [m Hm].
        rewrite <- (pushes_nth _ _ _ Hm), Hcnt, pushes_repeat. apply (proj1 (NoDup_count_occ Nat.eq_dec _) Hr).
      - intros ls l Hls Hl. apply repeat_spec in Hls. subst. destruct Hl.
    Qed.

    Lemma match_flatten_tot G s stack us r : linear (er_rule r) -> inv G s -> safes (erh s) true stack ->
      Forall2 (look G) stack us -> (forall u, In u us -> below sg (strip u) d) ->
      tot s (fun n => match_flatten uniq (rw n) (cv n) n stack r).
    Proof.
      intros Hr Hi Hs Hu Hb. unfold match_flatten.
      apply (tot_bind s (fun n => match_rule (rw n) stack r)).
      - unfold match_rule. destruct (_ <? _); [apply tot_ret|].
        eapply pats_tot; [apply Forall_forall; intros; apply match_pat_tot|exact Hi|exact Hs|exact Hu|exact Hb| |].
        + intros ls l Hls Hl. apply repeat_spec in Hls. subst. destruct Hl.
        + intros x Hx. apply repeat_spec in Hx. subst. apply safes_nil.
      - intros n [sb|] s' E; [|apply tot_ret].
        destruct (part _ _ _ _ _ _ _ _ _ _ (match_rule_sim n stack r) (r_match_rule_single n G stack us _ Hr Hu)
                    (r_match_rule_safe n _ stack _ Hs) Hi E) as (_ & _ & _ & G' & _ & _ & H1).
        apply (flatten_tot cv). exact H1.
    Qed.
    Lemma match_flatten_part n G s stack us r o s' : linear (er_rule r) -> inv G s -> safes (erh s) true stack ->
      Forall2 (look G) stack us -> match_flatten uniq (rw n) (cv n) n stack r s = Ok (o, s') ->
      ext (erh s) (erh s') /\ exists G', pre G G' /\ inv G' s'.
    Proof.
      intros Hr Hi Hs Hu E.
      destruct (part _ _ _ _ _ _ _ _ _ _ (match_flatten_sim n stack r) (r_match_flatten_red sg (rrw n) (rrw_red n) (rcv n) n stack us _ Hr G Hu)
                  (r_match_flatten_safe n _ stack _ Hs) Hi E) as (_ & He & _ & G' & Hp & Hi' & _). eauto.
    Qed.
    Lemma first_match_tot stack us rules : (forall r, In r rules -> linear (er_rule r)) ->
      (forall u, In u us -> below sg (strip u) d) -> forall G s, inv G s -> safes (erh s) true stack ->
      Forall2 (look G) stack us -> tot s (fun n => first_match uniq (rw n) (cv n) n stack rules).
    Proof.
      intros Hr Hb. induction rules as [|r rules IH]; intros G s Hi Hs Hu; cbn [first_match]; [apply tot_ret|].
      assert (Hr0 : linear (er_rule r)) by (apply Hr; left; reflexivity).
      apply (tot_bind s (fun n => match_flatten uniq (rw n) (cv n) n stack r)); [eapply match_flatten_tot; eassumption|].
      intros n [ctx|] s' E; [apply tot_ret|].
      destruct (match_flatten_part _ _ _ _ _ _ _ _ Hr0 Hi Hs Hu E) as (He & G' & Hp & Hi').
      eapply IH; [intros; apply Hr; right; assumption|exact Hi'|eapply safes_ext; eassumption|eapply looks_pre; eassumption].
    Qed.
    Lemma first_match_part n G s stack us rules o s' : (forall r, In r rules -> linear (er_rule r)) -> inv G s ->
      safes (erh s) true stack -> Forall2 (look G) stack us ->
      first_match uniq (rw n) (cv n) n stack rules s = Ok (o, s') ->
      ext (erh s) (erh s') /\ (forall ctx r, o = Some (ctx, r) -> safes (erh s') false ctx) /\
      exists G', pre G G' /\ inv G' s' /\ fire_post sg (map er_rule rules) us G' (er_match o).
    Proof.
      intros Hr Hi Hs Hu E.
      destruct (part er_match any _ (r_first_match (rrw n) (rcv n) n stack (map er_rule rules)) G (fire_post sg (map er_rule rules) us)
                  (fun o h' => match o with Some (ctx, r) => safes h' false ctx /\ length (sr_args r) <= length stack | None => True end)
                  s o s' (first_match_sim uniq (rw n) (rrw n) (rw_sim n) (cv n) (rcv n) (cv_sim n) n stack rules))
        as (_ & He & Hc & G' & Hp & Hi' & Hf); auto.
      - apply r_first_match_red; [apply rrw_red| |exact Hu]. intros r Hin. apply in_map_iff in Hin.
        destruct Hin as (r0 & <- & Hin). auto.
      - apply r_first_match_safe; [intros; apply rrw_safe; assumption|intros; apply cv_safe|exact Hs].
      - split; [exact He|]. split; [|eauto]. intros ctx r ->. apply Hc.
    Qed.
  End Match.

  (** *** States *)
  Definition den (ts us : list tm) (t : sterm) : tm := strip (apps (sub (slist ts) (ers t)) us).
  (** evaluation of states that denote [d] returns *)
  Definition state_tot (d : tm) (ctx : list loc) (t : sterm) : Prop :=
    forall G s stack ts us, inv G s -> safes (erh s) false ctx -> safes (erh s) true stack ->
      Forall2 (look G) ctx ts -> Forall2 (look G) stack us -> den ts us t = d ->
      tot s (fun n => state_whnf uniq gc n (State ctx t stack)).

  Lemma rw_tot d : (forall d', below sg d' d -> forall ctx t, state_tot d' ctx t) ->
    forall G s l g, inv G s -> safe (erh s) true l -> look G l g -> below sg (strip g) d -> tot s (fun n => rw n l).
  Proof.
    intros HW G s l g [Hi Hh] Hs Hl Hb. unfold rstate_whnf.
    inversion Hs as [? st w Hn Hc Hst| |]; subst.
    destruct (erh_nth _ _ _ Hn) as (c & Ec & Hc'). destruct c as [st' w' b'|th]; [|discriminate]. injection Hc' as -> -> <-.
    pose proof (Forall2_nth _ _ _ Hh _ _ _ Hn Hl) as Hsem. cbn in Hsem. destruct Hsem as (ts & us & H1 & H2 & H3).
    destruct w'.
    { apply (tot_ext _ _ (fun _ => ret tt)); [|apply tot_ret]. intros n. unfold bind, read. rewrite Ec. reflexivity. }
    apply (tot_ext _ _ (fun n => write l (CState st' false true) ;;;
       st <- state_whnf uniq gc n st' ;; write l (CState st true false))).
    { intros n. unfold bind at 1, read. rewrite Ec. reflexivity. }
    apply (tot_bind s (fun _ => write l (CState st' false true))); [apply tot_const; discriminate|].
    intros _ [] s' E.
    assert (E' : erh s' = list_set (erh s) l (RCState (er_state st') false true)).
    { injection E as <-. unfold erh. cbn. rewrite map_list_set. reflexivity. }
    assert (Hi' : hinv s').
    { pose proof (simm_write l (CState st' false true) _ ltac:(discriminate) eq_refl s Hi) as H. rewrite E in H. apply H. }
    destruct (safe_cell _ _ _ Hs) as (c0 & Hn0 & _ & Hs0 & _). rewrite Hn in Hn0. injection Hn0 as <-.
    pose proof (cell_safe_set _ _ _ _ (RCState (er_state st') false true) Hs Hn Hs0) as Hcs. rewrite <- E' in Hcs.
    destruct Hcs as (_ & Hcs1 & Hcs2).
    destruct st' as [ctx t stack]. cbn in H1, H2, H3, Hcs1, Hcs2.
    apply (tot_bind s' (fun n => state_whnf uniq gc n (State ctx t stack))); [|intros; apply tot_const; discriminate].
    apply (HW (den ts us t)) with (G := G) (ts := ts) (us := us); auto.
    - destruct (reds_below _ _ _ H3) as [E3|H4]; [unfold den; rewrite E3; exact Hb|eapply below_trans; eassumption].
    - split; [exact Hi'|]. rewrite E'. eapply Forall2_list_set; [exact Hh|exact Hl|].
      cbn. exists ts, us. auto.
  Qed.

  Lemma push_red ctx ts G : Forall2 (look G) ctx ts -> forall args stack us, Forall2 (look G) stack us ->
    tr sg G (r_push ctx args stack) (fun G' stack' => Forall2 (look G') stack' (map (sub (slist ts)) args ++ us)).
  Proof.
    intros Hc. induction args as [|a args IH]; intros stack us Hu; cbn [r_push map]; [apply tr_ret; exact Hu|].
    eapply tr_bind; [apply IH; exact Hu|]. intros G1 stack' Hp H1.
    eapply tr_bind.
    { apply tr_alloc with (g := sub (slist ts) a). cbn. exists ts, []. split; [eapply looks_pre; eassumption|].
      split; [constructor|]. apply pc_refl. }
    intros G2 l Hp2 Hl. apply tr_ret. constructor; [exact Hl|eapply looks_pre; eassumption].
  Qed.
  Lemma push_safe ctx : forall args stack h, safes h false ctx -> safes h true stack ->
    triple h (r_push ctx args stack) (fun stack' h' => safes h' true stack').
  Proof.
    induction args as [|a args IH]; intros stack h Hc Hs; cbn [r_push]; [apply triple_ret; exact Hs|].
    eapply triple_bind; [apply IH; assumption|]. intros stack' h' He Hs'.
    eapply triple_bind.
    { apply triple_alloc. cbn. split; [reflexivity|]. split; [apply (safes_ext _ _ _ _ He Hc)|intros ? []]. }
    intros l h2 He2 Hl. apply triple_ret. apply safes_cons; [exact Hl|eapply safes_ext; eassumption].
  Qed.
  Lemma push_tot ctx args : forall stack s, tot s (fun _ => push_args ctx args stack).
  Proof.
    induction args as [|a args IH]; intros stack s; cbn [push_args]; [apply tot_ret|].
    apply (tot_bind s (fun _ => push_args ctx args stack)); [apply IH|]. intros _ stack' s' _.
    apply tot_const. discriminate.
  Qed.

  Lemma firstn_skipn_in {A} n (x : A) l : In x (skipn n l) -> In x l.
  Proof. intros H. rewrite <- (firstn_skipn n l). apply in_or_app. right. exact H. Qed.
  Lemma redp_below g t u : strip g = u -> redp sg g t -> below sg (strip t) u.
  Proof.
    intros <- (v & H1 & H2). destruct (reds_below _ _ _ H2) as [->|H]; [apply below_red; exact H1|].
    eapply below_trans; [exact H|apply below_red; exact H1].
  Qed.

  Lemma break_tot s st : tot s (fun _ => whnf_break st).
  Proof. apply tot_const. unfold whnf_break. destruct st as [ctx t stack]. cbn. destruct t, ctx; discriminate. Qed.

  (** one iteration *)
  Lemma state_step d ctx t :
    (forall d', below sg d' d -> forall ctx t, state_tot d' ctx t) ->
    (ctx <> [] -> forall t, state_tot d [] t) ->
    (forall h args, get_comb t = Some (Appl h args) -> state_tot d ctx h) ->
    state_tot d ctx t.
  Proof.
    intros HW HV HA G s stack ts us Hi Hsc Hss Hc Hu Hd.
    assert (Habst : forall i a b l rest u us', get_comb t = Some (Abst i a b) -> stack = l :: rest -> us = u :: us' ->
      tot s (fun n => th <- rtterm_new l ;; state_whnf uniq gc n (State (th :: ctx) b rest))).
    { intros i a b l rest u us' Hg -> ->. inversion Hu as [|? ? ? ? Hl Hu']; subst.
      apply (tot_bind s (fun _ => rtterm_new l)); [apply tot_const; discriminate|]. intros n th s' E.
      destruct (part id any _ (r_thunk_new l) G (fun G' th => look G' th u) (fun th h => safe h false th) s th s'
                  (simm_alloc (CThunk (TTodo l)) _ I eq_refl)) as (_ & He & Hth & G' & Hp & Hi' & Hlt); auto.
      { apply tr_alloc. cbn. eauto using pc_refl. }
      { apply triple_alloc. cbn. apply Hss. left. reflexivity. }
      apply (HW (den (u :: ts) us' b)) with (G := G') (ts := u :: ts) (us := us'); auto.
      - unfold den at 1. apply (redp_below (apps (App (Lam Kind (sub (up (slist ts)) (ers b))) u) us')).
        + unfold den. rewrite (get_comb_er _ _ Hg), !strip_apps. destruct a; reflexivity.
        + apply redp_apps. rewrite <- subst1_slist. apply redp_beta_lam.
      - apply safes_cons; [exact Hth|eapply safes_ext; eassumption].
      - eapply safes_ext; [exact He|]. intros x Hx. apply Hss. right. exact Hx.
      - constructor; [exact Hlt|eapply looks_pre; eassumption].
      - eapply looks_pre; eassumption. }
    assert (Happl : forall h args, get_comb t = Some (Appl h args) ->
      tot s (fun n => stack <- push_args ctx args stack ;; state_whnf uniq gc n (State ctx h stack))).
    { intros h args Hg. apply (tot_bind s (fun _ => push_args ctx args stack)); [apply push_tot|]. intros n stack' s' E.
      destruct (part id any _ (r_push ctx (map ers args) stack) G _ _ s stack' s' (push_args_sim ctx args stack)
                  (push_red ctx ts G Hc _ _ _ Hu) (push_safe ctx _ _ _ Hsc Hss) Hi E) as (_ & He & Hs' & G' & Hp & Hi' & Hl).
      eapply (HA h args Hg); [exact Hi'|eapply safes_ext; eassumption|exact Hs'|eapply looks_pre; eassumption|exact Hl|].
      rewrite <- Hd. unfold den. rewrite (get_comb_er _ _ Hg). cbn [er_comb]. rewrite sub_apps, apps_app. reflexivity. }
    assert (Hcomb : forall c, get_comb t = Some c ->
      tot s (fun n => if is_whnf c (match stack with [] => true | _ => false end) then whnf_break (State ctx t stack) else
        match c with
        | Prod _ _ _ => panic
        | Abst _ _ t =>
          match stack with
          | [] => panic
          | l :: stack => th <- rtterm_new l ;; state_whnf uniq gc n (State (th :: ctx) t stack)
          end
        | Appl head tail => stack <- push_args ctx tail stack ;; state_whnf uniq gc n (State ctx head stack)
        end)).
    { intros c Hg. assert (Hb : tot s (fun _ => whnf_break (State ctx t stack))) by apply break_tot.
      destruct c as [h a|i a b|i a b]; cbn [is_whnf].
      - apply (Happl h a). exact Hg.
      - exact Hb.
      - destruct stack as [|l rest]; [exact Hb|].
        inversion Hu as [|? u ? us' Hl Hu']; subst. apply (Habst i a b l rest u us'); auto. }
    assert (Hb : forall st, tot s (fun _ => whnf_break st)) by (intros; apply break_tot).
    destruct t as [| |c|x|c|c].
    - apply (tot_S _ _ (fun _ => whnf_break (State ctx SKind stack))); [intros; reflexivity|apply Hb].
    - apply (tot_S _ _ (fun _ => whnf_break (State ctx SType stack))); [intros; reflexivity|apply Hb].
    - apply (tot_S _ _ (fun n => match get_rules gc c with
        | None => whnf_break (State ctx (SConst c) stack)
        | Some rules =>
          o <- first_match uniq (rw n) (fun t1 t2 => convertible_loop uniq gc n [(t1, t2)]) n stack rules ;;
          match o with
          | Some (ctx, r) =>
            _ <- usub (length stack) (length (tp_args (r_lhs r))) ;;
            state_whnf uniq gc n (State ctx (sterm_of_lterm (r_rhs r)) (skipn (length (tp_args (r_lhs r))) stack))
          | None => whnf_break (State ctx (SConst c) stack)
          end
        end)); [intros; reflexivity|].
      destruct (get_rules gc c) as [rules|] eqn:Er; [|apply Hb].
      assert (Hrs : sg_rules sg c = Some (map er_rule rules)) by (cbn; rewrite Er; reflexivity).
      assert (Hr : forall r, In r rules -> linear (er_rule r)).
      { intros r Hin. eapply Hlin; [exact Hrs|apply in_map; exact Hin]. }
      assert (Hbel : forall u, In u us -> below sg (strip u) d).
      { intros u Hin. rewrite <- Hd. unfold den. rewrite strip_apps. apply below_apps. apply in_map. exact Hin. }
      apply (tot_bind s (fun n => first_match uniq (rw n) (fun t1 t2 => convertible_loop uniq gc n [(t1, t2)]) n stack rules)).
      { eapply first_match_tot; [apply rw_tot; exact HW|exact Hr|exact Hbel|exact Hi|exact Hss|exact Hu]. }
      intros n o s' E. destruct (first_match_part _ _ _ _ _ _ _ _ Hr Hi Hss Hu E) as (He & Hoc & G' & Hp & Hi' & Hf).
      destruct o as [[ctx' r]|]; [|apply tot_const; discriminate].
      cbn in Hf. destruct Hf as (Hin & Hus & Hle & ts' & vs & Hts' & Hinst & Hvs). rewrite map_length in *.
      apply (tot_bind s' (fun _ => usub (length stack) (length (tp_args (r_lhs r))))).
      { apply tot_const. unfold usub. destruct (_ <=? _); discriminate. }
      intros _ k s2 E2. assert (s2 = s') as ->.
      { unfold usub in E2. destruct (_ <=? _); [injection E2 as _ <-; reflexivity|discriminate]. }
      apply (HW (den ts' (skipn (length (tp_args (r_lhs r))) us) (sterm_of_lterm (r_rhs r)))) with (G := G') (ts := ts')
         (us := skipn (length (tp_args (r_lhs r))) us); auto.
      + unfold den at 1. rewrite ers_sterm_of_lterm. apply (redp_below (apps (Const c) us)).
        * rewrite <- Hd. reflexivity.
        * rewrite <- (firstn_skipn (length (tp_args (r_lhs r))) us) at 1. rewrite apps_app. apply redp_apps.
          eapply (redp_rule sg c _ (er_rule r)); [exact Hrs|exact Hin|exact Hus|exact Hinst|exact Hvs].
      + eapply Hoc. reflexivity.
      + intros y Hy. eapply ext_safe; [exact He|]. apply Hss. eapply firstn_skipn_in. exact Hy.
      + apply firstn_skipn_looks. eapply looks_pre; eassumption.
    - apply (tot_S _ _ (fun n => match nth_error ctx x with
        | Some ctm => t <- force uniq n ctm ;; state_whnf uniq gc n (State [] t stack)
        | None =>
          match ctx with
          | [] => whnf_break (State ctx (SVar x) stack)
          | _ => m <- usub x (length ctx) ;; whnf_break (State [] (SVar m) stack)
          end
        end)); [intros; reflexivity|].
      destruct (nth_error ctx x) as [l|] eqn:El.
      + assert (exists u, nth_error ts x = Some u) as [u Et].
        { destruct (nth_error ts x) eqn:E; eauto. apply nth_error_None in E.
          rewrite <- (Forall2_length Hc) in E. apply nth_error_None in E. congruence. }
        pose proof (Forall2_nth _ _ _ Hc _ _ _ El Et) as Hl.
        assert (Hsl : safe (erh s) false l) by (apply Hsc; eapply nth_error_In; exact El).
        apply (tot_bind s (fun n => force uniq n l)); [apply force_returns; [apply Hi|exact Hsl]|].
        intros n t' s' E.
        destruct (part _ _ _ _ _ _ _ _ _ _ (proj1 (force_sim uniq n) l) (proj1 (r_force_red sg n) _ _ _ Hl)
                    (proj1 (r_force_safe n) _ _ Hsl) Hi E) as (_ & He & _ & G' & Hp & Hi' & Ht').
        assert (Hn : ctx <> []) by (intros ->; destruct x; discriminate).
        assert (Hred : reds sg d (den [] us t')).
        { rewrite <- Hd. unfold den. cbn [ers sub]. rewrite (slist_lt _ _ _ Et).
          rewrite (sub_id_ext (ers t')) by reflexivity. apply (pc_apps_head sg us (ers t') u). exact Ht'. }
        assert (Hst : state_tot (den [] us t') [] t').
        { destruct (reds_below _ _ _ Hred) as [Hx|Hx]; [rewrite Hx; apply HV; exact Hn|apply HW; exact Hx]. }
        eapply Hst; [exact Hi'|apply safes_nil|eapply safes_ext; eassumption|constructor|eapply looks_pre; eassumption|reflexivity].
      + destruct ctx as [|l ctx]; [apply Hb|].
        apply tot_const. unfold bind, usub. destruct (_ <=? _); discriminate.
    - apply (tot_S _ _ (fun n => if is_whnf c (match stack with [] => true | _ => false end) then whnf_break (State ctx (SLComb c) stack) else
        match scomb_of_lcomb c with
        | Prod _ _ _ => panic
        | Abst _ _ t =>
          match stack with
          | [] => panic
          | l :: stack => th <- rtterm_new l ;; state_whnf uniq gc n (State (th :: ctx) t stack)
          end
        | Appl head tail => stack <- push_args ctx tail stack ;; state_whnf uniq gc n (State ctx head stack)
        end)); [intros; reflexivity|].
      specialize (Hcomb (scomb_of_lcomb c) eq_refl). destruct c; exact Hcomb.
    - apply (tot_S _ _ (fun n => if is_whnf c (match stack with [] => true | _ => false end) then whnf_break (State ctx (SSComb c) stack) else
        match c with
        | Prod _ _ _ => panic
        | Abst _ _ t =>
          match stack with
          | [] => panic
          | l :: stack => th <- rtterm_new l ;; state_whnf uniq gc n (State (th :: ctx) t stack)
          end
        | Appl head tail => stack <- push_args ctx tail stack ;; state_whnf uniq gc n (State ctx head stack)
        end)); [intros; reflexivity|].
      exact (Hcomb c eq_refl).
  Qed.

  Lemma head_ind (P : sterm -> Prop) :
    (forall t, (forall h args, get_comb t = Some (Appl h args) -> P h) -> P t) -> forall t, P t.
  Proof.
    intros H.
    assert (HL : forall t, P (sterm_of_lterm t)).
    { induction t as [|c|n|c IH] using lterm_ind'; apply H; cbn; try discriminate.
      intros h args. destruct c as [h0 a|i a b|i a b]; cbn; try discriminate. intros [= <- _]. apply IH. }
    induction t as [| |c|n|c|c IH] using sterm_ind'; apply H; cbn; try discriminate.
    - intros h args. destruct c as [h0 a|i a b|i a b]; cbn; try discriminate. intros [= <- _]. apply HL.
    - intros h args. destruct c as [h0 a|i a b|i a b]; cbn; try discriminate. intros [= <- _]. apply IH.
  Qed.

  Lemma state_returns d : Acc (below sg) d -> forall ctx t, state_tot d ctx t.
  Proof.
    induction 1 as [d _ IH].
    assert (H0 : forall t, state_tot d [] t).
    { induction t as [t Ht] using head_ind. apply state_step; [exact IH|congruence|exact Ht]. }
    intros ctx t. induction t as [t Ht] using head_ind. apply state_step; [exact IH|intros _; exact H0|exact Ht].
  Qed.

  (** *** Terms *)
  Lemma fresh_tot {A} s (F : nat -> M A) : tot (MSt [] (m_tick s)) F -> tot s (fun n => with_fresh_heap (F n)).
  Proof.
    intros (n0 & r & Hr & HF). exists n0. unfold with_fresh_heap. destruct r as [[a s']|e| |]; [| | |congruence].
    - exists (Ok (a, MSt (m_heap s) (m_tick s'))). split; [discriminate|]. intros n Hn. rewrite HF by exact Hn. reflexivity.
    - exists (Err e). split; [discriminate|]. intros n Hn. rewrite HF by exact Hn. reflexivity.
    - exists Panic. split; [discriminate|]. intros n Hn. rewrite HF by exact Hn. reflexivity.
  Qed.
  Lemma whnf_tot t s : strongly_normalising sg (ers t) -> tot s (fun n => whnf uniq gc n t).
  Proof.
    intros Hsn. unfold whnf, whnf_. apply fresh_tot. set (s0 := MSt [] (m_tick s)).
    assert (Hi : inv [] s0).
    { split; [intros l st b Hl; destruct l; discriminate|constructor]. }
    apply (tot_bind s0 (fun n => state_whnf uniq gc n (state_new t))).
    - eapply (state_returns (strip (ers t)) (sn_acc _ _ Hsn) [] t []) with (ts := []) (us := []).
      + exact Hi.
      + apply safes_nil.
      + apply safes_nil.
      + constructor.
      + constructor.
      + unfold den. cbn. rewrite sub_id_ext by reflexivity. reflexivity.
    - intros n st s' E.
      destruct (part er_state head_ok (state_whnf uniq gc n (state_new t)) (r_state_whnf sg n (er_state (state_new t))) [] (fun G st => st_sem sg G st (ers t))
                  (fun st h => st_safe h st) s0 st s') as (_ & _ & Hst & G' & _ & Hi' & _); auto.
      + apply machine_sim.
      + apply r_state_whnf_red; [exact Hlin|]. exists [], []. cbn. split; [constructor|]. split; [constructor|].
        rewrite sub_id_ext by reflexivity. apply pc_refl.
      + apply r_machine_safe. split; apply safes_nil.
      + apply readback_returns; [apply Hi'|exact Hst].
  Qed.
End Machine.
