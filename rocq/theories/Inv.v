(** * Invariants of evaluation, and independence of symbols that do not occur

    The machine only builds terms from the symbols of the query and of the rules it uses.
    Two global contexts that agree on these symbols yield the same computation.
    Moreover the machine creates neither [Kind] nor applications without arguments. *)

From Verif Require Import Base ModelTerm ModelGctx ModelSubst ModelReduce Erase.

Open Scope sm_scope.

Definition list_all {A} (f : A -> Prop) : list A -> Prop :=
  fix go (l : list A) : Prop := match l with [] => True | a :: l => f a /\ go l end.
Lemma list_all_Forall {A} (f : A -> Prop) l : list_all f l <-> Forall f l.
Proof. induction l; cbn; split; intros H; auto; [constructor|inversion H; subst]; tauto. Qed.

(** constants, which may occur as applications without arguments (lterm.rs:28-34 makes such terms) *)
Definition lconst (t : lterm) : bool := match t with LConst _ => true | _ => false end.
Definition sconst (t : sterm) : bool := match t with SConst _ => true | _ => false end.

Section WF.
  (** symbols that may occur; whether [Kind] may occur; whether applications of other heads than constants must have arguments *)
  Variable A : sym -> Prop.
  Variable K N : Prop.

  Definition wfc {T} (g : T -> bool) (f : T -> Prop) (c : comb T) : Prop :=
    match c with
    | Appl h args => f h /\ list_all f args /\ (N -> args <> [] \/ g h = true)
    | Prod _ a b => f a /\ f b
    | Abst _ oa t => match oa with Some a => f a | None => True end /\ f t
    end.
  Fixpoint wfl (t : lterm) : Prop :=
    match t with
    | LType => True
    | LConst c => A c
    | LVar _ => True
    | LComb c => wfc lconst wfl c
    end.
  Fixpoint wfs (t : sterm) : Prop :=
    match t with
    | SKind => K
    | SType => True
    | SConst c => A c
    | SVar _ => True
    | SLComb c => wfc lconst wfl c
    | SSComb c => wfc sconst wfs c
    end.

  Lemma wfs_of_lterm t : wfl t -> wfs (sterm_of_lterm t).
  Proof. destruct t; cbn; auto. Qed.
  Lemma wfc_of_lcomb c : wfc lconst wfl c -> wfc sconst wfs (scomb_of_lcomb c).
  Proof.
    destruct c as [h args|id a b|id [a|] b]; cbn.
    - intros (Hh & Ha & Hn). split; [now apply wfs_of_lterm|]. split.
      + clear Hn. apply list_all_Forall in Ha. induction Ha; cbn; auto using wfs_of_lterm.
      + intros HN. destruct (Hn HN) as [Hn'|Hc]; [left; destruct args; [congruence|discriminate]|right]. destruct h; try discriminate. reflexivity.
    - intuition auto using wfs_of_lterm.
    - intuition auto using wfs_of_lterm.
    - intuition auto using wfs_of_lterm.
  Qed.
  Lemma wfs_get_comb t c : wfs t -> get_comb t = Some c -> wfc sconst wfs c.
  Proof. destruct t; cbn; try discriminate; intros H [= <-]; auto using wfc_of_lcomb. Qed.

  Definition wfcell (c : cell) : Prop :=
    match c with
    | CState st _ _ => wfs (s_term st)
    | CThunk (TDone t) => wfs t
    | CThunk _ => True
    end.
  Definition hwf (s : mst) : Prop := forall l c, nth_error (m_heap s) l = Some c -> wfcell c.

  (** both computations are the same, and preserve the invariant *)
  Definition eqi {X} (P : X -> Prop) (m m' : M X) : Prop :=
    forall s, hwf s -> m s = m' s /\ match m s with Ok (a, s') => P a /\ hwf s' | _ => True end.

  Lemma eqi_ret {X} (P : X -> Prop) a : P a -> eqi P (ret a) (ret a).
  Proof. intros H s Hs. split; [reflexivity|]. split; assumption. Qed.
  Lemma eqi_panic {X} (P : X -> Prop) : eqi P panic panic.
  Proof. intros s Hs. split; [reflexivity|exact I]. Qed.
  Lemma eqi_nofuel {X} (P : X -> Prop) : eqi P nofuel nofuel.
  Proof. intros s Hs. split; [reflexivity|exact I]. Qed.
  Lemma eqi_fail {X} (P : X -> Prop) e : eqi P (fail e) (fail e).
  Proof. intros s Hs. split; [reflexivity|exact I]. Qed.
  Lemma eqi_bind {X Y} (P : X -> Prop) (Q : Y -> Prop) m m' k k' :
    eqi P m m' -> (forall a, P a -> eqi Q (k a) (k' a)) -> eqi Q (bind m k) (bind m' k').
  Proof.
    intros Hm Hk s Hs. destruct (Hm s Hs) as [He Hp]. unfold bind. rewrite <- He.
    destruct (m s) as [[a s']| | |]; auto. destruct Hp as [Ha Hs']. apply Hk; assumption.
  Qed.
  Lemma eqi_post {X} (P Q : X -> Prop) m m' : (forall a, P a -> Q a) -> eqi P m m' -> eqi Q m m'.
  Proof.
    intros HQ Hm s Hs. destruct (Hm s Hs) as [He Hp]. split; [assumption|].
    destruct (m s) as [[a s']| | |]; auto. destruct Hp; auto.
  Qed.
  Definition anyt {X} (_ : X) : Prop := True.

  Lemma eqi_mapM {X Y} (P : X -> Y -> Prop) (f f' : X -> M Y) l :
    (forall a, In a l -> eqi (P a) (f a) (f' a)) -> eqi (Forall2 P l) (mapM f l) (mapM f' l).
  Proof.
    induction l as [|a l IH]; intros H; cbn [mapM]; [apply eqi_ret; constructor|].
    eapply eqi_bind; [apply H; left; reflexivity|]. intros b Hb.
    eapply eqi_bind; [apply IH; intros; apply H; right; assumption|]. intros bs Hbs.
    apply eqi_ret. constructor; assumption.
  Qed.

  (** ** Heap *)
  Lemma eqi_alloc c : wfcell c -> eqi anyt (alloc c) (alloc c).
  Proof.
    intros Hc s Hs. split; [reflexivity|]. cbn. split; [exact I|]. intros l c'. cbn.
    destruct (lt_dec l (length (m_heap s))).
    - rewrite nth_error_app1 by assumption. apply Hs.
    - rewrite nth_error_app2 by lia. destruct (l - length (m_heap s)) as [|[|?]]; cbn; try discriminate.
      intros [= <-]. exact Hc.
  Qed.
  Lemma eqi_read l : eqi wfcell (read l) (read l).
  Proof.
    intros s Hs. split; [reflexivity|]. unfold read. destruct (nth_error (m_heap s) l) eqn:E; [|exact I].
    split; [eapply Hs; eassumption|exact Hs].
  Qed.
  Lemma list_set_cases {X} (h : list X) l c l' c' :
    nth_error (list_set h l c) l' = Some c' -> c' = c \/ nth_error h l' = Some c'.
  Proof.
    revert l l'. induction h as [|x h IH]; intros [|l] [|l']; cbn; try discriminate; auto.
    - intros [= <-]; auto.
    - apply IH.
  Qed.
  Lemma eqi_write l c : wfcell c -> eqi anyt (write l c) (write l c).
  Proof.
    intros Hc s Hs. split; [reflexivity|]. cbn. split; [exact I|]. intros l' c'. cbn.
    intros H. apply list_set_cases in H. destruct H as [->|H]; [exact Hc|eapply Hs; exact H].
  Qed.
  Lemma eqi_usub n k : eqi anyt (usub n k) (usub n k).
  Proof. unfold usub. destruct (k <=? n); [apply eqi_ret; exact I|apply eqi_panic]. Qed.
  Lemma eqi_borrow l : eqi (fun st => wfs (s_term st)) (borrow_state l) (borrow_state l).
  Proof.
    unfold borrow_state. eapply eqi_bind; [apply eqi_read|]. intros [st w [|]|th] Hc; try apply eqi_panic.
    apply eqi_ret. exact Hc.
  Qed.

  Section Uniq.
    Variable uniq : nat -> bool.

    Lemma eqi_is_unique : eqi anyt (is_unique uniq) (is_unique uniq).
    Proof. intros s Hs. split; [reflexivity|]. split; [exact I|exact Hs]. Qed.

    (** ** Substitution *)
    Notation wfp := (fun p : sterm * bool => wfs (fst p)).

    Lemma comb_apply_subst_inv {T} (g : T -> bool) (f : T -> Prop) (go go' : T -> nat -> M (sterm * bool)) c :
      (forall t k, g t = true -> exists c b, go t k = ret (SConst c, b)) ->
      comb_all (fun t => forall k, f t -> eqi wfp (go t k) (go' t k)) c -> wfc g f c -> forall k,
      eqi (fun p : scomb * bool => wfc sconst wfs (fst p)) (comb_apply_subst go c k) (comb_apply_subst go' c k).
    Proof.
      intros Hg.
      destruct c as [h args|id a b|id [a|] b]; cbn [comb_all wfc comb_apply_subst]; intros Hall Hwf k.
      - destruct Hall as [Hh Ha]. destruct Hwf as (Wh & Wa & Wn).
        eapply eqi_bind with (P := fun p => wfs (fst p) /\ (g h = true -> sconst (fst p) = true)).
        { intros s Hs. destruct (Hh k Wh s Hs) as [He Hp]. split; [exact He|].
          destruct (go h k s) as [[p s']| | |] eqn:E; auto. destruct Hp as [Hp1 Hp2]. split; [|exact Hp2].
          split; [exact Hp1|]. intros Hgh. destruct (Hg h k Hgh) as (c & b & Hr). rewrite Hr in E. injection E as <- _. reflexivity. }
        intros [h' ch] [Hh' Hc'].
        eapply eqi_bind; [apply eqi_mapM with (P := fun _ => wfp)|].
        + intros a Hin. apply list_all_Forall in Wa. rewrite Forall_forall in *. apply Ha; auto.
        + intros ps Hps. apply eqi_ret. cbn. split; [assumption|]. split.
          * apply list_all_Forall. clear - Hps. induction Hps; cbn; constructor; auto.
          * intros HN. destruct (Wn HN) as [Wn'|Wc]; [left; destruct Hps; [congruence|discriminate]|right; exact (Hc' Wc)].
      - destruct Hall as [Ha Hb]. destruct Hwf as [Wa Wb].
        eapply eqi_bind; [apply Ha; assumption|]. intros [a' ch] Ha'.
        eapply eqi_bind; [apply Hb; assumption|]. intros [b' ch'] Hb'. apply eqi_ret. cbn. auto.
      - destruct Hall as [Ha Hb]. destruct Hwf as [Wa Wb].
        eapply eqi_bind; [apply Hb; assumption|]. intros [b' ch'] Hb'.
        eapply eqi_bind; [apply Ha; assumption|]. intros [a' ch] Ha'. apply eqi_ret. cbn. auto.
      - destruct Hall as [_ Hb]. destruct Hwf as [_ Wb].
        eapply eqi_bind; [apply Hb; assumption|]. intros [b' ch'] Hb'. apply eqi_ret. cbn. auto.
    Qed.

    Section ApplySubst.
      Variable sb sb' : nat -> nat -> M sterm.
      Hypothesis Hsb : forall n k, eqi wfs (sb n k) (sb' n k).

      Lemma lconst_sub t k : lconst t = true -> exists c b, apply_subst_l sb t k = ret (SConst c, b).
      Proof. destruct t; try discriminate. cbn. eauto. Qed.
      Lemma sconst_sub t k : sconst t = true -> exists c b, apply_subst uniq sb t k = ret (SConst c, b).
      Proof. destruct t; try discriminate. cbn. eauto. Qed.
      Lemma apply_subst_l_inv t : forall k, wfl t -> eqi wfp (apply_subst_l sb t k) (apply_subst_l sb' t k).
      Proof.
        induction t as [|c|n|c IH] using lterm_ind'; intros k Hw; cbn [apply_subst_l].
        - apply eqi_ret. exact I.
        - apply eqi_ret. exact Hw.
        - destruct (k <=? n); [|apply eqi_ret; exact I].
          eapply eqi_bind; [apply Hsb|]. intros t' Ht'. apply eqi_ret. exact Ht'.
        - eapply eqi_bind; [apply comb_apply_subst_inv with (f := wfl) (g := lconst); [exact lconst_sub|eassumption|eassumption]|]. intros [c' ch] Hc. apply eqi_ret. exact Hc.
      Qed.
      Lemma apply_subst_inv t : forall k, wfs t -> eqi wfp (apply_subst uniq sb t k) (apply_subst uniq sb' t k).
      Proof.
        induction t as [| |c|n|c|c IH] using sterm_ind'; intros k Hw; cbn [apply_subst].
        - apply eqi_ret. exact Hw.
        - apply eqi_ret. exact I.
        - apply eqi_ret. exact Hw.
        - destruct (k <=? n); [|apply eqi_ret; exact I].
          eapply eqi_bind; [apply Hsb|]. intros t' Ht'. apply eqi_ret. exact Ht'.
        - eapply eqi_bind; [apply comb_apply_subst_inv with (f := wfl) (g := lconst); [exact lconst_sub|apply comb_all_intro; apply apply_subst_l_inv|exact Hw]|].
          intros [c' ch] Hc. apply eqi_ret. exact Hc.
        - eapply eqi_bind; [apply eqi_is_unique|]. intros u _.
          eapply eqi_bind; [apply comb_apply_subst_inv with (f := wfs) (g := sconst); [exact sconst_sub|exact IH|exact Hw]|]. intros [c' ch] Hc.
          destruct u; [|destruct ch]; apply eqi_ret; assumption.
      Qed.
    End ApplySubst.

    Lemma shift_mut_inv t k : wfs t -> eqi wfs (shift_mut uniq t k) (shift_mut uniq t k).
    Proof.
      intros Hw. unfold shift_mut. eapply eqi_bind; [apply apply_subst_inv; [intros; apply eqi_ret; exact I|assumption]|].
      intros [t' ch] Ht'. apply eqi_ret. exact Ht'.
    Qed.
    Lemma shift_inv t k : wfs t -> eqi wfs (shift uniq t k) (shift uniq t k).
    Proof. intros Hw. unfold shift. destruct (k =? 0); [apply eqi_ret; assumption|now apply shift_mut_inv]. Qed.
    Lemma subst_inv t u : wfs t -> wfs u -> eqi wfs (subst uniq t u) (subst uniq t u).
    Proof.
      intros Ht Hu. unfold subst. eapply eqi_bind.
      - apply apply_subst_inv; [|assumption]. intros n k. unfold psubst_single.
        destruct (n =? k); [now apply shift_inv|]. eapply eqi_bind; [apply eqi_usub|]. intros m _. apply eqi_ret. exact I.
      - intros [t' ch] Ht'. apply eqi_ret. exact Ht'.
    Qed.
    Lemma apply_inv t args args' : wfs t -> eqi (fun us => Forall wfs us /\ us <> []) args args' ->
      eqi wfs (apply uniq t args) (apply uniq t args').
    Proof.
      intros Ht Ha.
      assert (Hd : eqi wfs (us <- args ;; ret (SSComb (Appl t us))) (us <- args' ;; ret (SSComb (Appl t us)))).
      { eapply eqi_bind; [exact Ha|]. intros us [H1 H2]. apply eqi_ret. cbn. split; [assumption|].
        split; [now apply list_all_Forall|intros _; left; assumption]. }
      unfold apply. destruct t as [| |c|n|c|[f args1|id a b|id a b]]; auto.
      eapply eqi_bind; [apply eqi_is_unique|]. intros u _. eapply eqi_bind; [exact Ha|]. intros us [H1 H2].
      destruct Ht as (Wh & Wa & Wn). apply list_all_Forall in Wa.
      destruct u; apply eqi_ret; cbn.
      - split; [assumption|]. split; [apply list_all_Forall, Forall_app; auto|]. intros _. left. intros He.
        apply app_eq_nil in He. tauto.
      - split; [split; [assumption|]; split; [now apply list_all_Forall|assumption]|].
        split; [now apply list_all_Forall|intros _; left; assumption].
    Qed.
    Lemma shift_app_inv t : wfs t -> eqi wfs (shift_app uniq t) (shift_app uniq t).
    Proof.
      intros Ht. unfold shift_app. eapply eqi_bind; [apply shift_mut_inv; assumption|]. intros t' Ht'.
      apply apply_inv; [assumption|]. apply eqi_ret. split; [repeat constructor|discriminate].
    Qed.

    (** ** Reading back *)
    Definition oks (f : loc -> M sterm) : Prop := forall l, eqi wfs (f l) (f l).
    Lemma psubst_inv force args n k : oks force -> eqi wfs (psubst uniq force args n k) (psubst uniq force args n k).
    Proof.
      intros Hf. unfold psubst. eapply eqi_bind; [apply eqi_usub|]. intros d _. destruct (nth_error args d).
      - eapply eqi_bind; [apply Hf|]. intros t Ht. now apply shift_inv.
      - eapply eqi_bind; [apply eqi_usub|]. intros m _. apply eqi_ret. exact I.
    Qed.
    Lemma sterm_of_state_inv force ofr st : oks force -> oks ofr -> wfs (s_term st) ->
      eqi wfs (sterm_of_state uniq force ofr st) (sterm_of_state uniq force ofr st).
    Proof.
      intros Hf Ho Hst. unfold sterm_of_state. eapply eqi_bind with (P := wfs).
      - destruct (s_ctx st); [apply eqi_ret; assumption|].
        eapply eqi_bind; [apply apply_subst_inv; [intros; now apply psubst_inv|assumption]|].
        intros [t' ch] Ht'. apply eqi_ret. exact Ht'.
      - intros t Ht. destruct (s_stack st) as [|l stack] eqn:Es; [apply eqi_ret; assumption|].
        apply apply_inv; [assumption|]. eapply eqi_post; [|apply eqi_mapM with (P := fun _ => wfs)].
        + cbn. intros us Hus. split; [clear - Hus; induction Hus; constructor; auto|]. inversion Hus; discriminate.
        + intros a _. apply Ho.
    Qed.
    Lemma force_inv n : oks (force uniq n) /\ oks (sterm_of_rstate uniq n).
    Proof.
      induction n as [|n [IH1 IH2]]; [split; intros l; apply eqi_nofuel|]. split; intros l.
      - cbn [force]. eapply eqi_bind; [apply eqi_read|]. intros [st w b|[l'| |t]] Hc; try apply eqi_panic.
        + eapply eqi_bind; [apply eqi_write; exact I|]. intros _ _.
          eapply eqi_bind; [apply IH2|]. intros t Ht.
          eapply eqi_bind; [apply eqi_write; exact Ht|]. intros _ _. apply eqi_ret. exact Ht.
        + apply eqi_ret. exact Hc.
      - cbn [sterm_of_rstate]. eapply eqi_bind; [apply eqi_borrow|]. intros st Hst. now apply sterm_of_state_inv.
    Qed.

    (** ** Matching *)
    Section Match.
      Variable rw rw' : loc -> M unit.
      Hypothesis Hrw : forall l, eqi anyt (rw l) (rw' l).
      Lemma match_pat_inv p : forall l sb, eqi anyt (match_pat rw l p sb) (match_pat rw' l p sb).
      Proof.
        induction p as [c ps IH|m|] using pattern_ind'; intros l sb; cbn [match_pat]; try (apply eqi_ret; exact I).
        eapply eqi_bind; [apply Hrw|]. intros _ _. eapply eqi_bind; [apply eqi_borrow|]. intros st _.
        destruct (s_term st); try (apply eqi_ret; exact I). destruct (_ && _); [|apply eqi_ret; exact I].
        generalize (s_stack st) as stack. revert sb.
        induction IH as [|p ps Hp Hps IHps]; intros sb stack; [apply eqi_ret; exact I|].
        destruct stack as [|l' stack]; [apply eqi_ret; exact I|].
        eapply eqi_bind; [apply Hp|]. intros [sb'|] _; [apply IHps|apply eqi_ret; exact I].
      Qed.
      Lemma match_pats_inv ps : forall stack sb,
        eqi anyt (match_pats (match_pat rw) stack ps sb) (match_pats (match_pat rw') stack ps sb).
      Proof.
        induction ps as [|p ps IH]; intros stack sb; cbn [match_pats]; [apply eqi_ret; exact I|].
        destruct stack as [|l stack]; [apply eqi_ret; exact I|].
        eapply eqi_bind; [apply match_pat_inv|]. intros [sb'|] _; [apply IH|apply eqi_ret; exact I].
      Qed.
      Variable cv cv' : sterm -> sterm -> M bool.
      Hypothesis Hcv : forall t u, wfs t -> wfs u -> eqi anyt (cv t u) (cv' t u).
      Variable n : nat.
      Lemma all_convertible_loop_inv ls : forall t,
        eqi anyt (all_convertible_loop uniq cv n t ls) (all_convertible_loop uniq cv' n t ls).
      Proof.
        induction ls as [|l ls IH]; intros t; cbn [all_convertible_loop]; [apply eqi_ret; exact I|].
        eapply eqi_bind; [apply force_inv|]. intros t1 H1. eapply eqi_bind; [apply force_inv|]. intros t2 H2.
        eapply eqi_bind; [apply Hcv; assumption|]. intros [|] _; [apply IH|apply eqi_ret; exact I].
      Qed.
      Lemma flatten_inv sb : eqi anyt (flatten uniq cv n sb) (flatten uniq cv' n sb).
      Proof.
        induction sb as [|ls sb IH]; cbn [flatten]; [apply eqi_ret; exact I|].
        eapply eqi_bind; [apply IH|]. intros [ctx|] _; [|apply eqi_ret; exact I].
        eapply eqi_bind with (P := anyt).
        - destruct ls as [|l ls]; cbn [all_convertible]; [apply eqi_ret; exact I|].
          eapply eqi_bind; [apply eqi_alloc; exact I|]. intros t _. apply all_convertible_loop_inv.
        - intros [t|] _; apply eqi_ret; exact I.
      Qed.
      Lemma first_match_inv stack rules :
        eqi (fun o => match o with Some (_, r) => In r rules | None => True end)
          (first_match uniq rw cv n stack rules) (first_match uniq rw' cv' n stack rules).
      Proof.
        induction rules as [|r rules IH]; cbn [first_match]; [apply eqi_ret; exact I|].
        eapply eqi_bind with (P := anyt).
        - unfold match_flatten. eapply eqi_bind with (P := anyt).
          + unfold match_rule. destruct (_ <? _); [apply eqi_ret; exact I|apply match_pats_inv].
          + intros [sb|] _; [apply flatten_inv|apply eqi_ret; exact I].
        - intros [ctx|] _; [apply eqi_ret; left; reflexivity|].
          eapply eqi_post; [|exact IH]. intros [[ctx r']|]; [right; assumption|auto].
      Qed.
    End Match.

    (** ** Convertibility step *)
    Definition wfpair (p : sterm * sterm) : Prop := wfs (fst p) /\ wfs (snd p).
    Definition wfo (o : option (list (sterm * sterm))) : Prop :=
      match o with Some ps => Forall wfpair ps | None => True end.

    Lemma Forall_combine {X} (P : X -> Prop) l l' : Forall P l -> Forall P l' -> Forall (fun p => P (fst p) /\ P (snd p)) (combine l l').
    Proof.
      intros H. revert l'. induction H; intros [|? ?] H'; cbn; constructor; inversion H'; subst; auto.
    Qed.
    Lemma step1_inv c t : wfc sconst wfs c -> wfs t -> eqi wfo (step1 uniq c t) (step1 uniq c t).
    Proof.
      intros Hc Ht. destruct c as [h args|id a b|id a b]; cbn [step1]; try (apply eqi_ret; exact I).
      eapply eqi_bind; [apply shift_app_inv; assumption|]. intros t' Ht'. apply eqi_ret.
      constructor; [split; [apply Hc|exact Ht']|constructor].
    Qed.
    Lemma step2_inv eta c1 c2 : wfc sconst wfs c1 -> wfc sconst wfs c2 -> eqi wfo (step2 uniq eta c1 c2) (step2 uniq eta c1 c2).
    Proof.
      intros H1 H2.
      assert (Hs : forall b c, wfs b -> wfc sconst wfs c ->
        eqi wfo (if eta then t <- shift_app uniq (SSComb c) ;; ret (Some [(b, t)]) else ret None)
                (if eta then t <- shift_app uniq (SSComb c) ;; ret (Some [(b, t)]) else ret None)).
      { intros b c Hb Hc. destruct eta; [|apply eqi_ret; exact I].
        eapply eqi_bind; [apply shift_app_inv; assumption|]. intros t' Ht'. apply eqi_ret.
        constructor; [split; assumption|constructor]. }
      destruct c1 as [h1 a1|i1 a1 b1|i1 a1 b1]; destruct c2 as [h2 a2|i2 a2 b2|i2 a2 b2]; cbn [step2];
        try (apply eqi_ret; exact I);
        try (apply Hs; [first [apply (proj2 H1) | apply (proj2 H2)]|assumption]).
      - destruct (_ =? _); [|apply eqi_ret; exact I]. apply eqi_ret. unfold wfo. apply Forall_rev.
        destruct H1 as (W1 & W2 & _), H2 as (W3 & W4 & _). apply list_all_Forall in W2, W4.
        constructor; [split; assumption|]. now apply Forall_combine.
      - apply eqi_ret. destruct H1, H2. repeat (constructor; [split; assumption|]). constructor.
      - apply eqi_ret. destruct H1, H2. repeat (constructor; [split; assumption|]). constructor.
    Qed.
    Lemma step_inv eta t1 t2 : wfs t1 -> wfs t2 -> eqi wfo (step uniq eta t1 t2) (step uniq eta t1 t2).
    Proof.
      intros H1 H2.
      assert (Hatom : forall c t, wfc sconst wfs c -> wfs t ->
         eqi wfo (if eta then step1 uniq c t else ret None) (if eta then step1 uniq c t else ret None)).
      { intros c t Hc Ht. destruct eta; [now apply step1_inv|apply eqi_ret; exact I]. }
      assert (HL : forall c, wfs (SLComb c) -> wfc sconst wfs (scomb_of_lcomb c)) by (intros; now apply wfc_of_lcomb).
      destruct t1 as [| |c1|n1|c1|c1]; destruct t2 as [| |c2|n2|c2|c2]; cbn [step];
        try (apply eqi_ret; first [exact I | constructor]);
        try (destruct (_ =? _); apply eqi_ret; first [exact I | constructor]);
        try (apply Hatom; auto);
        try (apply step2_inv; auto).
    Qed.
  End Uniq.
End WF.

(** ** The machine *)
Section Machine.
  Variable A : sym -> Prop.
  Variable K N : Prop.
  Variable uniq : nat -> bool.
  Variable gc gc' : gctx.
  Notation wfs := (wfs A K N).
  Notation wfl := (wfl A N).
  Notation eqi := (eqi A K N).
  Hypothesis Heta : g_eta gc = g_eta gc'.
  Hypothesis Hrules : forall c, A c -> get_rules gc c = get_rules gc' c.
  Hypothesis Hrhs : forall c rs r, A c -> get_rules gc c = Some rs -> In r rs -> wfl (r_rhs r).

  Definition wst (st : state) : Prop := wfs (s_term st).

  Lemma push_args_inv ctx args : Forall wfs args -> forall stack,
    eqi anyt (push_args ctx args stack) (push_args ctx args stack).
  Proof.
    induction 1 as [|a args Ha Hargs IH]; intros stack; cbn [push_args]; [apply eqi_ret; exact I|].
    eapply eqi_bind; [apply IH|]. intros stack' _. eapply eqi_bind; [apply eqi_alloc; exact Ha|].
    intros l _. apply eqi_ret. exact I.
  Qed.

  Lemma rstate_whnf_inv w w' : (forall st, wst st -> eqi wst (w st) (w' st)) ->
    forall l, eqi anyt (rstate_whnf w l) (rstate_whnf w' l).
  Proof.
    intros Hw l. unfold rstate_whnf. eapply eqi_bind; [apply eqi_read|].
    intros [st [|] [|]|th] Hc; try apply eqi_panic; [apply eqi_ret; exact I|].
    eapply eqi_bind; [apply eqi_write; exact Hc|]. intros _ _.
    eapply eqi_bind; [apply Hw; exact Hc|]. intros st' Hst'. apply eqi_write. exact Hst'.
  Qed.

  Lemma whnf__inv n w w' : (forall st, wst st -> eqi wst (w st) (w' st)) ->
    forall t, wfs t -> eqi wfs (whnf_ uniq n w t) (whnf_ uniq n w' t).
  Proof.
    intros Hw t Ht s Hs. unfold whnf_, with_fresh_heap.
    assert (H : eqi wfs (st <- w (state_new t) ;; sterm_of_state uniq (force uniq n) (sterm_of_rstate uniq n) st)
                        (st <- w' (state_new t) ;; sterm_of_state uniq (force uniq n) (sterm_of_rstate uniq n) st)).
    { eapply eqi_bind; [apply Hw; exact Ht|]. intros st Hst. apply sterm_of_state_inv; [apply force_inv|apply force_inv|exact Hst]. }
    destruct (H (MSt [] (m_tick s))) as [He Hp]; [intros [|l] c; discriminate|]. rewrite <- He.
    split; [reflexivity|]. destruct (bind _ _ _) as [[a s']| | |]; auto. split; [apply Hp|exact Hs].
  Qed.

  Lemma machine_inv n :
    (forall st, wst st -> eqi wst (state_whnf uniq gc n st) (state_whnf uniq gc' n st)) /\
    (forall cns, Forall (wfpair A K N) cns -> eqi anyt (convertible_loop uniq gc n cns) (convertible_loop uniq gc' n cns)).
  Proof.
    induction n as [|n [IH1 IH2]]; [split; intros; apply eqi_nofuel|]. split.
    - intros [ctx t stack] Hst. unfold wst in Hst. cbn [s_term] in Hst. cbn [state_whnf].
      assert (Hstop : forall st, wst st -> eqi wst (whnf_break st) (whnf_break st)).
      { intros st H. unfold whnf_break. destruct (s_term st); try (apply eqi_ret; exact H).
        destruct (s_ctx st); [apply eqi_ret; exact H|apply eqi_panic]. }
      assert (Hcomb : eqi wst
        match get_comb t with
        | None => panic
        | Some (Prod _ _ _) => panic
        | Some (Abst _ _ t) =>
          match stack with
          | [] => panic
          | l :: stack => th <- rtterm_new l ;; state_whnf uniq gc n (State (th :: ctx) t stack)
          end
        | Some (Appl head tail) =>
          stack <- push_args ctx tail stack ;;
          state_whnf uniq gc n (State ctx head stack)
        end
        match get_comb t with
        | None => panic
        | Some (Prod _ _ _) => panic
        | Some (Abst _ _ t) =>
          match stack with
          | [] => panic
          | l :: stack => th <- rtterm_new l ;; state_whnf uniq gc' n (State (th :: ctx) t stack)
          end
        | Some (Appl head tail) =>
          stack <- push_args ctx tail stack ;;
          state_whnf uniq gc' n (State ctx head stack)
        end).
      { destruct (get_comb t) as [c|] eqn:Ec; [|apply eqi_panic]. pose proof (wfs_get_comb A K N _ _ Hst Ec) as Hc.
        destruct c as [h args|id a b|id a b]; [|apply eqi_panic|].
        - destruct Hc as (Wh & Wa & _). apply list_all_Forall in Wa.
          eapply eqi_bind; [apply push_args_inv; assumption|]. intros stack' _. apply IH1. exact Wh.
        - destruct stack as [|l stack]; [apply eqi_panic|]. eapply eqi_bind; [apply eqi_alloc; exact I|].
          intros th _. apply IH1. apply Hc. }
      destruct t as [| |c|x|c|c].
      + apply Hstop. exact Hst.
      + apply Hstop. exact Hst.
      + rewrite <- Hrules by exact Hst. destruct (get_rules gc c) as [rules|] eqn:Er; [|apply Hstop; exact Hst].
        eapply eqi_bind.
        * apply first_match_inv; [apply rstate_whnf_inv; exact IH1|]. intros t u Ht Hu. apply IH2.
          constructor; [split; assumption|constructor].
        * intros [[ctx' r]|] Ho; [|apply Hstop; exact Hst].
          eapply eqi_bind; [apply eqi_usub|]. intros _ _. apply IH1. unfold wst. cbn. apply wfs_of_lterm.
          eapply Hrhs; eassumption.
      + destruct (nth_error ctx x).
        * eapply eqi_bind; [apply force_inv|]. intros t Ht. apply IH1. exact Ht.
        * destruct ctx; [apply Hstop; exact I|]. eapply eqi_bind; [apply eqi_usub|]. intros m _. apply Hstop. exact I.
      + destruct (is_whnf _ _); [apply Hstop; exact Hst|exact Hcomb].
      + destruct (is_whnf _ _); [apply Hstop; exact Hst|exact Hcomb].
    - intros cns Hcns. destruct cns as [|[t u] cns]; [apply eqi_ret; exact I|].
      inversion Hcns as [|? ? [Ht Hu] Hrest]; subst. cbn [fst snd] in *. cbn [convertible_loop].
      destruct (sterm_eqb t u); [apply IH2; assumption|].
      eapply eqi_bind; [apply whnf__inv; [exact IH1|assumption]|]. intros t' Ht'.
      eapply eqi_bind; [apply whnf__inv; [exact IH1|assumption]|]. intros u' Hu'.
      rewrite <- Heta. eapply eqi_bind; [apply step_inv; assumption|].
      intros [new|] Ho; [|apply eqi_ret; exact I]. apply IH2. apply Forall_app. auto.
  Qed.

  Lemma whnf_inv n t : wfs t -> eqi wfs (whnf uniq gc n t) (whnf uniq gc' n t).
  Proof. apply whnf__inv. apply machine_inv. Qed.
  Lemma convertible_inv n t u : wfs t -> wfs u -> eqi anyt (convertible uniq gc n t u) (convertible uniq gc' n t u).
  Proof. intros Ht Hu. apply machine_inv. constructor; [split; assumption|constructor]. Qed.
End Machine.
