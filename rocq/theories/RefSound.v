(** * Soundness of the reference machine

    Every heap cell denotes a term; the machine changes cells only to states of convertible denotation. *)

From Verif Require Import Base ModelSubst ModelReduce SpecTerm SpecConv SpecConvFacts RefMachine RefSafe.

Open Scope sm_scope.

Lemma Forall2_length {A B} {R : A -> B -> Prop} {l l'} : Forall2 R l l' -> length l = length l'.
Proof. induction 1; cbn; congruence. Qed.

(** [G] lists the terms denoted by the cells. *)
Definition look (G : list tm) (l : loc) (t : tm) : Prop := nth_error G l = Some t.
Definition pre (G G' : list tm) : Prop := exists K, G' = G ++ K.
Lemma pre_refl G : pre G G.
Proof. exists []. now rewrite app_nil_r. Qed.
Lemma pre_trans G1 G2 G3 : pre G1 G2 -> pre G2 G3 -> pre G1 G3.
Proof. intros [K ->] [K' ->]. exists (K ++ K'). now rewrite app_assoc. Qed.
Lemma look_pre G G' l t : pre G G' -> look G l t -> look G' l t.
Proof.
  intros [K ->] H. unfold look in *. rewrite nth_error_app1; auto. apply nth_error_Some. congruence.
Qed.
Lemma looks_pre G G' ls ts : pre G G' -> Forall2 (look G) ls ts -> Forall2 (look G') ls ts.
Proof. intros Hp H. induction H; constructor; eauto using look_pre. Qed.
Lemma look_fun G l t u : look G l t -> look G l u -> t = u.
Proof. unfold look. congruence. Qed.
Lemma looks_fun G ls ts : Forall2 (look G) ls ts -> forall us, Forall2 (look G) ls us -> ts = us.
Proof.
  induction 1; intros us Hu; inversion Hu; subst; auto. f_equal; eauto using look_fun.
Qed.

Section Sound.
  Variable sg : sig.
  Notation conv := (conv sg).

  Definition st_sem (G : list tm) (st : rstate) (g : tm) : Prop :=
    exists ts us, Forall2 (look G) (rs_ctx st) ts /\ Forall2 (look G) (rs_stack st) us /\
                  conv (apps (sub (slist ts) (rs_term st)) us) g.
  Definition cellok (G : list tm) (c : rcell) (g : tm) : Prop :=
    match c with
    | RCState st _ _ => st_sem G st g
    | RCThunk (RTodo l) => exists t, look G l t /\ conv t g
    | RCThunk RBusy => True
    | RCThunk (RDone t) => conv t g
    end.
  Definition heap_ok (G : list tm) (h : heap) : Prop := Forall2 (cellok G) h G.

  Lemma st_sem_pre G G' st g : pre G G' -> st_sem G st g -> st_sem G' st g.
  Proof. intros Hp (ts & us & H1 & H2 & H3). exists ts, us. eauto using looks_pre. Qed.
  Lemma st_sem_conv G st g g' : conv g g' -> st_sem G st g -> st_sem G st g'.
  Proof. intros Hc (ts & us & H1 & H2 & H3). exists ts, us. eauto using conv_trans. Qed.
  Lemma cellok_pre G G' c g : pre G G' -> cellok G c g -> cellok G' c g.
  Proof.
    intros Hp. destruct c as [st w b|[l| |t]]; cbn; auto; [apply st_sem_pre; assumption|].
    intros (t & H1 & H2). eauto using look_pre.
  Qed.

  Definition tr {A} (G : list tm) (m : RM A) (Q : list tm -> A -> Prop) : Prop :=
    forall h, heap_ok G h ->
      match m h with
      | Ok (a, h') => exists G', pre G G' /\ heap_ok G' h' /\ Q G' a
      | _ => True
      end.

  Lemma tr_ret {A} G (a : A) (Q : list tm -> A -> Prop) : Q G a -> tr G (ret a) Q.
  Proof. intros H h Hh. exists G. auto using pre_refl. Qed.
  Lemma tr_nofuel {A} G (Q : list tm -> A -> Prop) : tr G nofuel Q.
  Proof. intros h _. exact I. Qed.
  Lemma tr_panic {A} G (Q : list tm -> A -> Prop) : tr G panic Q.
  Proof. intros h _. exact I. Qed.
  Lemma tr_bind {A B} G (m : RM A) (k : A -> RM B) Q R :
    tr G m Q -> (forall G' a, pre G G' -> Q G' a -> tr G' (k a) R) -> tr G (bind m k) R.
  Proof.
    intros Hm Hk h Hh. specialize (Hm h Hh). unfold bind. destruct (m h) as [[a h']|e| |]; auto.
    destruct Hm as (G' & Hp & Hh' & HQ). specialize (Hk G' a Hp HQ h' Hh').
    destruct (k a h') as [[b h'']|e| |]; auto. destruct Hk as (G'' & Hp' & Hh'' & HR). eauto using pre_trans.
  Qed.
  Lemma tr_post {A} G (m : RM A) (Q R : list tm -> A -> Prop) :
    (forall G' a, pre G G' -> Q G' a -> R G' a) -> tr G m Q -> tr G m R.
  Proof.
    intros HQ Hm h Hh. specialize (Hm h Hh). destruct (m h) as [[a h']|e| |]; auto.
    destruct Hm as (G' & Hp & Hh' & H). eauto.
  Qed.

  Lemma tr_alloc G c g : cellok G c g -> tr G (r_alloc c) (fun G' l => look G' l g).
  Proof.
    intros Hc h Hh. cbn. assert (pre G (G ++ [g])) as Hp by (exists [g]; reflexivity).
    exists (G ++ [g]). split; [assumption|]. split.
    - apply Forall2_app; [|constructor; [eapply cellok_pre; eassumption|constructor]].
      assert (H : forall h G0, Forall2 (cellok G) h G0 -> Forall2 (cellok (G ++ [g])) h G0)
        by (induction 1; constructor; eauto using cellok_pre).
      apply H. exact Hh.
    - unfold look. rewrite (Forall2_length Hh), nth_error_app2, Nat.sub_diag by lia. reflexivity.
  Qed.
  Lemma Forall2_nth {A B} (R : A -> B -> Prop) l l' : Forall2 R l l' -> forall n a b,
    nth_error l n = Some a -> nth_error l' n = Some b -> R a b.
  Proof.
    induction 1; intros [|n] a b; cbn; try discriminate; eauto. intros [= ->] [= ->]. assumption.
  Qed.
  Lemma tr_read G l g : look G l g -> tr G (r_read l) (fun G' c => cellok G' c g).
  Proof.
    intros Hl h Hh. unfold r_read. destruct (nth_error h l) as [c|] eqn:E; auto.
    exists G. split; [apply pre_refl|]. split; [assumption|]. eapply Forall2_nth; eassumption.
  Qed.
  Lemma Forall2_list_set {A B} (R : A -> B -> Prop) l l' : Forall2 R l l' -> forall n a b,
    nth_error l' n = Some b -> R a b -> Forall2 R (list_set l n a) l'.
  Proof.
    induction 1; intros [|n] a b; cbn; try discriminate; intros Hn HR; constructor; eauto. congruence.
  Qed.
  Lemma tr_write G l g c : look G l g -> cellok G c g -> tr G (r_write l c) (fun _ _ => True).
  Proof.
    intros Hl Hc h Hh. cbn. exists G. split; [apply pre_refl|]. split; [|exact I].
    eapply Forall2_list_set; eassumption.
  Qed.
  Lemma tr_usub G n k : tr G (r_usub n k) (fun _ d => k <= n /\ d = n - k).
  Proof.
    unfold r_usub. destruct (Nat.leb_spec k n); [apply tr_ret; auto|apply tr_panic].
  Qed.
  Lemma tr_borrow G l g : look G l g -> tr G (r_borrow l) (fun G' st => st_sem G' st g).
  Proof.
    intros Hl. eapply tr_bind; [apply tr_read; eassumption|]. intros G' c Hp Hc.
    destruct c as [st w [|]|th]; try apply tr_panic. apply tr_ret. exact Hc.
  Qed.

  (** ** Reading back *)
  Definition sk (s : nat -> tm) (k n : nat) : tm := if n <? k then Var n else ren (fun x => x + k) (s (n - k)).
  Lemma sk_up s k n : sk s (k + 1) n = up (sk s k) n.
  Proof.
    unfold sk. destruct n as [|n]; cbn [up].
    - destruct (Nat.ltb_spec 0 (k + 1)); [reflexivity|lia].
    - destruct (Nat.ltb_spec (S n) (k + 1)); destruct (Nat.ltb_spec n k); try lia; cbn [ren]; auto.
      rewrite ren_ren. replace (S n - (k + 1)) with (n - k) by lia. apply ren_ext. intros; lia.
  Qed.
  Lemma sk_0 s n : sk s 0 n = s n.
  Proof. unfold sk. cbn. rewrite Nat.sub_0_r. apply ren_id_ext. intros; lia. Qed.

  Lemma rsub_sound f s G0 :
    (forall G n k, pre G0 G -> k <= n -> tr G (f n k) (fun _ t => conv t (ren (fun x => x + k) (s (n - k))))) ->
    forall t k G, pre G0 G -> tr G (rsub f t k) (fun _ t' => conv t' (sub (sk s k) t)).
  Proof.
    intros Hf. induction t; intros k G Hp; cbn [rsub sub]; try (apply tr_ret; apply conv_refl).
    - unfold sk. destruct (Nat.leb_spec k n); destruct (Nat.ltb_spec n k); try lia.
      + apply Hf; assumption.
      + apply tr_ret; apply conv_refl.
    - eapply tr_bind; [apply IHt1; assumption|]. intros G1 t' H1 Ht.
      eapply tr_bind; [apply IHt2; eauto using pre_trans|]. intros G2 u' H2 Hu.
      apply tr_ret. apply conv_app; assumption.
    - eapply tr_bind; [apply IHt2; assumption|]. intros G1 t' H1 Ht.
      eapply tr_bind; [apply IHt1; eauto using pre_trans|]. intros G2 u' H2 Hu.
      apply tr_ret. apply conv_lam. erewrite sub_ext in Ht by (intros; apply sk_up). exact Ht.
    - eapply tr_bind; [apply IHt; assumption|]. intros G1 t' H1 Ht.
      apply tr_ret. apply conv_ulam. erewrite sub_ext in Ht by (intros; apply sk_up). exact Ht.
    - eapply tr_bind; [apply IHt1; assumption|]. intros G1 t' H1 Ht.
      eapply tr_bind; [apply IHt2; eauto using pre_trans|]. intros G2 u' H2 Hu.
      apply tr_ret. apply conv_pi; auto. erewrite sub_ext in Hu by (intros; apply sk_up). exact Hu.
  Qed.

  Definition reads (f : loc -> RM tm) : Prop := forall G l g, look G l g -> tr G (f l) (fun _ t => conv t g).

  Lemma r_psubst_sound force ctx ts G n k :
    reads force -> Forall2 (look G) ctx ts -> k <= n ->
    tr G (r_psubst force ctx n k) (fun _ t => conv t (ren (fun x => x + k) (slist ts (n - k)))).
  Proof.
    intros Hf Hc Hk. unfold r_psubst. eapply tr_bind; [apply tr_usub|]. intros G1 d Hp [_ ->].
    destruct (nth_error ctx (n - k)) as [l|] eqn:El.
    - assert (exists t, nth_error ts (n - k) = Some t) as [t Et].
      { destruct (nth_error ts (n - k)) eqn:E; eauto. apply nth_error_None in E.
        rewrite <- (Forall2_length Hc) in E. apply nth_error_None in E. congruence. }
      pose proof (Forall2_nth _ _ _ Hc _ _ _ El Et) as Hl.
      eapply tr_bind; [apply Hf; eapply look_pre; eassumption|]. intros G2 t' Hp2 Ht'.
      apply tr_ret. rewrite (slist_lt _ _ _ Et). apply conv_ren. exact Ht'.
    - apply nth_error_None in El. pose proof (Forall2_length Hc) as Hlen.
      eapply tr_bind; [apply tr_usub|]. intros G2 m Hp2 [Hm ->]. apply tr_ret.
      rewrite slist_ge by lia. cbn. replace (n - k - length ts + k) with (n - length ctx) by lia. apply conv_refl.
  Qed.

  Lemma mapM_sound f : reads f -> forall ls G us, Forall2 (look G) ls us ->
    tr G (mapM f ls) (fun _ ts => Forall2 conv ts us).
  Proof.
    intros Hf. induction ls as [|l ls IH]; intros G us H; inversion H; subst; cbn [mapM].
    - apply tr_ret. constructor.
    - eapply tr_bind; [apply Hf; eassumption|]. intros G1 t Hp Ht.
      eapply tr_bind; [apply IH; eapply looks_pre; eassumption|]. intros G2 ts Hp2 Hts.
      apply tr_ret. constructor; assumption.
  Qed.

  Lemma r_of_state_sound force ofr G st g : reads force -> reads ofr -> st_sem G st g ->
    tr G (r_of_state force ofr st) (fun _ t => conv t g).
  Proof.
    intros Hf Ho (ts & us & Hc & Hs & Hg). unfold r_of_state.
    eapply tr_bind with (Q := fun _ t => conv t (sub (slist ts) (rs_term st))).
    { destruct (rs_ctx st) as [|l ctx] eqn:Ec.
      - inversion Hc; subst. apply tr_ret. change (slist []) with (fun n => Var n).
        rewrite sub_id_ext by reflexivity. apply conv_refl.
      - rewrite <- Ec in *. eapply tr_post.
        2:{ eapply rsub_sound with (s := slist ts) (G0 := G); [|apply pre_refl].
            intros G1 n k Hp Hk. apply r_psubst_sound; auto. eapply looks_pre; eassumption. }
        cbn. intros G' a _ Ha. erewrite sub_ext in Ha by (intros; apply sk_0). exact Ha. }
    intros G1 t Hp Ht. eapply tr_bind; [apply mapM_sound; [assumption|eapply looks_pre; eassumption]|].
    intros G2 us' Hp2 Hus. apply tr_ret. eapply conv_trans; [|exact Hg]. apply conv_apps; assumption.
  Qed.

  Lemma r_force_sound n : reads (r_force n) /\ reads (r_of_rstate n).
  Proof.
    induction n as [|n [IH1 IH2]]; [split; intros G l g H; apply tr_nofuel|]. split; intros G l g Hl.
    - cbn [r_force]. eapply tr_bind; [apply tr_read; eassumption|]. intros G1 c Hp Hc.
      destruct c as [st w b|[l'| |t]]; try apply tr_panic.
      + destruct Hc as (t & Ht & Htg).
        eapply tr_bind; [apply tr_write with (g := g); [eapply look_pre; eassumption|exact I]|]. intros G2 [] Hp2 _.
        eapply tr_bind; [apply IH2; eapply look_pre; eassumption|]. intros G3 t' Hp3 Ht'.
        eapply tr_bind; [apply tr_write with (g := g); [eauto using look_pre, pre_trans|]|].
        * cbn. cbn beta in *; eapply conv_trans; eassumption.
        * intros G4 [] Hp4 _. apply tr_ret. cbn beta in *; eapply conv_trans; eassumption.
      + apply tr_ret. exact Hc.
    - cbn [r_of_rstate]. eapply tr_bind; [apply tr_borrow; eassumption|]. intros G1 st Hp Hst.
      apply r_of_state_sound; assumption.
  Qed.

  (** ** Matching *)
  Definition sb_ok (G : list tm) (sb : list (list loc)) : Prop :=
    forall ls l, In ls sb -> In l ls -> exists t, look G l t.
  Definition compat (G : list tm) (sb : list (list loc)) (s : nat -> tm) : Prop :=
    forall m ls l, nth_error sb m = Some ls -> In l ls -> exists t, look G l t /\ conv (s m) t.
  (** [sb'] extends [sb] by matches of variables of [vs] *)
  Definition sb_ext (vs : list nat) (sb sb' : list (list loc)) : Prop :=
    length sb' = length sb /\
    (forall m ls, nth_error sb m = Some ls -> exists ls', nth_error sb' m = Some ls' /\ incl ls ls') /\
    (forall m, In m vs -> m < length sb) /\
    (forall m ls', nth_error sb' m = Some ls' -> ls' <> [] -> In m vs \/ exists ls, nth_error sb m = Some ls /\ ls <> []).

  Lemma sb_ext_refl sb : sb_ext [] sb sb.
  Proof.
    split; [reflexivity|]. split; [intros; eauto using incl_refl|]. split; [intros ? []|]. eauto.
  Qed.
  Lemma sb_ext_trans v1 v2 sb1 sb2 sb3 : sb_ext v1 sb1 sb2 -> sb_ext v2 sb2 sb3 -> sb_ext (v1 ++ v2) sb1 sb3.
  Proof.
    intros (L1 & I1 & V1 & N1) (L2 & I2 & V2 & N2). split; [congruence|]. split; [|split].
    - intros m ls H. destruct (I1 _ _ H) as (ls2 & H2 & Hi2). destruct (I2 _ _ H2) as (ls3 & H3 & Hi3).
      eauto using incl_tran.
    - intros m Hm. apply in_app_or in Hm. destruct Hm as [Hm|Hm]; [auto|]. rewrite <- L1. auto.
    - intros m ls H Hne. destruct (N2 _ _ H Hne) as [Hv|(ls2 & H2 & Hne2)]; [left; apply in_or_app; auto|].
      destruct (N1 _ _ H2 Hne2) as [Hv|Hx]; [left; apply in_or_app; auto|right; assumption].
  Qed.
  Lemma compat_ext vs G sb sb' s : sb_ext vs sb sb' -> compat G sb' s -> compat G sb s.
  Proof.
    intros (_ & I1 & _ & _) Hc m ls l Hm Hl. destruct (I1 _ _ Hm) as (ls' & Hm' & Hi). eapply Hc; eauto.
  Qed.
  Lemma subst_push_ext sb m l sb' : subst_push sb m l = Some sb' ->
    sb_ext [m] sb sb' /\ (exists ls, nth_error sb' m = Some ls /\ In l ls) /\
    (forall ls l', In ls sb' -> In l' ls -> l' = l \/ exists ls0, In ls0 sb /\ In l' ls0).
  Proof.
    revert m sb'. induction sb as [|ls sb IH]; intros m sb'; cbn; [discriminate|]. destruct m as [|m].
    - intros [= <-]. split; [split; [reflexivity|split; [|split]]|split].
      + intros [|m] ls0; cbn.
        * intros [= <-]. eexists; split; [reflexivity|]. apply incl_appl, incl_refl.
        * intros H. eauto using incl_refl.
      + intros m [<-|[]]. cbn. lia.
      + intros [|m] ls0; cbn; [left; auto|]. intros H Hne. right. eauto.
      + eexists; split; [reflexivity|]. apply in_or_app. right. left. reflexivity.
      + intros ls0 l' [<-|Hin] Hl.
        * apply in_app_or in Hl. destruct Hl as [Hl|[<-|[]]]; eauto.
        * eauto.
    - destruct (subst_push sb m l) as [sb0|] eqn:E; [|discriminate]. intros [= <-].
      destruct (IH _ _ E) as ((L & I1 & V & N) & (ls1 & H1 & H2) & H3).
      split; [split; [cbn; congruence|split; [|split]]|split].
      + intros [|m'] ls0; cbn; [intros [= <-]; eauto using incl_refl|apply I1].
      + intros m' [<-|[]]. cbn. specialize (V m (or_introl eq_refl)). lia.
      + intros [|m'] ls0; cbn.
        * intros [= <-] Hne. right. eauto.
        * intros H Hne. destruct (N _ _ H Hne) as [[<-|[]]|Hx]; [left; left; reflexivity|right; exact Hx].
      + eauto.
      + intros ls0 l' [<-|Hin] Hl; eauto. destruct (H3 _ _ Hin Hl) as [|(ls2 & ? & ?)]; eauto.
  Qed.
  Lemma compat_pre G G' sb s : pre G G' -> sb_ok G sb -> compat G' sb s -> compat G sb s.
  Proof.
    intros Hp Hs Hc m ls l Hm Hl. destruct (Hc _ _ _ Hm Hl) as (t & Ht & Hct).
    destruct (Hs ls l (nth_error_In _ _ Hm) Hl) as (t' & Ht'). exists t'. split; auto.
    rewrite (look_fun _ _ _ _ (look_pre _ _ _ _ Hp Ht') Ht). exact Hct.
  Qed.
  Lemma sb_ok_pre G G' sb : pre G G' -> sb_ok G sb -> sb_ok G' sb.
  Proof. intros Hp H ls l H1 H2. destruct (H ls l H1 H2) as (t & Ht). eauto using look_pre. Qed.

  Section Match.
    Variable rw : loc -> RM unit.
    Hypothesis Hrw : forall G l g, look G l g -> tr G (rw l) (fun _ _ => True).

    (** [p] has an instance convertible to [g], for all instantiations that agree with the result *)
    Definition match_post (p : pat) (g : tm) (sb : list (list loc)) (G : list tm) (o : option (list (list loc))) : Prop :=
      match o with
      | None => True
      | Some sb' => sb_ext (pat_vars p) sb sb' /\ sb_ok G sb' /\
                    forall s, compat G sb' s -> exists t, inst s p t /\ conv t g
      end.
    Definition matches_post (ps : list pat) (gs : list tm) (sb : list (list loc)) (G : list tm)
      (o : option (list (list loc))) : Prop :=
      match o with
      | None => True
      | Some sb' => sb_ext (flat_map pat_vars ps) sb sb' /\ sb_ok G sb' /\
                    forall s, compat G sb' s -> exists ts, Forall2 (inst s) ps ts /\ Forall2 conv ts gs
      end.

    Lemma match_cons p ps g gs sb G1 G2 sb1 o :
      pre G1 G2 -> match_post p g sb G1 (Some sb1) -> matches_post ps gs sb1 G2 o ->
      matches_post (p :: ps) (g :: gs) sb G2 o.
    Proof.
      intros Hp (E1 & S1 & C1) H2. destruct o as [sb2|]; [|exact I]. destruct H2 as (E2 & S2 & C2).
      split; [cbn; eapply sb_ext_trans; eassumption|]. split; [assumption|]. intros s Hs.
      destruct (C2 s Hs) as (ts & Hts & Hcts).
      assert (compat G1 sb1 s) as Hs1 by (eapply compat_pre; [exact Hp|exact S1|eapply compat_ext; eassumption]).
      destruct (C1 s Hs1) as (t & Ht & Hct). exists (t :: ts). split; constructor; assumption.
    Qed.

    Lemma r_match_pat_sound p : forall l g sb G, look G l g -> sb_ok G sb ->
      tr G (r_match_pat rw l p sb) (match_post p g sb).
    Proof.
      induction p as [c ps IH|m|] using pat_ind'; intros l g sb G Hl Hsb; cbn [r_match_pat].
      - eapply tr_bind; [eapply Hrw; eassumption|]. intros G1 [] Hp1 _.
        eapply tr_bind; [apply tr_borrow; eapply look_pre; eassumption|]. intros G2 st Hp2 Hst.
        destruct Hst as (ts & us & Hc & Hu & Hg).
        destruct (rs_term st) as [| |c'| | | | |]; try (apply tr_ret; exact I).
        destruct ((c =? c') && (length (rs_stack st) =? length ps)) eqn:E; [|apply tr_ret; exact I].
        apply andb_true_iff in E. destruct E as [E1 E2]. apply Nat.eqb_eq in E1, E2. subst c'. cbn [sub] in Hg.
        assert (Hgo : tr G2 ((fix go (stack : list loc) (pats : list pat) (sb : list (list loc)) {struct pats} :=
             match pats, stack with
             | p :: pats, l :: stack =>
               o <- r_match_pat rw l p sb ;;
               match o with
               | None => ret None
               | Some sb => go stack pats sb
               end
             | _, _ => ret (Some sb)
             end) (rs_stack st) ps sb) (matches_post ps us sb)).
        { assert (Hsb2 : sb_ok G2 sb) by eauto using sb_ok_pre, pre_trans.
          clear Hg Hsb Hl Hc. revert IH us sb G2 Hp2 Hsb2 E2 Hu. generalize (rs_stack st) as stack.
          induction ps as [|p ps IHps]; intros stack IH us sb G2 Hp2 Hsb2 Hlen Hu.
          - destruct stack; [|discriminate]. inversion Hu; subst. apply tr_ret.
            split; [apply sb_ext_refl|]. split; [assumption|]. intros s _. exists []. split; constructor.
          - destruct stack as [|l1 stack]; [discriminate|]. inversion Hu as [|? u ? us' Hl1 Hus]; subst.
            inversion IH as [|? ? IHp IHps']; subst.
            eapply tr_bind; [apply IHp; eassumption|]. intros G3 o Hp3 Ho.
            destruct o as [sb1|]; [|apply tr_ret; exact I].
            eapply tr_post; [|apply IHps with (us := us'); [assumption| | | |]].
            + cbn beta. intros G4 o Hp4 Ho2. eapply match_cons; eassumption.
            + eauto using pre_trans.
            + apply Ho.
            + cbn in Hlen. lia.
            + eapply looks_pre; eassumption. }
        eapply tr_post; [|exact Hgo]. intros G3 [sb'|] Hp3; [|exact (fun _ => I)].
        intros (H1 & H2 & H3). split; [exact H1|]. split; [exact H2|]. intros s Hs.
        destruct (H3 s Hs) as (vs & Hv1 & Hv2). exists (apps (Const c) vs). split; [constructor; assumption|].
        eapply conv_trans; [|exact Hg]. apply conv_apps; auto using conv_refl.
      - apply tr_ret. unfold match_post. destruct (subst_push sb m l) as [sb'|] eqn:E; [|exact I].
        destruct (subst_push_ext _ _ _ _ E) as (H1 & (ls & H2 & H3) & H4). split; [exact H1|]. split.
        + intros ls' l' Hls Hl'. destruct (H4 _ _ Hls Hl') as [->|(ls0 & ? & ?)]; eauto.
        + intros s Hs. exists (s m). split; [constructor|]. destruct (Hs _ _ _ H2 H3) as (t & Ht & Hc).
          rewrite (look_fun _ _ _ _ Hl Ht). exact Hc.
      - apply tr_ret. split; [apply sb_ext_refl|]. split; [assumption|]. intros s _. exists g.
        split; [constructor|apply conv_refl].
    Qed.

    Lemma r_match_pats_sound ps : forall stack us sb G,
      length ps <= length stack -> Forall2 (look G) stack us -> sb_ok G sb ->
      tr G (r_match_pats rw stack ps sb) (matches_post ps (firstn (length ps) us) sb).
    Proof.
      induction ps as [|p ps IH]; intros stack us sb G Hlen Hu Hsb; cbn [r_match_pats].
      - apply tr_ret. split; [apply sb_ext_refl|]. split; [assumption|]. intros s _. exists []. split; constructor.
      - destruct stack as [|l stack]; [cbn in Hlen; lia|]. inversion Hu as [|? u ? us' Hl Hus]; subst.
        eapply tr_bind; [apply r_match_pat_sound; eassumption|]. intros G3 o Hp3 Ho.
        destruct o as [sb1|]; [|apply tr_ret; exact I].
        eapply tr_post; [|apply IH with (us := us')].
        + cbn beta. cbn [length firstn]. intros G4 o Hp4 Ho2. eapply match_cons; eassumption.
        + cbn in Hlen. lia.
        + eapply looks_pre; eassumption.
        + apply Ho.
    Qed.

    Variable cv : tm -> tm -> RM bool.
    Hypothesis Hcv : forall G t u, tr G (cv t u) (fun _ b => b = true -> conv t u).
    Variable n : nat.

    Lemma r_all_conv_loop_sound ls : forall th g G, look G th g -> (forall l, In l ls -> exists t, look G l t) ->
      tr G (r_all_conv_loop cv n th ls)
        (fun G' o => match o with
                  | Some th' => th' = th /\ forall l, In l ls -> exists t, look G' l t /\ conv g t
                  | None => True end).
    Proof.
      induction ls as [|l ls IH]; intros th g G Hth Hls; cbn [r_all_conv_loop].
      - apply tr_ret. split; [reflexivity|]. intros l [].
      - destruct (Hls l (or_introl eq_refl)) as [tl Htl].
        eapply tr_bind; [apply r_force_sound; eassumption|]. intros G1 t1 Hp1 Ht1.
        eapply tr_bind; [apply r_force_sound; eapply look_pre; eassumption|]. intros G2 t2 Hp2 Ht2.
        eapply tr_bind; [apply Hcv|]. intros G3 b Hp3 Hb. destruct b; [|apply tr_ret; exact I].
        assert (pre G G3) by eauto using pre_trans.
        eapply tr_post; [|apply IH with (g := g); [eapply look_pre; eassumption|]].
        + cbn. intros G4 [th'|] Hp4; [|auto]. intros [-> H4]. split; [reflexivity|]. intros l' [<-|Hin]; [|auto].
          exists tl. split; [eauto using look_pre, pre_trans|].
          eapply conv_trans; [apply conv_sym; exact Ht1|]. eapply conv_trans; [apply Hb; reflexivity|exact Ht2].
        + intros l' Hin. destruct (Hls l' (or_intror Hin)) as [t' Ht']. eauto using look_pre.
    Qed.

    Lemma r_all_conv_sound ls G : (forall l, In l ls -> exists t, look G l t) ->
      tr G (r_all_conv cv n ls)
        (fun G' o => match o with
                  | Some th => ls <> [] /\ exists g, look G' th g /\ forall l, In l ls -> exists t, look G' l t /\ conv g t
                  | None => True end).
    Proof.
      intros Hls. destruct ls as [|l ls]; cbn [r_all_conv]; [apply tr_ret; exact I|].
      destruct (Hls l (or_introl eq_refl)) as [t Ht].
      eapply tr_bind; [apply tr_alloc with (g := t); cbn; eauto using conv_refl|]. intros G1 th Hp1 Hth.
      eapply tr_post; [|apply r_all_conv_loop_sound with (g := t); [exact Hth|]].
      - cbn. intros G2 [th'|] Hp2; [|auto]. intros [-> H]. split; [discriminate|]. exists t.
        split; [eapply look_pre; eassumption|]. intros l' [<-|Hin]; [|auto].
        exists t. eauto using look_pre, pre_trans, conv_refl.
      - intros l' Hin. destruct (Hls l' (or_intror Hin)) as [t' Ht']. eauto using look_pre.
    Qed.

    Definition flat_post (sb : list (list loc)) (G : list tm) (o : option (list loc)) : Prop :=
      match o with
      | None => True
      | Some ctx => (forall ls, In ls sb -> ls <> []) /\
                    exists ts, Forall2 (look G) ctx ts /\ length ts = length sb /\ compat G sb (slist ts)
      end.

    Lemma r_flatten_sound sb : forall G, sb_ok G sb -> tr G (r_flatten cv n sb) (flat_post sb).
    Proof.
      induction sb as [|ls sb IH]; intros G Hsb; cbn [r_flatten].
      - apply tr_ret. split; [intros ls []|]. exists []. split; [constructor|]. split; [reflexivity|].
        intros [|m] ls l; discriminate.
      - eapply tr_bind; [apply IH; intros x l Hx; apply Hsb; right; exact Hx|]. intros G1 [ctx|] Hp1 Ho; [|apply tr_ret; exact I].
        eapply tr_bind.
        { apply r_all_conv_sound. intros l Hl. destruct (Hsb ls l (or_introl eq_refl) Hl) as [t Ht]. eauto using look_pre. }
        intros G2 [th|] Hp2 Ho2; [|apply tr_ret; exact I]. apply tr_ret.
        destruct Ho as (Hne & ts & Hts & Hlen & Hc). destruct Ho2 as (Hne2 & g & Hg & Hls).
        split; [intros x [<-|Hx]; auto|]. exists (g :: ts). split; [constructor; [assumption|eapply looks_pre; eassumption]|].
        split; [cbn; congruence|]. intros [|m] ls0 l; cbn.
        + intros [= <-] Hl. destruct (Hls l Hl) as (t & ? & ?). eauto.
        + intros Hm Hl. destruct (Hc _ _ _ Hm Hl) as (t & ? & ?). eauto using look_pre.
    Qed.

    (** What is known when a rule is applied: it is one of the given rules, its variables are those of its
        left-hand side, and the arguments are convertible to an instance of its patterns. *)
    Definition fire_post (rules : list srule) (us : list tm) (G : list tm) (o : option (list loc * srule)) : Prop :=
      match o with
      | None => True
      | Some (ctx, r) =>
        In r rules /\ usable r /\ length (sr_args r) <= length us /\
        exists ts vs, Forall2 (look G) ctx ts /\ length ts = sr_vars r /\
          Forall2 (inst (slist ts)) (sr_args r) vs /\ Forall2 conv vs (firstn (length (sr_args r)) us)
      end.

    Lemma nth_error_repeat_nil m k (ls : list loc) : nth_error (repeat [] k) m = Some ls -> ls = [].
    Proof. intros H. apply nth_error_In in H. apply repeat_spec in H. exact H. Qed.

    Lemma r_first_match_sound stack us rules : forall G, Forall2 (look G) stack us ->
      tr G (r_first_match rw cv n stack rules) (fire_post rules us).
    Proof.
      induction rules as [|r rules IH]; intros G Hu; cbn [r_first_match]; [apply tr_ret; exact I|].
      eapply tr_bind with (Q := fun G' o => match o with None => True | Some ctx => fire_post [r] us G' (Some (ctx, r)) end).
      - unfold r_match_flatten, r_match_rule.
        eapply tr_bind with (Q := fun G' o => length (sr_args r) <= length us /\
           matches_post (sr_args r) (firstn (length (sr_args r)) us) (repeat [] (sr_vars r)) G' o \/ o = None).
        + pose proof (Forall2_length Hu) as Hlen. destruct (Nat.ltb_spec (length stack) (length (sr_args r))) as [Hlt|Hge]; [apply tr_ret; right; reflexivity|].
          eapply tr_post; [|apply r_match_pats_sound; [lia|eassumption|]].
          * cbn. intros G' o _ Ho. left. split; [lia|exact Ho].
          * intros ls l Hls Hl. apply repeat_spec in Hls. subst. destruct Hl.
        + intros G1 [sb|] Hp1 H; [|apply tr_ret; exact I]. destruct H as [[Hle (Hext & Hsb & Hinst)]|H]; [|discriminate].
          eapply tr_post; [|apply r_flatten_sound; exact Hsb].
          intros G2 [ctx|] Hp2 Hf; [|exact I]. destruct Hf as (Hne & ts & Hts & Hlen & Hc).
          destruct Hext as (L & I1 & V & N). rewrite repeat_length in *.
          split; [left; reflexivity|]. split; [|split; [assumption|]].
          * intros m. split; [|apply V]. intros Hm.
            destruct (nth_error sb m) as [ls|] eqn:Em.
            -- destruct (N _ _ Em (Hne _ (nth_error_In _ _ Em))) as [Hv|(ls0 & H0 & H1)]; [exact Hv|].
               apply nth_error_repeat_nil in H0. contradiction.
            -- apply nth_error_None in Em. lia.
          * destruct (Hinst (slist ts)) as (vs & Hv1 & Hv2); [eapply compat_pre; eassumption|].
            exists ts, vs. repeat split; auto. congruence.
      - intros G1 [ctx|] Hp1 H.
        + apply tr_ret. destruct H as (_ & H). split; [left; reflexivity|exact H].
        + eapply tr_post; [|apply IH; eapply looks_pre; eassumption]. intros G2 [[ctx r']|] _; [|auto].
          intros (H1 & H2). split; [right; exact H1|exact H2].
    Qed.
  End Match.

  (** ** The machine *)
  Lemma r_unwind_sound ctx g : forall t stack G, st_sem G (RState ctx t stack) g ->
    tr G (r_unwind ctx t stack) (fun G' '(t', stack') => st_sem G' (RState ctx t' stack') g).
  Proof.
    induction t; intros stack G Hst; cbn [r_unwind]; try (apply tr_ret; exact Hst).
    destruct Hst as (ts & us & Hc & Hs & Hg). cbn in *.
    eapply tr_bind.
    { apply tr_alloc with (g := sub (slist ts) t2). cbn. exists ts, []. split; [exact Hc|]. split; [constructor|]. apply conv_refl. }
    intros G1 l Hp Hl. apply IHt1. exists ts, (sub (slist ts) t2 :: us). cbn.
    split; [eapply looks_pre; eassumption|]. split; [constructor; [assumption|eapply looks_pre; eassumption]|exact Hg].
  Qed.

  Definition evals (w : rstate -> RM rstate) : Prop :=
    forall G st g, st_sem G st g -> tr G (w st) (fun G' st' => st_sem G' st' g).

  Lemma r_rwhnf_sound w : evals w -> forall G l g, look G l g -> tr G (r_rwhnf w l) (fun _ _ => True).
  Proof.
    intros Hw G l g Hl. unfold r_rwhnf. eapply tr_bind; [apply tr_read; eassumption|]. intros G1 c Hp1 Hc.
    destruct c as [st [|] [|]|th]; try apply tr_panic; [apply tr_ret; exact I|].
    eapply tr_bind; [apply tr_write with (g := g); [eauto using look_pre|exact Hc]|]. intros G2 [] Hp2 _.
    eapply tr_bind; [apply Hw; eapply st_sem_pre; eassumption|]. intros G3 st' Hp3 Hst'.
    eapply tr_write; [|exact Hst']. eauto using look_pre, pre_trans.
  Qed.

  Lemma firstn_skipn_looks G ls us n : Forall2 (look G) ls us -> Forall2 (look G) (skipn n ls) (skipn n us).
  Proof. intros H. revert n. induction H; intros [|n]; cbn; auto. Qed.

  Lemma r_head_sound n w cv : evals w -> (forall G t u, tr G (cv t u) (fun _ b => b = true -> conv t u)) ->
    forall ctx t stack G g, st_sem G (RState ctx t stack) g ->
      tr G (r_head sg n w cv ctx t stack) (fun G' st' => st_sem G' st' g).
  Proof.
    intros Hw Hcv ctx t stack G g Hst.
    destruct t; cbn [r_head]; try (apply tr_ret; exact Hst).
    - destruct (sg_rules sg c) as [rules|] eqn:Er; [|apply tr_ret; exact Hst].
      pose proof Hst as (ts & us & Hc & Hs & Hg). cbn in *.
      eapply tr_bind; [apply r_first_match_sound with (us := us); eauto; apply r_rwhnf_sound; assumption|].
      intros G1 [[ctx' r]|] Hp1 Hf; [|apply tr_ret; eapply st_sem_pre; eassumption].
      destruct Hf as (Hin & Hus & Hle & ts' & vs & Hts' & Hlen & Hinst & Hvs).
      eapply tr_bind; [apply tr_usub|]. intros G2 _ Hp2 _. apply Hw.
      exists ts', (skipn (length (sr_args r)) us). cbn.
      split; [eapply looks_pre; eassumption|].
      split; [apply firstn_skipn_looks; eauto using looks_pre, pre_trans|].
      eapply conv_trans; [|exact Hg].
      rewrite <- (firstn_skipn (length (sr_args r)) us) at 2. rewrite apps_app. apply conv_apps_head.
      eapply conv_trans; [apply conv_sym; eapply conv_rule; eassumption|]. apply conv_apps; auto using conv_refl.
    - destruct Hst as (ts & us & Hc & Hs & Hg). cbn in *. destruct (nth_error ctx n0) as [l|] eqn:El.
      + assert (exists t, nth_error ts n0 = Some t) as [t Et].
        { destruct (nth_error ts n0) eqn:E; eauto. apply nth_error_None in E.
          rewrite <- (Forall2_length Hc) in E. apply nth_error_None in E. congruence. }
        pose proof (Forall2_nth _ _ _ Hc _ _ _ El Et) as Hl.
        eapply tr_bind; [apply r_force_sound; eassumption|]. intros G1 t' Hp1 Ht'. apply Hw.
        exists [], us. cbn. split; [constructor|]. split; [eapply looks_pre; eassumption|].
        eapply conv_trans; [|exact Hg]. apply conv_apps_head. rewrite (slist_lt _ _ _ Et).
        rewrite sub_id_ext by reflexivity. exact Ht'.
      + apply nth_error_None in El. eapply tr_bind; [apply tr_usub|]. intros G1 m Hp1 [_ ->]. apply tr_ret.
        exists [], us. cbn. split; [constructor|]. split; [eapply looks_pre; eassumption|].
        rewrite slist_ge in Hg by (rewrite <- (Forall2_length Hc); assumption).
        rewrite (Forall2_length Hc). exact Hg.
    - apply tr_panic.
    - destruct stack as [|l stack]; [apply tr_ret; exact Hst|].
      destruct Hst as (ts & us & Hc & Hs & Hg). cbn in *. inversion Hs as [|? u ? us' Hl Hs']; subst.
      eapply tr_bind; [apply tr_alloc with (g := u); cbn; eauto using conv_refl|]. intros G1 th Hp1 Hth. apply Hw.
      exists (u :: ts), us'. cbn [rs_ctx rs_stack rs_term]. split; [constructor; [assumption|eapply looks_pre; eassumption]|].
      split; [eapply looks_pre; eassumption|]. eapply conv_trans; [|exact Hg]. cbn [apps]. apply conv_apps_head.
      rewrite <- subst1_slist. apply conv_sym, conv_beta_lam.
    - destruct stack as [|l stack]; [apply tr_ret; exact Hst|].
      destruct Hst as (ts & us & Hc & Hs & Hg). cbn in *. inversion Hs as [|? u ? us' Hl Hs']; subst.
      eapply tr_bind; [apply tr_alloc with (g := u); cbn; eauto using conv_refl|]. intros G1 th Hp1 Hth. apply Hw.
      exists (u :: ts), us'. cbn [rs_ctx rs_stack rs_term]. split; [constructor; [assumption|eapply looks_pre; eassumption]|].
      split; [eapply looks_pre; eassumption|]. eapply conv_trans; [|exact Hg]. cbn [apps]. apply conv_apps_head.
      rewrite <- subst1_slist. apply conv_sym, conv_beta.
  Qed.

  Lemma r_whnf__sound n w : evals w -> forall G t, tr G (r_whnf_ n w t) (fun _ t' => conv t' t).
  Proof.
    intros Hw G t h Hh. unfold r_whnf_, r_fresh.
    assert (H : tr [] (st <- w (RState [] t []) ;; r_of_state (r_force n) (r_of_rstate n) st) (fun _ t' => conv t' t)).
    { eapply tr_bind; [apply Hw with (g := t)|].
      - exists [], []. cbn. split; [constructor|]. split; [constructor|]. rewrite sub_id_ext by reflexivity. apply conv_refl.
      - intros G1 st Hp1 Hst. apply r_of_state_sound; auto; apply r_force_sound. }
    specialize (H [] (Forall2_nil _)). revert H.
    match goal with |- context [match ?m [] with _ => _ end] => destruct (m []) as [[t' h']| | |] end; auto.
    intros (G' & _ & _ & H). exists G. auto using pre_refl.
  Qed.

  (** ** Convertibility *)
  Lemma spine_spec t : forall us, apps (fst (spine t us)) (snd (spine t us)) = apps t us.
  Proof. induction t; intros us; cbn; auto. rewrite IHt1. reflexivity. Qed.

  Lemma Forall_combine_conv us : forall vs, length us = length vs ->
    Forall (fun p => conv (fst p) (snd p)) (combine us vs) -> Forall2 conv us vs.
  Proof.
    induction us as [|u us IH]; intros [|v vs] Hl H; try discriminate; constructor; cbn in *; inversion H; subst; auto.
  Qed.

  Lemma conv_eta_expand b t : sg_eta sg = true -> conv b (r_shift_app t) -> conv (ULam b) t.
  Proof.
    intros He H. eapply conv_trans; [apply conv_ulam; exact H|]. apply conv_sym. apply conv_eta. exact He.
  Qed.
  Lemma lam_body_conv t b : lam_body t = Some b -> conv t (ULam b).
  Proof. destruct t; cbn; intros [= <-]; [apply conv_annot|apply conv_refl]. Qed.

  Lemma r_step_sound t u ps : r_step (sg_eta sg) t u = Some ps ->
    Forall (fun p => conv (fst p) (snd p)) ps -> conv t u.
  Proof.
    unfold r_step. destruct (lam_body t) as [b1|] eqn:E1; destruct (lam_body u) as [b2|] eqn:E2.
    - intros [= <-] H. inversion H; subst. cbn in *.
      eapply conv_trans; [apply lam_body_conv; eassumption|]. eapply conv_trans; [apply conv_ulam; eassumption|].
      apply conv_sym, lam_body_conv; assumption.
    - destruct (sg_eta sg) eqn:He; [|discriminate]. intros [= <-] H. inversion H; subst. cbn in *.
      eapply conv_trans; [apply lam_body_conv; eassumption|]. apply conv_eta_expand; assumption.
    - destruct (sg_eta sg) eqn:He; [|discriminate]. intros [= <-] H. inversion H; subst. cbn in *.
      apply conv_sym. eapply conv_trans; [apply lam_body_conv; eassumption|]. apply conv_eta_expand; assumption.
    - destruct t, u; try discriminate; auto using conv_refl.
      + destruct (Nat.eqb_spec c c0); [|discriminate]. subst. intros; apply conv_refl.
      + destruct (Nat.eqb_spec n n0); [|discriminate]. subst. intros; apply conv_refl.
      + pose proof (spine_spec (App t1 t2) []) as S1. pose proof (spine_spec (App u1 u2) []) as S2.
        destruct (spine (App t1 t2) []) as [f1 us1]. destruct (spine (App u1 u2) []) as [f2 us2].
        destruct (Nat.eqb_spec (length us1) (length us2)) as [Hl|]; [|discriminate]. intros E H.
        assert (Hps : ps = rev ((f1, f2) :: combine us1 us2)) by congruence. rewrite Hps in H. clear E Hps.
        apply Forall_rev in H. rewrite rev_involutive in H. inversion H; subst. cbn [fst snd apps] in *.
        rewrite <- S1, <- S2. apply conv_apps; auto using Forall_combine_conv.
      + intros [= <-] H. inversion H as [|? ? H1 H2]; subst. inversion H2; subst. cbn in *. apply conv_pi; assumption.
  Qed.

  Lemma r_machine_sound n :
    evals (r_state_whnf sg n) /\
    (forall G cns, tr G (r_conv_loop sg n cns) (fun _ b => b = true -> Forall (fun p => conv (fst p) (snd p)) cns)).
  Proof.
    induction n as [|n [IH1 IH2]]; [split; [intros G st g H|intros G cns]; apply tr_nofuel|]. split.
    - intros G [ctx t stack] g Hst. cbn [r_state_whnf rs_ctx rs_term rs_stack].
      eapply tr_bind; [apply r_unwind_sound; eassumption|]. intros G1 [t' stack'] Hp Hst'.
      apply r_head_sound; auto. intros G2 t1 t2. eapply tr_post; [|apply IH2]. cbn.
      intros G3 b _ H Hb. specialize (H Hb). inversion H; subst. assumption.
    - intros G [|[t u] cns]; cbn [r_conv_loop]; [apply tr_ret; constructor|].
      destruct (tm_eq_dec t u) as [<-|Hne].
      + eapply tr_post; [|apply IH2]. cbn. intros G1 b _ H Hb. constructor; auto. apply conv_refl.
      + eapply tr_bind; [apply r_whnf__sound; exact IH1|]. intros G1 t' Hp1 Ht.
        eapply tr_bind; [apply r_whnf__sound; exact IH1|]. intros G2 u' Hp2 Hu.
        destruct (r_step (sg_eta sg) t' u') as [new|] eqn:E; [|apply tr_ret; discriminate].
        eapply tr_post; [|apply IH2]. cbn. intros G3 b _ H Hb. specialize (H Hb).
        apply Forall_app in H. destruct H as [H1 H2]. constructor; [|exact H2]. cbn.
        eapply conv_trans; [apply conv_sym; exact Ht|]. eapply conv_trans; [|exact Hu].
        eapply r_step_sound; eassumption.
  Qed.

  (** ** Queries do not depend on the heap they start with *)
  Definition heapless {A} (m : RM A) : Prop :=
    forall h, m h = match m [] with
                    | Ok (a, _) => Ok (a, h)
                    | Err e => Err e
                    | Panic => Panic
                    | Fuel => Fuel
                    end.
  Lemma heapless_ret {A} (a : A) : heapless (ret a).
  Proof. intros h. reflexivity. Qed.
  Lemma heapless_fail {A} e : heapless (@fail heap kerror A e).
  Proof. intros h. reflexivity. Qed.
  Lemma heapless_nofuel {A} : heapless (@nofuel heap kerror A).
  Proof. intros h. reflexivity. Qed.
  Lemma heapless_fresh {A} (m : RM A) : heapless (r_fresh m).
  Proof. intros h. unfold r_fresh. destruct (m []) as [[? ?]| | |]; reflexivity. Qed.
  Lemma heapless_bind {A B} (m : RM A) (k : A -> RM B) :
    heapless m -> (forall a, heapless (k a)) -> heapless (bind m k).
  Proof.
    intros Hm Hk h. unfold bind. rewrite (Hm h). pose proof (Hm []) as H0.
    destruct (m []) as [[a h']| | |]; try reflexivity. injection H0 as ->. apply Hk.
  Qed.
  Lemma heapless_conv_loop n : forall cns, heapless (r_conv_loop sg n cns).
  Proof.
    induction n as [|n IH]; intros cns; cbn [r_conv_loop]; [apply heapless_nofuel|].
    destruct cns as [|[t u] cns]; [apply heapless_ret|]. destruct (tm_eq_dec t u); [apply IH|].
    apply heapless_bind; [apply heapless_fresh|]. intros t'.
    apply heapless_bind; [apply heapless_fresh|]. intros u'.
    destruct (r_step _ _ _); [apply IH|apply heapless_ret].
  Qed.

  Lemma r_whnf_sound n t h t' h' : r_whnf sg n t h = Ok (t', h') -> conv t t'.
  Proof.
    intros H. pose proof (heapless_fresh (bind (r_state_whnf sg n (RState [] t [])) (fun st => r_of_state (r_force n) (r_of_rstate n) st)) h) as Hh.
    pose proof (r_whnf__sound n _ (proj1 (r_machine_sound n)) [] t [] (Forall2_nil _)) as Hs.
    unfold r_whnf, r_whnf_ in *. rewrite Hh in H. destruct (r_fresh _ []) as [[? ?]| | |]; try discriminate.
    injection H as -> ->. destruct Hs as (G' & _ & _ & Hs). apply conv_sym. exact Hs.
  Qed.
  Lemma r_conv_sound n t u h h' : r_convertible sg n t u h = Ok (true, h') -> conv t u.
  Proof.
    unfold r_convertible. intros H. rewrite heapless_conv_loop in H.
    pose proof (proj2 (r_machine_sound n) [] [(t, u)] [] (Forall2_nil _)) as Hs. cbn beta in Hs.
    destruct (r_conv_loop sg n [(t, u)] []) as [[? ?]| | |]; try discriminate.
    injection H as -> ->. destruct Hs as (G' & _ & _ & Hs). specialize (Hs eq_refl). inversion Hs; subst. assumption.
  Qed.
End Sound.
