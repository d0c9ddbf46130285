(** * The reference machine preserves types

    As in [RefSound], every heap cell denotes a term; the machine changes cells only to states whose
    denotation has all types of the term before. *)

From Verif Require Import Base ModelSubst ModelReduce SpecTerm SpecConv SpecConvFacts SpecTyping SpecRed SpecType
  RefMachine RefSafe RefSound TypeFacts TypePres.

Open Scope sm_scope.

Section Typed.
  Variable sg : sig.
  Notation conv := (conv sg).

  (** [t] is convertible to [g] and has its types *)
  Definition pc (t g : tm) : Prop := pr sg g t.
  Lemma pc_conv t g : pc t g -> conv t g.
  Proof. apply pr_conv. Qed.
  Lemma pc_refl t : pc t t.
  Proof. apply pr_refl. Qed.
  Lemma pc_trans t u v : pc t u -> pc u v -> pc t v.
  Proof. intros H1 H2. eapply pr_trans; eassumption. Qed.
  Lemma pc_app t t' u u' : pc t t' -> pc u u' -> pc (App t u) (App t' u').
  Proof. apply pr_app. Qed.
  Lemma pc_lam a a' t t' : pc a a' -> pc t t' -> pc (Lam a t) (Lam a' t').
  Proof. apply pr_lam. Qed.
  Lemma pc_ulam t t' : pc t t' -> pc (ULam t) (ULam t').
  Proof. apply pr_ulam. Qed.
  Lemma pc_pi a a' t t' : pc a a' -> pc t t' -> pc (Pi a t) (Pi a' t').
  Proof. apply pr_pi. Qed.
  Lemma pc_ren t u r : pc t u -> pc (ren r t) (ren r u).
  Proof. apply pr_ren. Qed.
  Lemma pc_apps us us' t t' : pc t t' -> Forall2 pc us us' -> pc (apps t us) (apps t' us').
  Proof. intros H Hs. apply pr_apps; [exact H|]. induction Hs; constructor; auto. Qed.
  Lemma pc_apps_head us t t' : pc t t' -> pc (apps t us) (apps t' us).
  Proof. apply pr_apps_head. Qed.

  Definition st_sem (G : list tm) (st : rstate) (g : tm) : Prop :=
    exists ts us, Forall2 (look G) (rs_ctx st) ts /\ Forall2 (look G) (rs_stack st) us /\
                  pc (apps (sub (slist ts) (rs_term st)) us) g.
  Definition cellok (G : list tm) (c : rcell) (g : tm) : Prop :=
    match c with
    | RCState st _ _ => st_sem G st g
    | RCThunk (RTodo l) => exists t, look G l t /\ pc t g
    | RCThunk RBusy => True
    | RCThunk (RDone t) => pc t g
    end.
  Definition heap_ok (G : list tm) (h : heap) : Prop := Forall2 (cellok G) h G.

  Lemma st_sem_pre G G' st g : pre G G' -> st_sem G st g -> st_sem G' st g.
  Proof. intros Hp (ts & us & H1 & H2 & H3). exists ts, us. eauto using looks_pre. Qed.
  Lemma st_sem_pc G st g g' : pc g g' -> st_sem G st g -> st_sem G st g'.
  Proof. intros Hc (ts & us & H1 & H2 & H3). exists ts, us. eauto using pc_trans. Qed.
  Lemma cellok_pre G G' c g : pre G G' -> cellok G c g -> cellok G' c g.
  Proof.
    intros Hp. destruct c as [st w b|[l| |t]]; cbn; auto; [apply st_sem_pre; assumption|].
    intros (t & H1 & H2). eauto using look_pre.
  Qed.

  Definition tr {A} (G : list tm) (m : RM A) (Q : list tm -> A -> Prop) : Prop :=
    forall h, heap_ok G h ->
      match m h with
      | Ok (a, h') => exists G', pre G G' /\ heap_ok G' h' /\ Q G' a
      | _ => True
      end.

  Lemma tr_ret {A} G (a : A) (Q : list tm -> A -> Prop) : Q G a -> tr G (ret a) Q.
  Proof. intros H h Hh. exists G. auto using pre_refl. Qed.
  Lemma tr_nofuel {A} G (Q : list tm -> A -> Prop) : tr G nofuel Q.
  Proof. intros h _. exact I. Qed.
  Lemma tr_panic {A} G (Q : list tm -> A -> Prop) : tr G panic Q.
  Proof. intros h _. exact I. Qed.
  Lemma tr_bind {A B} G (m : RM A) (k : A -> RM B) Q R :
    tr G m Q -> (forall G' a, pre G G' -> Q G' a -> tr G' (k a) R) -> tr G (bind m k) R.
  Proof.
    intros Hm Hk h Hh. specialize (Hm h Hh). unfold bind. destruct (m h) as [[a h']|e| |]; auto.
    destruct Hm as (G' & Hp & Hh' & HQ). specialize (Hk G' a Hp HQ h' Hh').
    destruct (k a h') as [[b h'']|e| |]; auto. destruct Hk as (G'' & Hp' & Hh'' & HR). eauto using pre_trans.
  Qed.
  Lemma tr_post {A} G (m : RM A) (Q R : list tm -> A -> Prop) :
    (forall G' a, pre G G' -> Q G' a -> R G' a) -> tr G m Q -> tr G m R.
  Proof.
    intros HQ Hm h Hh. specialize (Hm h Hh). destruct (m h) as [[a h']|e| |]; auto.
    destruct Hm as (G' & Hp & Hh' & H). eauto.
  Qed.

  Lemma tr_alloc G c g : cellok G c g -> tr G (r_alloc c) (fun G' l => look G' l g).
  Proof.
    intros Hc h Hh. cbn. assert (pre G (G ++ [g])) as Hp by (exists [g]; reflexivity).
    exists (G ++ [g]). split; [assumption|]. split.
    - apply Forall2_app; [|constructor; [eapply cellok_pre; eassumption|constructor]].
      assert (H : forall h G0, Forall2 (cellok G) h G0 -> Forall2 (cellok (G ++ [g])) h G0)
        by (induction 1; constructor; eauto using cellok_pre).
      apply H. exact Hh.
    - unfold look. rewrite (Forall2_length Hh), nth_error_app2, Nat.sub_diag by lia. reflexivity.
  Qed.
  Lemma tr_read G l g : look G l g -> tr G (r_read l) (fun G' c => cellok G' c g).
  Proof.
    intros Hl h Hh. unfold r_read. destruct (nth_error h l) as [c|] eqn:E; auto.
    exists G. split; [apply pre_refl|]. split; [assumption|]. eapply Forall2_nth; eassumption.
  Qed.
  Lemma tr_write G l g c : look G l g -> cellok G c g -> tr G (r_write l c) (fun _ _ => True).
  Proof.
    intros Hl Hc h Hh. cbn. exists G. split; [apply pre_refl|]. split; [|exact I].
    eapply Forall2_list_set; eassumption.
  Qed.
  Lemma tr_usub G n k : tr G (r_usub n k) (fun _ d => k <= n /\ d = n - k).
  Proof.
    unfold r_usub. destruct (Nat.leb_spec k n); [apply tr_ret; auto|apply tr_panic].
  Qed.
  Lemma tr_borrow G l g : look G l g -> tr G (r_borrow l) (fun G' st => st_sem G' st g).
  Proof.
    intros Hl. eapply tr_bind; [apply tr_read; eassumption|]. intros G' c Hp Hc.
    destruct c as [st w [|]|th]; try apply tr_panic. apply tr_ret. exact Hc.
  Qed.

  (** ** Reading back *)
  Lemma rsub_typed f s G0 :
    (forall G n k, pre G0 G -> k <= n -> tr G (f n k) (fun _ t => pc t (ren (fun x => x + k) (s (n - k))))) ->
    forall t k G, pre G0 G -> tr G (rsub f t k) (fun _ t' => pc t' (sub (sk s k) t)).
  Proof.
    intros Hf. induction t; intros k G Hp; cbn [rsub sub]; try (apply tr_ret; apply pc_refl).
    - unfold sk. destruct (Nat.leb_spec k n); destruct (Nat.ltb_spec n k); try lia.
      + apply Hf; assumption.
      + apply tr_ret; apply pc_refl.
    - eapply tr_bind; [apply IHt1; assumption|]. intros G1 t' H1 Ht.
      eapply tr_bind; [apply IHt2; eauto using pre_trans|]. intros G2 u' H2 Hu.
      apply tr_ret. apply pc_app; assumption.
    - eapply tr_bind; [apply IHt2; assumption|]. intros G1 t' H1 Ht.
      eapply tr_bind; [apply IHt1; eauto using pre_trans|]. intros G2 u' H2 Hu.
      apply tr_ret. apply pc_lam; [exact Hu|]. erewrite sub_ext in Ht by (intros; apply sk_up). exact Ht.
    - eapply tr_bind; [apply IHt; assumption|]. intros G1 t' H1 Ht.
      apply tr_ret. apply pc_ulam. erewrite sub_ext in Ht by (intros; apply sk_up). exact Ht.
    - eapply tr_bind; [apply IHt1; assumption|]. intros G1 t' H1 Ht.
      eapply tr_bind; [apply IHt2; eauto using pre_trans|]. intros G2 u' H2 Hu.
      apply tr_ret. apply pc_pi; auto. erewrite sub_ext in Hu by (intros; apply sk_up). exact Hu.
  Qed.

  Definition reads (f : loc -> RM tm) : Prop := forall G l g, look G l g -> tr G (f l) (fun _ t => pc t g).

  Lemma r_psubst_typed force ctx ts G n k :
    reads force -> Forall2 (look G) ctx ts -> k <= n ->
    tr G (r_psubst force ctx n k) (fun _ t => pc t (ren (fun x => x + k) (slist ts (n - k)))).
  Proof.
    intros Hf Hc Hk. unfold r_psubst. eapply tr_bind; [apply tr_usub|]. intros G1 d Hp [_ ->].
    destruct (nth_error ctx (n - k)) as [l|] eqn:El.
    - assert (exists t, nth_error ts (n - k) = Some t) as [t Et].
      { destruct (nth_error ts (n - k)) eqn:E; eauto. apply nth_error_None in E.
        rewrite <- (Forall2_length Hc) in E. apply nth_error_None in E. congruence. }
      pose proof (Forall2_nth _ _ _ Hc _ _ _ El Et) as Hl.
      eapply tr_bind; [apply Hf; eapply look_pre; eassumption|]. intros G2 t' Hp2 Ht'.
      apply tr_ret. rewrite (slist_lt _ _ _ Et). apply pc_ren. exact Ht'.
    - apply nth_error_None in El. pose proof (Forall2_length Hc) as Hlen.
      eapply tr_bind; [apply tr_usub|]. intros G2 m Hp2 [Hm ->]. apply tr_ret.
      rewrite slist_ge by lia. cbn. replace (n - k - length ts + k) with (n - length ctx) by lia. apply pc_refl.
  Qed.

  Lemma mapM_typed f : reads f -> forall ls G us, Forall2 (look G) ls us ->
    tr G (mapM f ls) (fun _ ts => Forall2 pc ts us).
  Proof.
    intros Hf. induction ls as [|l ls IH]; intros G us H; inversion H; subst; cbn [mapM].
    - apply tr_ret. constructor.
    - eapply tr_bind; [apply Hf; eassumption|]. intros G1 t Hp Ht.
      eapply tr_bind; [apply IH; eapply looks_pre; eassumption|]. intros G2 ts Hp2 Hts.
      apply tr_ret. constructor; assumption.
  Qed.

  Lemma r_of_state_typed force ofr G st g : reads force -> reads ofr -> st_sem G st g ->
    tr G (r_of_state force ofr st) (fun _ t => pc t g).
  Proof.
    intros Hf Ho (ts & us & Hc & Hs & Hg). unfold r_of_state.
    eapply tr_bind with (Q := fun _ t => pc t (sub (slist ts) (rs_term st))).
    { destruct (rs_ctx st) as [|l ctx] eqn:Ec.
      - inversion Hc; subst. apply tr_ret. change (slist []) with (fun n => Var n).
        rewrite sub_id_ext by reflexivity. apply pc_refl.
      - rewrite <- Ec in *. eapply tr_post.
        2:{ eapply rsub_typed with (s := slist ts) (G0 := G); [|apply pre_refl].
            intros G1 n k Hp Hk. apply r_psubst_typed; auto. eapply looks_pre; eassumption. }
        cbn. intros G' a _ Ha. erewrite sub_ext in Ha by (intros; apply sk_0). exact Ha. }
    intros G1 t Hp Ht. eapply tr_bind; [apply mapM_typed; [assumption|eapply looks_pre; eassumption]|].
    intros G2 us' Hp2 Hus. apply tr_ret. eapply pc_trans; [|exact Hg]. apply pc_apps; assumption.
  Qed.

  Lemma r_force_typed n : reads (r_force n) /\ reads (r_of_rstate n).
  Proof.
    induction n as [|n [IH1 IH2]]; [split; intros G l g H; apply tr_nofuel|]. split; intros G l g Hl.
    - cbn [r_force]. eapply tr_bind; [apply tr_read; eassumption|]. intros G1 c Hp Hc.
      destruct c as [st w b|[l'| |t]]; try apply tr_panic.
      + destruct Hc as (t & Ht & Htg).
        eapply tr_bind; [apply tr_write with (g := g); [eapply look_pre; eassumption|exact I]|]. intros G2 [] Hp2 _.
        eapply tr_bind; [apply IH2; eapply look_pre; eassumption|]. intros G3 t' Hp3 Ht'.
        eapply tr_bind; [apply tr_write with (g := g); [eauto using look_pre, pre_trans|]|].
        * cbn. cbn beta in *; eapply pc_trans; eassumption.
        * intros G4 [] Hp4 _. apply tr_ret. cbn beta in *; eapply pc_trans; eassumption.
      + apply tr_ret. exact Hc.
    - cbn [r_of_rstate]. eapply tr_bind; [apply tr_borrow; eassumption|]. intros G1 st Hp Hst.
      apply r_of_state_typed; assumption.
  Qed.

  (** ** Matching *)
  Notation compat := (compat sg).

  (** all new matches in [sb'] are listed in [o] *)
  Definition occ_ok (G : list tm) (o : list (nat * tm)) (sb sb' : list (list loc)) : Prop :=
    forall m ls l, nth_error sb' m = Some ls -> In l ls ->
      (exists ls0, nth_error sb m = Some ls0 /\ In l ls0) \/ exists t, look G l t /\ In (m, t) o.
  Lemma occ_ok_refl G sb : occ_ok G [] sb sb.
  Proof. intros m ls l H1 H2. left. eauto. Qed.
  Lemma occ_ok_trans G G' o o' sb sb1 sb2 : pre G G' -> occ_ok G o sb sb1 -> occ_ok G' o' sb1 sb2 -> occ_ok G' (o ++ o') sb sb2.
  Proof.
    intros Hp H1 H2 m ls l Hm Hl. destruct (H2 _ _ _ Hm Hl) as [(ls1 & Hm1 & Hl1)|(t & Ht & Hin)].
    - destruct (H1 _ _ _ Hm1 Hl1) as [Hx|(t & Ht & Hin)]; [left; exact Hx|]. right. exists t.
      split; [eapply look_pre; eassumption|apply in_or_app; auto].
    - right. exists t. split; [exact Ht|apply in_or_app; auto].
  Qed.
  Lemma subst_push_occ sb m l sb' : subst_push sb m l = Some sb' ->
    forall m' ls l', nth_error sb' m' = Some ls -> In l' ls ->
      (exists ls0, nth_error sb m' = Some ls0 /\ In l' ls0) \/ m' = m /\ l' = l.
  Proof.
    revert m sb'. induction sb as [|ls0 sb IH]; intros m sb'; cbn; [discriminate|]. destruct m as [|m].
    - intros [= <-] [|m'] ls l'; cbn [nth_error].
      + intros [= <-] Hl. apply in_app_or in Hl. destruct Hl as [Hl|[<-|[]]]; eauto.
      + eauto.
    - destruct (subst_push sb m l) as [sb0|] eqn:E; [|discriminate]. intros [= <-] [|m'] ls l'; cbn [nth_error].
      + intros [= <-] Hl. eauto.
      + intros H1 H2. destruct (IH _ _ E _ _ _ H1 H2) as [H|[-> ->]]; auto.
  Qed.

  Section Match.
    Variable rw : loc -> RM unit.
    Hypothesis Hrw : forall G l g, look G l g -> tr G (rw l) (fun _ _ => True).

    (** [g] and an instance of [p] have the same types, for all instantiations that agree with the result *)
    Definition match_post (p : pat) (g : tm) (sb : list (list loc)) (G : list tm) (o : option (list (list loc))) : Prop :=
      match o with
      | None => True
      | Some sb' => sb_ext (pat_vars p) sb sb' /\ sb_ok G sb' /\
                    forall s, compat G sb' s -> exists t o, cinst sg s p t o /\ pc t g /\ occ_ok G o sb sb'
      end.
    Definition matches_post (ps : list pat) (gs : list tm) (sb : list (list loc)) (G : list tm)
      (o : option (list (list loc))) : Prop :=
      match o with
      | None => True
      | Some sb' => sb_ext (flat_map pat_vars ps) sb sb' /\ sb_ok G sb' /\
                    forall s, compat G sb' s -> exists ts o, cinsts sg s ps ts o /\ Forall2 pc ts gs /\ occ_ok G o sb sb'
      end.

    Lemma match_cons p ps g gs sb G1 G2 sb1 o :
      pre G1 G2 -> match_post p g sb G1 (Some sb1) -> matches_post ps gs sb1 G2 o ->
      matches_post (p :: ps) (g :: gs) sb G2 o.
    Proof.
      intros Hp (E1 & S1 & C1) H2. destruct o as [sb2|]; [|exact I]. destruct H2 as (E2 & S2 & C2).
      split; [cbn; eapply sb_ext_trans; eassumption|]. split; [assumption|]. intros s Hs.
      destruct (C2 s Hs) as (ts & os & Hts & Hcts & Hos).
      assert (compat G1 sb1 s) as Hs1 by (eapply compat_pre; [exact Hp|exact S1|eapply compat_ext; eassumption]).
      destruct (C1 s Hs1) as (t & o & Ht & Hct & Ho). exists (t :: ts), (o ++ os).
      split; [constructor; assumption|]. split; [constructor; assumption|]. eapply occ_ok_trans; eassumption.
    Qed.

    Lemma r_match_pat_typed p : forall l g sb G, look G l g -> sb_ok G sb ->
      tr G (r_match_pat rw l p sb) (match_post p g sb).
    Proof.
      induction p as [c ps IH|m|] using pat_ind'; intros l g sb G Hl Hsb; cbn [r_match_pat].
      - eapply tr_bind; [eapply Hrw; eassumption|]. intros G1 [] Hp1 _.
        eapply tr_bind; [apply tr_borrow; eapply look_pre; eassumption|]. intros G2 st Hp2 Hst.
        destruct Hst as (ts & us & Hc & Hu & Hg).
        destruct (rs_term st) as [| |c'| | | | |]; try (apply tr_ret; exact I).
        destruct ((c =? c') && (length (rs_stack st) =? length ps)) eqn:E; [|apply tr_ret; exact I].
        apply andb_true_iff in E. destruct E as [E1 E2]. apply Nat.eqb_eq in E1, E2. subst c'. cbn [sub] in Hg.
        assert (Hgo : tr G2 ((fix go (stack : list loc) (pats : list pat) (sb : list (list loc)) {struct pats} :=
             match pats, stack with
             | p :: pats, l :: stack =>
               o <- r_match_pat rw l p sb ;;
               match o with
               | None => ret None
               | Some sb => go stack pats sb
               end
             | _, _ => ret (Some sb)
             end) (rs_stack st) ps sb) (matches_post ps us sb)).
        { assert (Hsb2 : sb_ok G2 sb) by eauto using sb_ok_pre, pre_trans.
          clear Hg Hsb Hl Hc. revert IH us sb G2 Hp2 Hsb2 E2 Hu. generalize (rs_stack st) as stack.
          induction ps as [|p ps IHps]; intros stack IH us sb G2 Hp2 Hsb2 Hlen Hu.
          - destruct stack; [|discriminate]. inversion Hu; subst. apply tr_ret.
            split; [apply sb_ext_refl|]. split; [assumption|]. intros s _. exists [], [].
            split; [constructor|]. split; [constructor|apply occ_ok_refl].
          - destruct stack as [|l1 stack]; [discriminate|]. inversion Hu as [|? u ? us' Hl1 Hus]; subst.
            inversion IH as [|? ? IHp IHps']; subst.
            eapply tr_bind; [apply IHp; eassumption|]. intros G3 o Hp3 Ho.
            destruct o as [sb1|]; [|apply tr_ret; exact I].
            eapply tr_post; [|apply IHps with (us := us'); [assumption| | | |]].
            + cbn beta. intros G4 o Hp4 Ho2. eapply match_cons; eassumption.
            + eauto using pre_trans.
            + apply Ho.
            + cbn in Hlen. lia.
            + eapply looks_pre; eassumption. }
        eapply tr_post; [|exact Hgo]. intros G3 [sb'|] Hp3; [|exact (fun _ => I)].
        intros (H1 & H2 & H3). split; [exact H1|]. split; [exact H2|]. intros s Hs.
        destruct (H3 s Hs) as (vs & o & Hv1 & Hv2 & Hv3). exists (apps (Const c) vs), o. split; [constructor; assumption|].
        split; [|exact Hv3]. eapply pc_trans; [|exact Hg]. apply pc_apps; auto using pc_refl.
      - apply tr_ret. unfold match_post. destruct (subst_push sb m l) as [sb'|] eqn:E; [|exact I].
        destruct (subst_push_ext _ _ _ _ E) as (H1 & (ls & H2 & H3) & H4). split; [exact H1|]. split.
        + intros ls' l' Hls Hl'. destruct (H4 _ _ Hls Hl') as [->|(ls0 & ? & ?)]; eauto.
        + intros s Hs. exists g, [(m, g)]. destruct (Hs _ _ _ H2 H3) as (t & Ht & Hc).
          rewrite <- (look_fun _ _ _ _ Hl Ht) in Hc. split; [constructor; exact Hc|]. split; [apply pc_refl|].
          intros m' ls' l' Hm Hin. destruct (subst_push_occ _ _ _ _ E _ _ _ Hm Hin) as [Hx|[-> ->]]; [left; exact Hx|].
          right. exists g. split; [exact Hl|left; reflexivity].
      - apply tr_ret. split; [apply sb_ext_refl|]. split; [assumption|]. intros s _. exists g, [].
        split; [constructor|]. split; [apply pc_refl|apply occ_ok_refl].
    Qed.

    Lemma r_match_pats_typed ps : forall stack us sb G,
      length ps <= length stack -> Forall2 (look G) stack us -> sb_ok G sb ->
      tr G (r_match_pats rw stack ps sb) (matches_post ps (firstn (length ps) us) sb).
    Proof.
      induction ps as [|p ps IH]; intros stack us sb G Hlen Hu Hsb; cbn [r_match_pats].
      - apply tr_ret. split; [apply sb_ext_refl|]. split; [assumption|]. intros s _. exists [], [].
        split; [constructor|]. split; [constructor|apply occ_ok_refl].
      - destruct stack as [|l stack]; [cbn in Hlen; lia|]. inversion Hu as [|? u ? us' Hl Hus]; subst.
        eapply tr_bind; [apply r_match_pat_typed; eassumption|]. intros G3 o Hp3 Ho.
        destruct o as [sb1|]; [|apply tr_ret; exact I].
        eapply tr_post; [|apply IH with (us := us')].
        + cbn beta. cbn [length firstn]. intros G4 o Hp4 Ho2. eapply match_cons; eassumption.
        + cbn in Hlen. lia.
        + eapply looks_pre; eassumption.
        + apply Ho.
    Qed.

    Variable cv : tm -> tm -> RM bool.
    Hypothesis Hcv : forall G t u, tr G (cv t u) (fun _ b => b = true -> conv t u).
    Variable n : nat.

    Lemma r_all_conv_loop_typed ls : forall th g G, look G th g -> (forall l, In l ls -> exists t, look G l t) ->
      tr G (r_all_conv_loop cv n th ls)
        (fun G' o => match o with
                  | Some th' => th' = th /\ forall l, In l ls -> exists t, look G' l t /\ conv g t
                  | None => True end).
    Proof.
      induction ls as [|l ls IH]; intros th g G Hth Hls; cbn [r_all_conv_loop].
      - apply tr_ret. split; [reflexivity|]. intros l [].
      - destruct (Hls l (or_introl eq_refl)) as [tl Htl].
        eapply tr_bind; [apply r_force_typed; eassumption|]. intros G1 t1 Hp1 Ht1.
        eapply tr_bind; [apply r_force_typed; eapply look_pre; eassumption|]. intros G2 t2 Hp2 Ht2.
        eapply tr_bind; [apply Hcv|]. intros G3 b Hp3 Hb. destruct b; [|apply tr_ret; exact I].
        assert (pre G G3) by eauto using pre_trans.
        eapply tr_post; [|apply IH with (g := g); [eapply look_pre; eassumption|]].
        + cbn. intros G4 [th'|] Hp4; [|auto]. intros [-> H4]. split; [reflexivity|]. intros l' [<-|Hin]; [|auto].
          exists tl. split; [eauto using look_pre, pre_trans|].
          eapply conv_trans; [apply conv_sym, pc_conv; exact Ht1|].
          eapply conv_trans; [apply Hb; reflexivity|apply pc_conv; exact Ht2].
        + intros l' Hin. destruct (Hls l' (or_intror Hin)) as [t' Ht']. eauto using look_pre.
    Qed.

    Lemma r_all_conv_typed ls G : (forall l, In l ls -> exists t, look G l t) ->
      tr G (r_all_conv cv n ls)
        (fun G' o => match o with
                  | Some th => exists g l0, In l0 ls /\ look G' l0 g /\ look G' th g /\
                                 forall l, In l ls -> exists t, look G' l t /\ conv g t
                  | None => True end).
    Proof.
      intros Hls. destruct ls as [|l ls]; cbn [r_all_conv]; [apply tr_ret; exact I|].
      destruct (Hls l (or_introl eq_refl)) as [t Ht].
      eapply tr_bind; [apply tr_alloc with (g := t); cbn; eauto using pc_refl|]. intros G1 th Hp1 Hth.
      eapply tr_post; [|apply r_all_conv_loop_typed with (g := t); [exact Hth|]].
      - cbn. intros G2 [th'|] Hp2; [|auto]. intros [-> H]. exists t, l. split; [left; reflexivity|].
        split; [eauto using look_pre, pre_trans|].
        split; [eapply look_pre; eassumption|]. intros l' [<-|Hin]; [|auto].
        exists t. eauto using look_pre, pre_trans, conv_refl.
      - intros l' Hin. destruct (Hls l' (or_intror Hin)) as [t' Ht']. eauto using look_pre.
    Qed.

    (** every variable is given the term of one of its matches *)
    Definition flat_post (sb : list (list loc)) (G : list tm) (o : option (list loc)) : Prop :=
      match o with
      | None => True
      | Some ctx => exists ts, Forall2 (look G) ctx ts /\ length ts = length sb /\ compat G sb (slist ts) /\
                      forall m t, nth_error ts m = Some t -> exists ls l, nth_error sb m = Some ls /\ In l ls /\ look G l t
      end.

    Lemma r_flatten_typed sb : forall G, sb_ok G sb -> tr G (r_flatten cv n sb) (flat_post sb).
    Proof.
      induction sb as [|ls sb IH]; intros G Hsb; cbn [r_flatten].
      - apply tr_ret. exists []. split; [constructor|]. split; [reflexivity|]. split.
        + intros [|m] ls l; discriminate.
        + intros [|m] t; discriminate.
      - eapply tr_bind; [apply IH; intros x l Hx; apply Hsb; right; exact Hx|]. intros G1 [ctx|] Hp1 Ho; [|apply tr_ret; exact I].
        eapply tr_bind.
        { apply r_all_conv_typed. intros l Hl. destruct (Hsb ls l (or_introl eq_refl) Hl) as [t Ht]. eauto using look_pre. }
        intros G2 [th|] Hp2 Ho2; [|apply tr_ret; exact I]. apply tr_ret.
        destruct Ho as (ts & Hts & Hlen & Hc & Hx). destruct Ho2 as (g & l0 & Hl0 & Hg0 & Hg & Hls).
        exists (g :: ts). split; [constructor; [assumption|eapply looks_pre; eassumption]|].
        split; [cbn; congruence|]. split.
        + intros [|m] ls0 l; cbn.
          * intros [= <-] Hl. destruct (Hls l Hl) as (t & ? & ?). eauto.
          * intros Hm Hl. destruct (Hc _ _ _ Hm Hl) as (t & ? & ?). eauto using look_pre.
        + intros [|m] t; cbn [nth_error].
          * intros [= <-]. eauto.
          * intros Hm. destruct (Hx _ _ Hm) as (ls1 & l1 & H1 & H2 & H3). eauto 6 using look_pre.
    Qed.

    (** What is known when a rule is applied: it is one of the given rules, its variables are those of its
        left-hand side, and the arguments have the types of an instance of its patterns. *)
    Definition fire_post (rules : list srule) (us : list tm) (G : list tm) (o : option (list loc * srule)) : Prop :=
      match o with
      | None => True
      | Some (ctx, r) =>
        In r rules /\ usable r /\ length (sr_args r) <= length us /\
        exists ts vs o, Forall2 (look G) ctx ts /\ length ts = sr_vars r /\
          cinsts sg (slist ts) (sr_args r) vs o /\ Forall2 pc vs (firstn (length (sr_args r)) us) /\
          forall m t, nth_error ts m = Some t -> In (m, t) o
      end.

    Lemma r_first_match_typed stack us rules : forall G, Forall2 (look G) stack us ->
      tr G (r_first_match rw cv n stack rules) (fire_post rules us).
    Proof.
      induction rules as [|r rules IH]; intros G Hu; cbn [r_first_match]; [apply tr_ret; exact I|].
      eapply tr_bind with (Q := fun G' o => match o with None => True | Some ctx => fire_post [r] us G' (Some (ctx, r)) end).
      - unfold r_match_flatten, r_match_rule.
        eapply tr_bind with (Q := fun G' o => length (sr_args r) <= length us /\
           matches_post (sr_args r) (firstn (length (sr_args r)) us) (repeat [] (sr_vars r)) G' o \/ o = None).
        + pose proof (Forall2_length Hu) as Hlen. destruct (Nat.ltb_spec (length stack) (length (sr_args r))) as [Hlt|Hge]; [apply tr_ret; right; reflexivity|].
          eapply tr_post; [|apply r_match_pats_typed; [lia|eassumption|]].
          * cbn. intros G' o _ Ho. left. split; [lia|exact Ho].
          * intros ls l Hls Hl. apply repeat_spec in Hls. subst. destruct Hl.
        + intros G1 [sb|] Hp1 H; [|apply tr_ret; exact I]. destruct H as [[Hle (Hext & Hsb & Hinst)]|H]; [|discriminate].
          eapply tr_post; [|apply r_flatten_typed; exact Hsb].
          intros G2 [ctx|] Hp2 Hf; [|exact I]. destruct Hf as (ts & Hts & Hlen & Hc & Hx).
          destruct Hext as (L & I1 & V & N). rewrite repeat_length in *.
          split; [left; reflexivity|]. split; [|split; [assumption|]].
          * intros m. split; [|apply V]. intros Hm.
            destruct (nth_error ts m) as [t|] eqn:Et; [|apply nth_error_None in Et; lia].
            destruct (Hx _ _ Et) as (ls & l & Em & Hl & _).
            destruct (N _ _ Em ltac:(intros ->; destruct Hl)) as [Hv|(ls0 & H0 & H1)]; [exact Hv|].
            apply nth_error_repeat_nil in H0. contradiction.
          * destruct (Hinst (slist ts)) as (vs & o & Hv1 & Hv2 & Hv3); [eapply compat_pre; eassumption|].
            exists ts, vs, o. repeat split; auto; [congruence|]. intros m t Ht.
            destruct (Hx _ _ Ht) as (ls & l & Em & Hl & Hlt).
            destruct (Hv3 _ _ _ Em Hl) as [(ls0 & H0 & H1)|(t' & Ht' & Hin)].
            -- apply nth_error_repeat_nil in H0. subst. destruct H1.
            -- rewrite (look_fun _ _ _ _ Hlt (look_pre _ _ _ _ Hp2 Ht')). exact Hin.
      - intros G1 [ctx|] Hp1 H.
        + apply tr_ret. destruct H as (_ & H). split; [left; reflexivity|exact H].
        + eapply tr_post; [|apply IH; eapply looks_pre; eassumption]. intros G2 [[ctx r']|] _; [|auto].
          intros (H1 & H2). split; [right; exact H1|exact H2].
    Qed.
  End Match.

  (** ** The machine *)
  Hypothesis Hst : stable_types sg.
  Hypothesis Hpi : pi_injective sg.
  Hypothesis Hrules : rules_typed sg.

  Lemma pc_beta t u : pc (subst1 u t) (App (ULam t) u).
  Proof. apply pr_beta; assumption. Qed.
  Lemma pc_beta_lam a t u : pc (subst1 u t) (App (Lam a t) u).
  Proof. apply pr_beta_lam; assumption. Qed.

  Lemma cinst_same s :
    (forall p t o, cinst sg s p t o -> exists t', inst s p t' /\ conv t' t) /\
    (forall ps ts o, cinsts sg s ps ts o -> exists ts', Forall2 (inst s) ps ts' /\ Forall2 conv ts' ts).
  Proof.
    apply cinst_ind2.
    - intros m t H. exists (s m). split; [constructor|exact H].
    - intros t. exists t. split; [constructor|apply conv_refl].
    - intros c ps ts o _ (ts' & H1 & H2). exists (apps (Const c) ts'). split; [constructor; exact H1|].
      apply conv_apps; [apply conv_refl|exact H2].
    - exists []. split; constructor.
    - intros p ps t ts o os _ (t' & H1 & H2) _ (ts' & H3 & H4). exists (t' :: ts'). split; constructor; assumption.
  Qed.

  Lemma pc_rule c rs r us vs ts o : sg_rules sg c = Some rs -> In r rs -> usable r ->
    length ts = sr_vars r -> cinsts sg (slist ts) (sr_args r) vs o -> Forall2 pc vs us ->
    (forall m t, nth_error ts m = Some t -> In (m, t) o) ->
    pc (sub (slist ts) (sr_rhs r)) (apps (Const c) us).
  Proof.
    intros Hrs Hin Hu Hlen Hi Hus Ho. eapply pc_trans; [|apply pc_apps; [apply pc_refl|exact Hus]].
    eapply pr_rule; try eassumption; [eapply Hrules; eassumption|].
    destruct (proj2 (cinst_same _) _ _ _ Hi) as (vs' & H1 & H2).
    eapply conv_trans; [apply conv_sym; eapply conv_rule; eassumption|]. apply conv_apps; [apply conv_refl|exact H2].
  Qed.

  Lemma r_unwind_typed ctx g : forall t stack G, st_sem G (RState ctx t stack) g ->
    tr G (r_unwind ctx t stack) (fun G' '(t', stack') => st_sem G' (RState ctx t' stack') g).
  Proof.
    induction t; intros stack G Hs0; cbn [r_unwind]; try (apply tr_ret; exact Hs0).
    destruct Hs0 as (ts & us & Hc & Hs & Hg). cbn in *.
    eapply tr_bind.
    { apply tr_alloc with (g := sub (slist ts) t2). cbn. exists ts, []. split; [exact Hc|]. split; [constructor|]. apply pc_refl. }
    intros G1 l Hp Hl. apply IHt1. exists ts, (sub (slist ts) t2 :: us). cbn.
    split; [eapply looks_pre; eassumption|]. split; [constructor; [assumption|eapply looks_pre; eassumption]|exact Hg].
  Qed.

  Definition evals (w : rstate -> RM rstate) : Prop :=
    forall G st g, st_sem G st g -> tr G (w st) (fun G' st' => st_sem G' st' g).

  Lemma r_rwhnf_typed w : evals w -> forall G l g, look G l g -> tr G (r_rwhnf w l) (fun _ _ => True).
  Proof.
    intros Hw G l g Hl. unfold r_rwhnf. eapply tr_bind; [apply tr_read; eassumption|]. intros G1 c Hp1 Hc.
    destruct c as [st [|] [|]|th]; try apply tr_panic; [apply tr_ret; exact I|].
    eapply tr_bind; [apply tr_write with (g := g); [eauto using look_pre|exact Hc]|]. intros G2 [] Hp2 _.
    eapply tr_bind; [apply Hw; eapply st_sem_pre; eassumption|]. intros G3 st' Hp3 Hst'.
    eapply tr_write; [|exact Hst']. eauto using look_pre, pre_trans.
  Qed.

  Lemma r_head_typed n w cv : evals w -> (forall G t u, tr G (cv t u) (fun _ b => b = true -> conv t u)) ->
    forall ctx t stack G g, st_sem G (RState ctx t stack) g ->
      tr G (r_head sg n w cv ctx t stack) (fun G' st' => st_sem G' st' g).
  Proof.
    intros Hw Hcv ctx t stack G g Hs0.
    destruct t; cbn [r_head]; try (apply tr_ret; exact Hs0).
    - destruct (sg_rules sg c) as [rules|] eqn:Er; [|apply tr_ret; exact Hs0].
      pose proof Hs0 as (ts & us & Hc & Hs & Hg). cbn in *.
      eapply tr_bind; [apply r_first_match_typed with (us := us); eauto; apply r_rwhnf_typed; assumption|].
      intros G1 [[ctx' r]|] Hp1 Hf; [|apply tr_ret; eapply st_sem_pre; eassumption].
      destruct Hf as (Hin & Hus & Hle & ts' & vs & o & Hts' & Hlen & Hinst & Hvs & Ho).
      eapply tr_bind; [apply tr_usub|]. intros G2 _ Hp2 _. apply Hw.
      exists ts', (skipn (length (sr_args r)) us). cbn.
      split; [eapply looks_pre; eassumption|].
      split; [apply firstn_skipn_looks; eauto using looks_pre, pre_trans|].
      eapply pc_trans; [|exact Hg].
      rewrite <- (firstn_skipn (length (sr_args r)) us) at 2. rewrite apps_app. apply pc_apps_head.
      eapply pc_rule; eassumption.
    - destruct Hs0 as (ts & us & Hc & Hs & Hg). cbn in *. destruct (nth_error ctx n0) as [l|] eqn:El.
      + assert (exists t, nth_error ts n0 = Some t) as [t Et].
        { destruct (nth_error ts n0) eqn:E; eauto. apply nth_error_None in E.
          rewrite <- (Forall2_length Hc) in E. apply nth_error_None in E. congruence. }
        pose proof (Forall2_nth _ _ _ Hc _ _ _ El Et) as Hl.
        eapply tr_bind; [apply r_force_typed; eassumption|]. intros G1 t' Hp1 Ht'. apply Hw.
        exists [], us. cbn. split; [constructor|]. split; [eapply looks_pre; eassumption|].
        eapply pc_trans; [|exact Hg]. apply pc_apps_head. rewrite (slist_lt _ _ _ Et).
        rewrite sub_id_ext by reflexivity. exact Ht'.
      + apply nth_error_None in El. eapply tr_bind; [apply tr_usub|]. intros G1 m Hp1 [_ ->]. apply tr_ret.
        exists [], us. cbn. split; [constructor|]. split; [eapply looks_pre; eassumption|].
        rewrite slist_ge in Hg by (rewrite <- (Forall2_length Hc); assumption).
        rewrite (Forall2_length Hc). exact Hg.
    - apply tr_panic.
    - destruct stack as [|l stack]; [apply tr_ret; exact Hs0|].
      destruct Hs0 as (ts & us & Hc & Hs & Hg). cbn in *. inversion Hs as [|? u ? us' Hl Hs']; subst.
      eapply tr_bind; [apply tr_alloc with (g := u); cbn; eauto using pc_refl|]. intros G1 th Hp1 Hth. apply Hw.
      exists (u :: ts), us'. cbn [rs_ctx rs_stack rs_term]. split; [constructor; [assumption|eapply looks_pre; eassumption]|].
      split; [eapply looks_pre; eassumption|]. eapply pc_trans; [|exact Hg]. cbn [apps]. apply pc_apps_head.
      rewrite <- subst1_slist. apply pc_beta_lam.
    - destruct stack as [|l stack]; [apply tr_ret; exact Hs0|].
      destruct Hs0 as (ts & us & Hc & Hs & Hg). cbn in *. inversion Hs as [|? u ? us' Hl Hs']; subst.
      eapply tr_bind; [apply tr_alloc with (g := u); cbn; eauto using pc_refl|]. intros G1 th Hp1 Hth. apply Hw.
      exists (u :: ts), us'. cbn [rs_ctx rs_stack rs_term]. split; [constructor; [assumption|eapply looks_pre; eassumption]|].
      split; [eapply looks_pre; eassumption|]. eapply pc_trans; [|exact Hg]. cbn [apps]. apply pc_apps_head.
      rewrite <- subst1_slist. apply pc_beta.
  Qed.

  Lemma conv_loop_tr n G cns :
    tr G (r_conv_loop sg n cns) (fun _ b => b = true -> Forall (fun p => conv (fst p) (snd p)) cns).
  Proof.
    intros h Hh. rewrite heapless_conv_loop.
    pose proof (proj2 (r_machine_sound sg n) [] cns [] (Forall2_nil _)) as Hs. cbn beta in Hs.
    destruct (r_conv_loop sg n cns []) as [[b h']| | |]; auto.
    destruct Hs as (G' & _ & _ & Hs). exists G. auto using pre_refl.
  Qed.

  Lemma r_state_whnf_typed n : evals (r_state_whnf sg n).
  Proof.
    induction n as [|n IH]; [intros G st g H; apply tr_nofuel|].
    intros G [ctx t stack] g Hs0. cbn [r_state_whnf rs_ctx rs_term rs_stack].
    eapply tr_bind; [apply r_unwind_typed; eassumption|]. intros G1 [t' stack'] Hp Hst'.
    apply r_head_typed; auto. intros G2 t1 t2. eapply tr_post; [|apply conv_loop_tr]. cbn.
    intros G3 b _ H Hb. specialize (H Hb). inversion H; subst. assumption.
  Qed.

  Lemma r_whnf_typed n t h t' h' : r_whnf sg n t h = Ok (t', h') -> pr sg t t'.
  Proof.
    unfold r_whnf, r_whnf_, r_fresh.
    assert (H : tr [] (st <- r_state_whnf sg n (RState [] t []) ;; r_of_state (r_force n) (r_of_rstate n) st) (fun _ t' => pc t' t)).
    { eapply tr_bind; [apply (r_state_whnf_typed n) with (g := t)|].
      - exists [], []. cbn. split; [constructor|]. split; [constructor|]. rewrite sub_id_ext by reflexivity. apply pc_refl.
      - intros G1 st Hp1 Hs0. apply r_of_state_typed; auto; apply r_force_typed. }
    specialize (H [] (Forall2_nil _)). revert H.
    match goal with |- context [match ?m [] with _ => _ end] => destruct (m []) as [[t0 h0]| | |] end; try discriminate.
    intros (G' & _ & _ & H) [= <- _]. exact H.
  Qed.
End Typed.
