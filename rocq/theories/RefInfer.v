(** * Reference type inference, over specification terms; a step in the proofs only *)

From Verif Require Import Base ModelTerm ModelGctx ModelCommand ModelSubst ModelReduce ModelInfer
  SpecTerm SpecConv RefMachine LibMono RefMono RefSafe Erase SimReduce Inv SoundInfer.

Open Scope sm_scope.

Section RefInfer.
  Variable sg : sig.

  Section Struct.
    Variable whnf : tm -> RM tm.
    Variable check : list tm -> tm -> tm -> RM bool.

    Definition r_infer_arg (lc : list tm) (ty u : tm) : RM tm :=
      ty <- whnf ty ;;
      match ty with
      | Pi a b => ok <- check lc u a ;; if ok : bool then ret (subst1 u b) else fail Unconvertible
      | _ => fail ProductExpected
      end.

    Fixpoint r_infer_s (t : tm) (lc : list tm) : RM tm :=
      match t with
      | Kind => fail KindNotTypable
      | Typ => ret Kind
      | Const c => ok_or (sg_type sg c) TypeNotFound
      | Var n => ok_or (option_map (lift (S n)) (nth_error lc n)) TypeNotFound
      | App t u => ty <- r_infer_s t lc ;; r_infer_arg lc ty u
      | Lam a t =>
        k <- r_infer_s a lc ;;
        match k with
        | Typ =>
          b <- r_infer_s t (a :: lc) ;;
          match b with Kind => fail UnexpectedKind | _ => ret (Pi a b) end
        | _ => fail BindNoType
        end
      | ULam _ => fail DomainFreeAbstraction
      | Pi a b =>
        k <- r_infer_s a lc ;;
        match k with
        | Typ =>
          s <- r_infer_s b (a :: lc) ;;
          match s with Kind | Typ => ret s | _ => fail SortExpected end
        | _ => fail BindNoType
        end
      end.
  End Struct.

  Fixpoint r_infer (n : nat) (lc : list tm) (t : tm) : RM tm :=
    match n with
    | 0 => nofuel
    | S n => r_infer_s (r_whnf sg n) (r_check n) t lc
    end
  with r_check (n : nat) (lc : list tm) (t ty : tm) : RM bool :=
    match n with
    | 0 => nofuel
    | S n =>
      match t with
      | Lam a t =>
        ty <- r_whnf sg n ty ;;
        match ty with
        | Pi ta tb =>
          r_infer n lc a ;;;
          ok <- r_convertible sg n a ta ;;
          if ok : bool then r_check n (ta :: lc) t tb else ret false
        | _ => fail ProductExpected
        end
      | ULam t =>
        ty <- r_whnf sg n ty ;;
        match ty with
        | Pi ta tb => r_check n (ta :: lc) t tb
        | _ => fail ProductExpected
        end
      | _ => ty' <- r_infer n lc t ;; r_convertible sg n ty' ty
      end
    end.

  Lemma r_infer_s_mono w1 w2 c1 c2 : (forall t, le_m (w1 t) (w2 t)) -> (forall lc t u, le_m (c1 lc t u) (c2 lc t u)) ->
    forall t lc, le_m (r_infer_s w1 c1 t lc) (r_infer_s w2 c2 t lc).
  Proof.
    intros Hw Hc t. induction t; intros lc; cbn [r_infer_s]; unfold r_infer_arg; le_auto.
  Qed.
  Lemma r_infer_unfold n lc t : r_infer (S n) lc t = r_infer_s (r_whnf sg n) (r_check n) t lc.
  Proof. reflexivity. Qed.
  Lemma r_infer_mono_S n :
    (forall lc t, le_m (r_infer n lc t) (r_infer (S n) lc t)) /\
    (forall lc t ty, le_m (r_check n lc t ty) (r_check (S n) lc t ty)).
  Proof.
    induction n as [|n [IH1 IH2]]; [split; intros; apply le_m_nofuel|].
    assert (Hw : forall t, le_m (r_whnf sg n t) (r_whnf sg (S n) t)) by (intros; apply r_whnf_mono; lia).
    assert (Hc : forall t u, le_m (r_convertible sg n t u) (r_convertible sg (S n) t u))
      by (intros; apply r_conv_loop_mono; lia).
    split.
    - intros lc t. rewrite !r_infer_unfold. apply r_infer_s_mono; assumption.
    - intros lc t ty.
      assert (H : forall n, r_check (S n) lc t ty =
        match t with
        | Lam a t =>
          ty <- r_whnf sg n ty ;;
          match ty with
          | Pi ta tb =>
            r_infer n lc a ;;;
            ok <- r_convertible sg n a ta ;;
            if ok : bool then r_check n (ta :: lc) t tb else ret false
          | _ => fail ProductExpected
          end
        | ULam t =>
          ty <- r_whnf sg n ty ;;
          match ty with
          | Pi ta tb => r_check n (ta :: lc) t tb
          | _ => fail ProductExpected
          end
        | _ => ty' <- r_infer n lc t ;; r_convertible sg n ty' ty
        end) by reflexivity.
      rewrite (H n), (H (S n)). destruct t; le_auto.
  Qed.
  Lemma r_infer_mono n m lc t : n <= m -> le_m (r_infer n lc t) (r_infer m lc t).
  Proof. induction 1; [apply le_m_refl|]. eapply le_m_trans; [eassumption|apply r_infer_mono_S]. Qed.
  Lemma r_check_mono n m lc t ty : n <= m -> le_m (r_check n lc t ty) (r_check m lc t ty).
  Proof. induction 1; [apply le_m_refl|]. eapply le_m_trans; [eassumption|apply r_infer_mono_S]. Qed.
End RefInfer.

(** ** The model computes the same *)

(** No application without arguments occurs. *)
Definition nfl : lterm -> Prop := wfl (fun _ => True) True.
Definition nf : sterm -> Prop := wfs (fun _ => True) True True.
Definition gctx_nf (gc : gctx) : Prop :=
  (forall c ty, get_type gc c = Some ty -> nfl ty) /\
  (forall c rs r, get_rules gc c = Some rs -> In r rs -> nfl (r_rhs r)).

Lemma nf_lterm t : nfl t -> nf (sterm_of_lterm t).
Proof. apply wfs_of_lterm. Qed.

(** the simulation at the level of queries *)
Definition sim0 {A B} (f : A -> B) (P : A -> Prop) (m : M A) (m' : RM B) : Prop :=
  forall s, m_heap s = [] ->
    match m s with
    | Ok (a, s') => m' [] = Ok (f a, []) /\ P a /\ m_heap s' = []
    | Err e => m' [] = Err e
    | Panic => m' [] = Panic
    | Fuel => True
    end.
Lemma sim0_ret {A B} (f : A -> B) (P : A -> Prop) a b : b = f a -> P a -> sim0 f P (ret a) (ret b).
Proof. intros -> H s Hs. cbn. auto. Qed.
Lemma sim0_fail {A B} (f : A -> B) P e : sim0 f P (fail e) (fail e).
Proof. intros s Hs. reflexivity. Qed.
Lemma sim0_nofuel {A B} (f : A -> B) P m : sim0 f P nofuel m.
Proof. intros s Hs. exact I. Qed.
Lemma sim0_bind {A A' B B'} (f : A -> A') (g : B -> B') P Q m m' k k' :
  sim0 f P m m' -> (forall a, P a -> sim0 g Q (k a) (k' (f a))) -> sim0 g Q (bind m k) (bind m' k').
Proof.
  intros Hm Hk s Hs. specialize (Hm s Hs). unfold bind. destruct (m s) as [[a s']| | |]; auto.
  - destruct Hm as (-> & Ha & Hs'). apply Hk; assumption.
  - rewrite Hm. reflexivity.
  - rewrite Hm. reflexivity.
Qed.
Lemma sim0_le {A B} (f : A -> B) P m m1 m2 : le_m m1 m2 -> sim0 f P m m1 -> sim0 f P m m2.
Proof.
  intros Hle Hm s Hs. specialize (Hm s Hs). destruct (m s) as [[a s']|e| |]; auto.
  - destruct Hm as [H1 H2]. split; [|assumption]. eapply le_m_ok; [exact Hle|exact H1|discriminate].
  - eapply le_m_ok; [exact Hle|exact Hm|discriminate].
  - eapply le_m_ok; [exact Hle|exact Hm|discriminate].
Qed.
Lemma sim0_simm {A B} (f : A -> B) P Q m m' m2 : simm f P m m' -> hpres m -> eqi (fun _ => True) True True Q m m2 -> sim0 f Q m m'.
Proof.
  intros H Hp He s Hs. specialize (H s (hinv_nil _ Hs)). destruct (He s (hwf_nil _ _ _ _ Hs)) as [_ He'].
  unfold erh in H. rewrite Hs in H. cbn [map] in H.
  destruct (m s) as [[a s']| | |] eqn:E; auto.
  pose proof (Hp _ _ _ E) as Hs'. rewrite Hs in Hs'. rewrite Hs' in H. destruct H as (H & _ & _). tauto.
Qed.

Lemma apps_not us : us <> [] -> forall h, match apps h us with App _ _ => True | _ => False end.
Proof.
  induction us as [|u us IH]; [congruence|]. intros _ h. cbn. destruct us; [exact I|]. apply IH. discriminate.
Qed.

Lemma nf_shape t : nf t ->
  match ers t with
  | Kind => t = SKind
  | Typ => t = SType
  | Const c => t = SConst c \/ get_comb t = Some (Appl (SConst c) [])
  | Var n => t = SVar n
  | App _ _ => exists h args, get_comb t = Some (Appl h args) /\ nf h /\ Forall nf args
  | Lam a' b' => exists id a b, get_comb t = Some (Abst id (Some a) b) /\ ers a = a' /\ ers b = b' /\ nf a /\ nf b
  | ULam b' => exists id b, get_comb t = Some (Abst id None b) /\ ers b = b' /\ nf b
  | Pi a' b' => exists id a b, get_comb t = Some (Prod id a b) /\ ers a = a' /\ ers b = b' /\ nf a /\ nf b
  end.
Proof.
  intros Ht.
  assert (Hc : forall c, get_comb t = Some c -> ers t = er_comb ers c -> wfc True sconst nf c -> match ers t with
  | Kind => t = SKind
  | Typ => t = SType
  | Const c => t = SConst c \/ get_comb t = Some (Appl (SConst c) [])
  | Var n => t = SVar n
  | App _ _ => exists h args, get_comb t = Some (Appl h args) /\ nf h /\ Forall nf args
  | Lam a' b' => exists id a b, get_comb t = Some (Abst id (Some a) b) /\ ers a = a' /\ ers b = b' /\ nf a /\ nf b
  | ULam b' => exists id b, get_comb t = Some (Abst id None b) /\ ers b = b' /\ nf b
  | Pi a' b' => exists id a b, get_comb t = Some (Prod id a b) /\ ers a = a' /\ ers b = b' /\ nf a /\ nf b
  end).
  { intros c Hg He Hw. rewrite He. destruct c as [h args|id a b|id [a|] b]; cbn [er_comb wfc] in *.
    - destruct Hw as (Hh & Ha & Hn). apply list_all_Forall in Ha. destruct (Hn I) as [Hn'|Hn'].
      2: { destruct args as [|u us]; [destruct h; try discriminate; cbn; right; exact Hg|].
           cbn [map apps]. pose proof (apps_not (ers u :: map ers us) ltac:(discriminate) (ers h)) as Hx. cbn [apps] in Hx.
           destruct (apps _ _); try contradiction. eauto 10. }
      assert (Hm : map ers args <> []) by (destruct args; [congruence|discriminate]).
      pose proof (apps_not _ Hm (ers h)) as Hx. destruct (apps _ _); try contradiction. eauto 10.
    - destruct Hw. eauto 10.
    - destruct Hw. eauto 10.
    - destruct Hw. eauto 10. }
  destruct t as [| |c|n|c|c]; try reflexivity; [left; reflexivity| |].
  - apply Hc with (c := scomb_of_lcomb c); [reflexivity| |apply wfc_of_lcomb; exact Ht].
    rewrite er_scomb_of_lcomb. reflexivity.
  - apply Hc with (c := c); [reflexivity|reflexivity|exact Ht].
Qed.
Lemma nf_get_comb t c : nf t -> get_comb t = Some c -> wfc True sconst nf c.
Proof. intros H. eapply wfs_get_comb. exact H. Qed.

Section Sim.
  Variable uniq : nat -> bool.
  Variable gc : gctx.
  Hypothesis Hgc : gctx_nf gc.
  Notation sg := (er_gctx gc).

  Lemma whnf_sim0 n t : nf t -> sim0 ers nf (whnf uniq gc n t) (r_whnf sg n (ers t)).
  Proof.
    intros Ht. eapply sim0_simm; [apply whnf_sim|apply hpres_whnf|].
    apply (whnf_inv _ _ _ uniq gc gc); auto. intros c rs r _. apply Hgc.
  Qed.
  Lemma convertible_sim0 n t u : nf t -> nf u -> sim0 id anyt (convertible uniq gc n t u) (r_convertible sg n (ers t) (ers u)).
  Proof.
    intros Ht Hu. eapply sim0_simm; [apply convertible_sim|apply hpres_conv_loop|].
    apply (convertible_inv (fun _ => True) True True uniq gc gc); auto. intros c rs r _. apply Hgc.
  Qed.

  Lemma infer_sim n :
    (forall lc t, Forall nf lc -> nf t -> sim0 ers nf (infer uniq gc n lc t) (r_infer sg n (map ers lc) (ers t))) /\
    (forall lc t ty, Forall nf lc -> nf t -> nf ty ->
       sim0 id anyt (check uniq gc n lc t ty) (r_check sg n (map ers lc) (ers t) (ers ty))).
  Proof.
    induction n as [|n [IH1 IH2]]; [split; intros; apply sim0_nofuel|]. split.
    - intros lc t Hlc Ht. rewrite r_infer_unfold. cbn [infer].
      assert (Hinf : forall lc t, Forall nf lc -> nf t ->
        sim0 ers nf (infer uniq gc n lc t) (r_infer_s sg (r_whnf sg n) (r_check sg n) (ers t) (map ers lc))).
      { intros lc' t' Hlc' Ht'. rewrite <- r_infer_unfold. eapply sim0_le; [apply r_infer_mono_S|]. now apply IH1. }
      assert (Hbind : forall a b (k k' : _) (P : sterm -> Prop), nf a -> nf b ->
        (forall B, nf B -> sim0 ers P (k B) (k' (ers B))) ->
        sim0 ers P (bind (bind_of_type (infer uniq gc n) lc a b) k)
          (bind (r_infer_s sg (r_whnf sg n) (r_check sg n) (ers a) (map ers lc))
             (fun x => match x with Typ => bind (r_infer_s sg (r_whnf sg n) (r_check sg n) (ers b) (map ers (a :: lc))) k' | _ => fail BindNoType end))).
      { intros a b k k' P Ha Hb Hk. unfold bind_of_type.
        intros s. rewrite (bind_bind _ _ _ s). revert s.
        change (sim0 ers P (bind (infer uniq gc n lc a) (fun x => bind (match x with SType => infer uniq gc n (a :: lc) b | _ => fail BindNoType end) k))
          (bind (r_infer_s sg (r_whnf sg n) (r_check sg n) (ers a) (map ers lc))
             (fun x => match x with Typ => bind (r_infer_s sg (r_whnf sg n) (r_check sg n) (ers b) (map ers (a :: lc))) k' | _ => fail BindNoType end))).
        eapply sim0_bind; [apply Hinf; assumption|]. intros x Hx. pose proof (nf_shape _ Hx) as Hs.
        assert (Hf : sim0 ers P (bind (fail BindNoType) k) (fail BindNoType)) by (intros s Hss; reflexivity).
        destruct (ers x) eqn:Ex; try (subst x; exact Hf); try (destruct Hs as [Hs|Hs]; destruct x; try discriminate; exact Hf);
          try (destruct x; try discriminate Ex; try exact Hf; destruct Hs as (? & ? & Hs & _); discriminate Hs);
          try (destruct x; try discriminate Ex; exact Hf).
        subst x. eapply sim0_bind; [apply Hinf; [constructor; assumption|assumption]|]. exact Hk. }
      assert (Hargs : forall args, Forall nf args -> forall m m' (k : tm -> RM tm), sim0 ers nf m m' ->
        sim0 ers nf (ty <- m ;; infer_args uniq (whnf uniq gc n) (check uniq gc n) lc ty args)
          (fold_left (fun m u => bind m (fun ty => r_infer_arg (r_whnf sg n) (r_check sg n) (map ers lc) ty u)) (map ers args) m')).
      { induction 1 as [|a args Ha Hargs IHa]; intros m m' k Hm; cbn [fold_left map].
        - intros s Hs. specialize (Hm s Hs). cbn [infer_args]. unfold bind, ret. destruct (m s) as [[? ?]| | |]; exact Hm.
        - cbn [infer_args].
          set (m2 := bind m (fun ty => bind (whnf uniq gc n ty) (fun ty => bind (ok_or (get_prod ty) ProductExpected)
             (fun x => let '(_, A, B) := x in bind (check uniq gc n lc a A) (fun ok : bool => if ok then subst uniq B a else fail Unconvertible))))).
          specialize (IHa m2 (bind m' (fun ty => r_infer_arg (r_whnf sg n) (r_check sg n) (map ers lc) ty (ers a))) k).
          assert (Hm2 : sim0 ers nf m2 (bind m' (fun ty => r_infer_arg (r_whnf sg n) (r_check sg n) (map ers lc) ty (ers a)))).
          { unfold m2. eapply sim0_bind; [exact Hm|]. intros ty Hty. unfold r_infer_arg.
            eapply sim0_bind; [apply whnf_sim0; assumption|]. intros ty' Hty'.
            pose proof (nf_shape _ Hty') as Hs. unfold get_prod.
            assert (Hf : forall k, sim0 ers nf (bind (ok_or (@None (str * sterm * sterm)) ProductExpected) k) (fail ProductExpected)) by (intros k0 s Hss; reflexivity).
            destruct (ers ty') eqn:Ex; try (subst ty'; apply Hf).
            - destruct Hs as [-> | ->]; apply Hf.
            - destruct Hs as (h & us & -> & _). apply Hf.
            - destruct Hs as (id & A & B & -> & _). apply Hf.
            - destruct Hs as (id & B & -> & _). apply Hf.
            - destruct Hs as (id & A & B & -> & <- & <- & HA & HB).
              intros s. cbn [ok_or]. rewrite (bind_ret_l _ _ s). revert s.
              eapply sim0_bind; [apply IH2; assumption|]. intros [|] _; unfold Datatypes.id; [|apply sim0_fail].
              eapply sim0_simm; [apply subst_sim|apply hpres_subst|]. apply subst_inv; assumption. }
          specialize (IHa Hm2). intros s Hs. specialize (IHa s Hs).
          assert (E : (ty <- m2 ;; infer_args uniq (whnf uniq gc n) (check uniq gc n) lc ty args) s =
            (ty <- m ;; ty <- whnf uniq gc n ty ;; ' (_, A, B) <- ok_or (get_prod ty) ProductExpected ;;
               ok <- check uniq gc n lc a A ;; if ok : bool then b <- subst uniq B a ;; infer_args uniq (whnf uniq gc n) (check uniq gc n) lc b args else fail Unconvertible) s).
          { unfold m2, bind. destruct (m s) as [[ty s1]| | |]; auto. destruct (whnf _ _ _ _ _) as [[ty' s2]| | |]; auto.
            destruct (get_prod ty') as [[[id A] B]|]; cbn [ok_or]; [|reflexivity]. unfold ret.
            destruct (check _ _ _ _ _ _ _) as [[[|] s3]| | |]; auto. }
          rewrite E in IHa. exact IHa. }
      assert (Hfold : forall us h, r_infer_s sg (r_whnf sg n) (r_check sg n) (apps h us) (map ers lc) =
         fold_left (fun m u => bind m (fun ty => r_infer_arg (r_whnf sg n) (r_check sg n) (map ers lc) ty u)) us
           (r_infer_s sg (r_whnf sg n) (r_check sg n) h (map ers lc))).
      { induction us as [|u us IHu]; intros h; cbn [apps fold_left]; [reflexivity|]. rewrite IHu. reflexivity. }
      assert (Hcomb : forall c, wfc True sconst nf c ->
        sim0 ers nf (infer_comb uniq (whnf uniq gc n) (infer uniq gc n) (check uniq gc n) lc c)
          (r_infer_s sg (r_whnf sg n) (r_check sg n) (er_comb ers c) (map ers lc))).
      { intros [h args|id a b|id [a|] b] Hc; cbn [infer_comb er_comb wfc r_infer_s] in *.
        - destruct Hc as (Hh & Ha & _). apply list_all_Forall in Ha. rewrite Hfold.
          apply Hargs; [assumption|exact (fun _ => nofuel)|]. now apply Hinf.
        - destruct Hc as [Ha Hb]. apply Hbind; [assumption|assumption|]. intros B HB.
          pose proof (nf_shape _ HB) as Hs. destruct (ers B) eqn:Ex; try (subst B; cbn [is_sort]; first [apply sim0_fail|apply sim0_ret; [reflexivity|exact I]]).
          + destruct Hs as [-> | Hs]; [apply sim0_fail|]. destruct B; try discriminate; apply sim0_fail.
          + destruct Hs as (? & ? & Hs & _). destruct B; try discriminate; apply sim0_fail.
          + destruct Hs as (? & ? & ? & Hs & _). destruct B; try discriminate; apply sim0_fail.
          + destruct Hs as (? & ? & Hs & _). destruct B; try discriminate; apply sim0_fail.
          + destruct Hs as (? & ? & ? & Hs & _). destruct B; try discriminate; apply sim0_fail.
        - destruct Hc as [Ha Hb]. apply Hbind; [assumption|assumption|]. intros B HB.
          pose proof (nf_shape _ HB) as Hs.
          assert (HP : forall B', B' = ers B -> sim0 ers nf (ret (SSComb (Prod id a B))) (ret (Pi (ers a) B'))).
          { intros B' ->. apply sim0_ret; [reflexivity|]. split; assumption. }
          destruct (ers B) eqn:Ex; try (subst B; cbn in Ex; first [apply sim0_fail|apply HP; reflexivity]).
          + destruct Hs as [-> | Hs]; [apply HP; congruence|]. destruct B; try discriminate; apply HP; congruence.
          + destruct Hs as (? & ? & Hs & _). destruct B; try discriminate; apply HP; congruence.
          + destruct Hs as (? & ? & ? & Hs & _). destruct B; try discriminate; apply HP; congruence.
          + destruct Hs as (? & ? & Hs & _). destruct B; try discriminate; apply HP; congruence.
          + destruct Hs as (? & ? & ? & Hs & _). destruct B; try discriminate; apply HP; congruence.
        - apply sim0_fail. }
      destruct t as [| |c|x|c|c].
      + apply sim0_fail.
      + apply sim0_ret; [reflexivity|exact I].
      + cbn [ers r_infer_s er_gctx sg_type]. destruct (get_type gc c) as [ty|] eqn:E; cbn [ok_or option_map]; [|apply sim0_fail].
        apply sim0_ret; [now rewrite ers_sterm_of_lterm|]. apply nf_lterm. eapply Hgc. exact E.
      + cbn [ers r_infer_s]. unfold lctx_get_type. rewrite nth_error_map. destruct (nth_error lc x) as [A|] eqn:E.
        * assert (HA : nf A) by (apply nth_error_In in E; rewrite Forall_forall in Hlc; auto).
          cbn [option_map ok_or].
          assert (Hsh : sim0 ers nf (shift uniq A (x + 1)) (ret (lift (S x) (ers A)))).
          { rewrite Nat.add_1_r. eapply sim0_simm; [apply shift_sim|apply hpres_shift|]. apply shift_inv. exact HA. }
          intros s Hs. specialize (Hsh s Hs). unfold bind. destruct (shift uniq A (x + 1) s) as [[A' s']| | |]; exact Hsh.
        * apply sim0_fail.
      + cbn [ers]. rewrite <- er_scomb_of_lcomb. apply Hcomb. apply wfc_of_lcomb. exact Ht.
      + apply Hcomb. exact Ht.
    - intros lc t ty Hlc Ht Hty. cbn [check].
      assert (Habst : forall oa b, (match oa with Some a => nf a | None => True end) -> nf b ->
        sim0 id anyt (ty <- whnf uniq gc n ty ;;
          ' (_, ty_a, ty_b) <- ok_or (get_prod ty) ProductExpected ;;
          ok <- match oa with
                | None => ret true
                | Some arg_ty =>
                  infer uniq gc n lc arg_ty ;;;
                  convertible uniq gc n arg_ty ty_a
                end ;;
          if ok : bool then check uniq gc n (ty_a :: lc) b ty_b else ret false)
         (ty <- r_whnf sg n (ers ty) ;;
          match ty with
          | Pi ta tb =>
            match oa with
            | None => r_check sg n (ta :: map ers lc) (ers b) tb
            | Some a =>
              r_infer sg n (map ers lc) (ers a) ;;;
              ok <- r_convertible sg n (ers a) ta ;;
              if ok : bool then r_check sg n (ta :: map ers lc) (ers b) tb else ret false
            end
          | _ => fail ProductExpected
          end)).
      { intros oa b Ha Hb. eapply sim0_bind; [apply whnf_sim0; assumption|]. intros ty' Hty'.
        pose proof (nf_shape _ Hty') as Hs. unfold get_prod.
        assert (Hf : forall k, sim0 (@id bool) anyt (bind (ok_or (@None (str * sterm * sterm)) ProductExpected) k) (fail ProductExpected)) by (intros k0 s Hss; reflexivity).
        destruct (ers ty') eqn:Ex; try (subst ty'; apply Hf).
        - destruct Hs as [-> | ->]; apply Hf.
        - destruct Hs as (h & us & -> & _). apply Hf.
        - destruct Hs as (id & A & B & -> & _). apply Hf.
        - destruct Hs as (id & B & -> & _). apply Hf.
        - destruct Hs as (id & A & B & -> & <- & <- & HA & HB).
          intros s. cbn [ok_or]. rewrite (bind_ret_l _ _ s). revert s.
          assert (Hlast : forall ok : bool, sim0 (@Datatypes.id bool) anyt (if ok then check uniq gc n (A :: lc) b B else ret false)
             (if ok then r_check sg n (ers A :: map ers lc) (ers b) (ers B) else ret false)).
          { intros [|]; [|apply sim0_ret; [reflexivity|exact I]]. apply IH2; [constructor; assumption|assumption|assumption]. }
          destruct oa as [a|].
          + intros s. rewrite (bind_bind _ _ _ s). revert s.
            eapply sim0_bind; [apply IH1; assumption|]. intros _ _.
            eapply sim0_bind; [apply convertible_sim0; assumption|]. intros ok _. apply (Hlast ok).
          + intros s. rewrite (bind_ret_l _ _ s). revert s. apply (Hlast true). }
      assert (Hnon : get_abst t = None -> match ers t with Lam _ _ | ULam _ => False | _ => True end ->
         sim0 (@id bool) anyt (ty_inf <- infer uniq gc n lc t ;; convertible uniq gc n ty_inf ty)
           (r_check sg (S n) (map ers lc) (ers t) (ers ty))).
      { intros _ Hne. assert (E : r_check sg (S n) (map ers lc) (ers t) (ers ty) = (ty' <- r_infer sg n (map ers lc) (ers t) ;; r_convertible sg n ty' (ers ty)))
          by (destruct (ers t); try reflexivity; contradiction).
        rewrite E. eapply sim0_bind; [apply IH1; assumption|]. intros ty' Hty'. apply convertible_sim0; assumption. }
      pose proof (nf_shape _ Ht) as Hs.
      assert (Hga : get_abst t = match get_comb t with Some (Abst id oa b) => Some (id, oa, b) | _ => None end)
        by (destruct t as [| |?|?|[? ?|? ? ?|? ? ?]|[? ?|? ? ?|? ? ?]]; reflexivity).
      rewrite Hga in *.
      destruct (ers t) as [| |c|x|t1 t2|a b|b|a b] eqn:Ex; try (subst t; cbn [get_comb] in *; apply Hnon; [reflexivity|exact I]).
      + destruct Hs as [-> | Hs]; [|rewrite Hs in *]; apply Hnon; first [reflexivity|exact I].
      + destruct Hs as (h & us & Hs & _). rewrite Hs in *. apply Hnon; [reflexivity|exact I].
      + destruct Hs as (id & a' & b' & Hs & <- & <- & Ha & Hb). rewrite Hs. apply (Habst (Some a') b'); assumption.
      + destruct Hs as (id & b' & Hs & <- & Hb). rewrite Hs. apply (Habst None b'); [exact I|assumption].
      + destruct Hs as (id & a' & b' & Hs & _). rewrite Hs in *. apply Hnon; [reflexivity|exact I].
  Qed.
End Sim.
