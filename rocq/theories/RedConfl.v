(** * Reduction with orthogonal rules has the Church-Rosser property *)

From Coq Require Import List Arith Lia Bool.
From Verif Require Import SpecTerm SpecConv SpecConvFacts SpecWhnf SpecRed.
Import ListNotations.

(** ** Stripping *)
Lemma strip_ren t : forall r, strip (ren r t) = ren r (strip t).
Proof. induction t; intros r; cbn; f_equal; auto. Qed.
Lemma strip_sub t : forall s, strip (sub s t) = sub (fun n => strip (s n)) (strip t).
Proof.
  assert (Hup : forall s n, strip (up s n) = up (fun n => strip (s n)) n).
  { intros s [|n]; cbn; [reflexivity|apply strip_ren]. }
  induction t; intros s; cbn; f_equal; auto; rewrite ?IHt, ?IHt2; apply sub_ext; intros; apply Hup.
Qed.
Lemma strip_subst1 u t : strip (subst1 u t) = subst1 (strip u) (strip t).
Proof. unfold subst1. rewrite strip_sub. apply sub_ext. intros [|n]; reflexivity. Qed.
Lemma strip_apps us : forall t, strip (apps t us) = apps (strip t) (map strip us).
Proof. induction us as [|u us IH]; intros t; cbn; [reflexivity|]. rewrite IH. reflexivity. Qed.
Lemma inst_strip s p : forall t, inst s p t -> inst (fun n => strip (s n)) p (strip t).
Proof.
  induction p as [c ps IH|m|] using pat_ind'; intros t H; inversion H; subst.
  - rewrite strip_apps. cbn. constructor. clear H.
    match goal with H : Forall2 _ _ _ |- _ => induction H end; cbn; constructor; inversion IH; subst; auto.
  - apply (inst_var (fun n => strip (s n))).
  - constructor.
Qed.
Lemma insts_strip s ps ts : Forall2 (inst s) ps ts -> Forall2 (inst (fun n => strip (s n))) ps (map strip ts).
Proof. induction 1; cbn; constructor; auto using inst_strip. Qed.
Lemma strip_strip t : strip (strip t) = strip t.
Proof. induction t; cbn; f_equal; auto. Qed.

(** ** Lists of arguments *)
Lemma apps_snoc t us u : apps t (us ++ [u]) = App (apps t us) u.
Proof. rewrite apps_app. reflexivity. Qed.
Lemma apps_const_cases c us : (us = [] /\ apps (Const c) us = Const c) \/
  exists us' u, us = us' ++ [u] /\ apps (Const c) us = App (apps (Const c) us') u.
Proof.
  destruct us as [|u us _] using rev_ind; [left; auto|]. right. exists us, u. split; [reflexivity|apply apps_snoc].
Qed.
Lemma apps_const_inj c us c' us' : apps (Const c) us = apps (Const c') us' -> c = c' /\ us = us'.
Proof.
  revert us'. induction us as [|u us IH] using rev_ind; intros us' E.
  - destruct (apps_const_cases c' us') as [[-> E']|(vs & v & -> & E')]; rewrite E' in E; cbn in E; [|discriminate].
    injection E as ->. auto.
  - rewrite apps_snoc in E. destruct (apps_const_cases c' us') as [[-> E']|(vs & v & -> & E')]; rewrite E' in E; [discriminate|].
    injection E as E1 ->. apply IH in E1. destruct E1 as [-> ->]. auto.
Qed.
Lemma Forall2_snoc_inv {A B} (R : A -> B -> Prop) l a l' : Forall2 R (l ++ [a]) l' ->
  exists l1 b, l' = l1 ++ [b] /\ Forall2 R l l1 /\ R a b.
Proof.
  intros H. apply Forall2_app_inv_l in H. destruct H as (l1 & l2 & H1 & H2 & ->).
  inversion H2 as [|? b ? l3 Hb H3]; subst. inversion H3; subst. exists l1, b. auto.
Qed.
Lemma Forall2_len {A B} (R : A -> B -> Prop) l l' : Forall2 R l l' -> length l = length l'.
Proof. induction 1; cbn; congruence. Qed.
Lemma Forall2_firstn {A B} (R : A -> B -> Prop) l l' n : Forall2 R l l' -> Forall2 R (firstn n l) (firstn n l').
Proof. intros H. revert n. induction H; intros [|n]; cbn; constructor; auto. Qed.

Lemma NoDup_l {A} (l l' : list A) : NoDup (l ++ l') -> NoDup l.
Proof.
  induction l as [|a l IH]; cbn; intros H; [constructor|]. inversion H; subst. constructor; [|auto].
  intros Ha. apply H2. apply in_or_app; auto.
Qed.
Lemma NoDup_r {A} (l l' : list A) : NoDup (l ++ l') -> NoDup l'.
Proof. induction l as [|a l IH]; cbn; intros H; [assumption|]. inversion H; auto. Qed.

(** ** Equality of rules is decidable *)
Definition pat_eq_dec : forall p q : pat, {p = q} + {p <> q}.
Proof.
  fix go 1. intros [c ps|m|] [c' ps'|m'|]; try (right; discriminate); [| |left; reflexivity].
  - destruct (Nat.eq_dec c c') as [->|Hn]; [|right; congruence].
    assert (D : {ps = ps'} + {ps <> ps'}).
    { revert ps'. induction ps as [|p ps IH]; intros [|p' ps']; try (right; discriminate); [left; reflexivity|].
      destruct (go p p') as [->|Hn]; [|right; congruence]. destruct (IH ps') as [->|Hn]; [left; reflexivity|right; congruence]. }
    destruct D as [->|Hn]; [left; reflexivity|right; congruence].
  - destruct (Nat.eq_dec m m') as [->|Hn]; [left; reflexivity|right; congruence].
Defined.
Definition srule_eq_dec (r r' : srule) : {r = r'} + {r <> r'}.
Proof.
  decide equality; [apply tm_eq_dec|apply list_eq_dec, pat_eq_dec|apply Nat.eq_dec].
Defined.

(** ** Variables of instances *)
Fixpoint size (t : tm) : nat :=
  match t with
  | App t u | Lam t u | Pi t u => S (size t + size u)
  | ULam t => S (size t)
  | _ => 1
  end.
Lemma size_apps us : forall t u, In u us -> size u < size (apps t us).
Proof.
  assert (Ht : forall us t, size t <= size (apps t us)).
  { clear us. induction us as [|u us IH]; intros t; cbn; [lia|]. specialize (IH (App t u)). cbn in IH. lia. }
  induction us as [|v us IH]; intros t u; cbn; [intros []|]. intros [->|H]; [|apply IH; exact H].
  specialize (Ht us (App t u)). cbn in Ht. lia.
Qed.
Lemma inst_size s p : forall t m, inst s p t -> In m (pat_vars p) -> size (s m) <= size t.
Proof.
  induction p as [c ps IH|m0|] using pat_ind'; intros t m H Hm; inversion H; subst.
  - cbn in Hm. assert (exists u, In u ts /\ size (s m) <= size u) as (u & Hu & Hs).
    { clear H. revert Hm. match goal with H : Forall2 _ _ _ |- _ => induction H as [|p u ps ts Hp Hps IHf] end; cbn; [intros []|].
      inversion IH; subst. intros Hm. apply in_app_or in Hm. destruct Hm as [Hm|Hm]; [exists u; split; [left; reflexivity|auto]|].
      destruct IHf as (u' & ? & ?); auto. exists u'. auto. }
    pose proof (size_apps ts (Const c) u Hu). lia.
  - destruct Hm as [->|[]]. lia.
  - destruct Hm.
Qed.
Lemma insts_size s ps ts c m : Forall2 (inst s) ps ts -> In m (flat_map pat_vars ps) -> size (s m) < size (apps (Const c) ts).
Proof.
  intros H Hm. assert (exists u, In u ts /\ size (s m) <= size u) as (u & Hu & Hs).
  { revert Hm. induction H as [|p u ps ts Hp Hps IH]; cbn; [intros []|].
    intros Hm. apply in_app_or in Hm. destruct Hm as [Hm|Hm]; [exists u; split; [left; reflexivity|eapply inst_size; eassumption]|].
    destruct IH as (u' & ? & ?); auto. exists u'. auto. }
  pose proof (size_apps ts (Const c) u Hu). lia.
Qed.
Lemma inst_agree s s' p : forall t, inst s p t -> inst s' p t -> forall m, In m (pat_vars p) -> s m = s' m.
Proof.
  induction p as [c ps IH|m0|] using pat_ind'; intros t H H' m Hm; cbn in Hm.
  - inversion H as [| |c1 ps1 ts Hts]; subst. inversion H' as [| |c2 ps2 ts' Hts' E1 E2]; subst.
    apply apps_const_inj in E2. destruct E2 as [_ ->]. clear H H'. revert Hm.
    induction Hts as [|p u ps ts Hp Hps IHf]; cbn; [intros []|]. inversion IH; subst. inversion Hts'; subst.
    intros Hm. apply in_app_or in Hm. destruct Hm; eauto.
  - inversion H; inversion H'; subst. destruct Hm as [->|[]]. congruence.
  - destruct Hm.
Qed.
Lemma insts_agree s s' ps ts : Forall2 (inst s) ps ts -> Forall2 (inst s') ps ts ->
  forall m, In m (flat_map pat_vars ps) -> s m = s' m.
Proof.
  induction 1 as [|p u ps ts Hp Hps IH]; intros H' m Hm; cbn in Hm; [destruct Hm|]. inversion H'; subst.
  apply in_app_or in Hm. destruct Hm; [eapply inst_agree; eassumption|auto].
Qed.
Lemma insts_ext s s' ps ts : (forall m, In m (flat_map pat_vars ps) -> s m = s' m) -> Forall2 (inst s) ps ts -> Forall2 (inst s') ps ts.
Proof.
  intros He H. induction H as [|p u ps ts Hp Hps IH]; constructor.
  - eapply inst_ext; [|exact Hp]. intros; apply He; cbn; apply in_or_app; auto.
  - apply IH. intros; apply He; cbn; apply in_or_app; auto.
Qed.
Lemma scoped_strip t : forall k, scoped k t -> scoped k (strip t).
Proof. induction t; intros k; cbn; try tauto; intuition auto. Qed.
Lemma sub_scoped t : forall k s s', scoped k t -> (forall m, m < k -> s m = s' m) -> sub s t = sub s' t.
Proof.
  assert (Hup : forall k s s', (forall m, m < k -> s m = s' m) -> forall m, m < S k -> up s m = up s' m).
  { intros k s s' H [|m] Hm; cbn; [reflexivity|]. rewrite H by lia. reflexivity. }
  induction t; intros k s s' Hs He; cbn in *; f_equal; eauto; try (eapply IHt1; [apply Hs|assumption]);
    try (eapply IHt2; [apply Hs|eauto]).
Qed.

Lemma finite_choice (P : nat -> tm -> Prop) k : (forall m, m < k -> exists v, P m v) -> exists f, forall m, m < k -> P m (f m).
Proof.
  induction k as [|k IH]; intros H; [exists Var; intros; lia|].
  destruct IH as [f Hf]; [intros; apply H; lia|]. destruct (H k) as [v Hv]; [lia|].
  exists (fun m => if m =? k then v else f m). intros m Hm. destruct (Nat.eqb_spec m k); [subst; assumption|]. apply Hf. lia.
Qed.

Section Confl.
  Variable sg : sig.
  Notation red := (red sg).
  Notation reds := (reds sg).
  Notation conv := (conv sg).

  Lemma reds_trans t u v : reds t u -> reds u v -> reds t v.
  Proof. induction 1; eauto using reds_step. Qed.
  Lemma reds_one t u : red t u -> reds t u.
  Proof. intros. eapply reds_step; [eassumption|apply reds_refl]. Qed.
  Lemma reds_map (f : tm -> tm) : (forall t u, red t u -> red (f t) (f u)) -> forall t u, reds t u -> reds (f t) (f u).
  Proof. intros H t u Hr. induction Hr; eauto using reds_step, reds_refl. Qed.
  Lemma reds_app t t' u u' : reds t t' -> reds u u' -> reds (App t u) (App t' u').
  Proof.
    intros H1 H2. eapply reds_trans; [apply (reds_map (fun t => App t u)); eauto using red_appl|].
    apply (reds_map (App t')); eauto using red_appr.
  Qed.
  Lemma reds_ulam t t' : reds t t' -> reds (ULam t) (ULam t').
  Proof. apply reds_map. apply red_ulam. Qed.
  Lemma reds_lam a a' t t' : reds a a' -> reds t t' -> reds (Lam a t) (Lam a' t').
  Proof.
    intros H1 H2. eapply reds_trans; [apply (reds_map (fun a => Lam a t)); eauto using red_lama|].
    apply (reds_map (Lam a')); eauto using red_lamb.
  Qed.
  Lemma reds_pi a a' t t' : reds a a' -> reds t t' -> reds (Pi a t) (Pi a' t').
  Proof.
    intros H1 H2. eapply reds_trans; [apply (reds_map (fun a => Pi a t)); eauto using red_pil|].
    apply (reds_map (Pi a')); eauto using red_pir.
  Qed.
  Lemma reds_apps us us' : Forall2 reds us us' -> forall t t', reds t t' -> reds (apps t us) (apps t' us').
  Proof. induction 1; intros; cbn; auto using reds_app. Qed.

  Lemma conv_strip t : conv t (strip t).
  Proof.
    induction t; cbn; auto using conv_refl, conv_app, conv_ulam, conv_pi.
    eapply conv_trans; [apply conv_annot|]. apply conv_ulam. assumption.
  Qed.
  Lemma red_conv t u : red t u -> conv t u.
  Proof.
    induction 1; eauto using conv_refl, conv_app, conv_ulam, conv_pi, conv_beta, conv_lam.
    eapply conv_trans; [eapply conv_rule; eassumption|]. apply conv_sub. apply conv_strip.
  Qed.
  Lemma reds_conv t u : reds t u -> conv t u.
  Proof. induction 1; eauto using conv_refl, conv_trans, red_conv. Qed.

  (** ** Parallel reduction *)
  Inductive par : tm -> tm -> Prop :=
  | par_kind : par Kind Kind
  | par_typ : par Typ Typ
  | par_const c : par (Const c) (Const c)
  | par_var n : par (Var n) (Var n)
  | par_app t t' u u' : par t t' -> par u u' -> par (App t u) (App t' u')
  | par_lam a a' t t' : par a a' -> par t t' -> par (Lam a t) (Lam a' t')
  | par_ulam t t' : par t t' -> par (ULam t) (ULam t')
  | par_pi a a' b b' : par a a' -> par b b' -> par (Pi a b) (Pi a' b')
  | par_beta t t' u u' : par t t' -> par u u' -> par (App (ULam t) u) (subst1 u' t')
  | par_rule c r s s' ts :
    rule_of sg c r -> Forall2 (inst s) (sr_args r) ts -> (forall m, par (s m) (s' m)) ->
    par (apps (Const c) ts) (sub s' (strip (sr_rhs r))).

  Lemma par_refl t : par t t.
  Proof. induction t; eauto using par. Qed.
  Lemma par_apps us us' : Forall2 par us us' -> forall t t', par t t' -> par (apps t us) (apps t' us').
  Proof. induction 1; intros; cbn; auto using par_app. Qed.

  Lemma par_ren t t' : par t t' -> forall r, par (ren r t) (ren r t').
  Proof.
    induction 1 as [| | | |t t' u u' Ht IHt Hu IHu|a a' t t' Ha IHa Ht IHt|t t' Ht IHt|a a' b b' Ha IHa Hb IHb
      |t t' u u' Ht IHt Hu IHu|c r s s' ts Hr Hi Hs IHs]; intros r0; cbn [ren]; eauto using par.
    - rewrite ren_subst1. apply par_beta; auto.
    - rewrite !ren_as_sub, sub_apps, sub_sub. cbn [sub].
      rewrite <- (sub_ext (strip (sr_rhs r)) (fun n => ren r0 (s' n))) by (intros; apply ren_as_sub).
      apply par_rule with (s := fun m => ren r0 (s m)); auto.
      clear - Hi. induction Hi as [|p t ps ts Hp Hps IH]; cbn; constructor; [|exact IH].
      pose proof (inst_sub s (fun n => Var (r0 n)) p t Hp) as H.
      eapply inst_ext; [|exact H]. intros; cbn. symmetry; apply ren_as_sub.
  Qed.
  Lemma par_sub t t' : par t t' -> forall s s', (forall n, par (s n) (s' n)) -> par (sub s t) (sub s' t').
  Proof.
    assert (Hup : forall s s', (forall n, par (s n) (s' n)) -> forall n, par (up s n) (up s' n)).
    { intros s s' H [|n]; cbn; [apply par_var|apply par_ren, H]. }
    induction 1 as [| | | |t t' u u' Ht IHt Hu IHu|a a' t t' Ha IHa Ht IHt|t t' Ht IHt|a a' b b' Ha IHa Hb IHb
      |t t' u u' Ht IHt Hu IHu|c r s s' ts Hr Hi Hs IHs]; intros z z' Hz; cbn [sub]; eauto using par.
    - rewrite sub_subst1. apply par_beta; auto.
    - rewrite sub_apps, sub_sub. cbn [sub]. apply par_rule with (s := fun m => sub z (s m)); auto.
      clear - Hi. induction Hi as [|p t ps ts Hp Hps IH]; cbn; constructor; auto using inst_sub.
  Qed.
  Lemma par_subst1 t t' u u' : par t t' -> par u u' -> par (subst1 u t) (subst1 u' t').
  Proof. intros Ht Hu. apply par_sub; [assumption|]. intros [|n]; cbn; [assumption|apply par_var]. Qed.

  Lemma inst_reds s s' p : (forall m, reds (s m) (s' m)) -> forall t, inst s p t -> exists t', inst s' p t' /\ reds t t'.
  Proof.
    intros Hs. induction p as [c ps IH|m|] using pat_ind'; intros t H; inversion H; subst.
    - assert (exists ts', Forall2 (inst s') ps ts' /\ Forall2 reds ts ts') as (ts' & H1 & H2).
      { clear H. match goal with H : Forall2 _ _ _ |- _ => induction H as [|p u ps ts Hp Hps IHf] end; [exists []; auto|].
        inversion IH as [|? ? Hx Hy]; subst. destruct (Hx _ Hp) as (u' & ? & ?). destruct (IHf Hy) as (ts' & ? & ?). exists (u' :: ts'). auto. }
      exists (apps (Const c) ts'). split; [constructor; assumption|]. apply reds_apps; [assumption|apply reds_refl].
    - exists (s' m). split; [constructor|apply Hs].
    - exists t. split; [constructor|apply reds_refl].
  Qed.
  Lemma par_reds t t' : par t t' -> reds t t'.
  Proof.
    induction 1 as [| | | |t t' u u' Ht IHt Hu IHu|a a' t t' Ha IHa Ht IHt|t t' Ht IHt|a a' b b' Ha IHa Hb IHb
      |t t' u u' Ht IHt Hu IHu|c r s s' ts Hr Hi Hs IHs]; auto using reds_refl, reds_app, reds_lam, reds_ulam, reds_pi.
    - eapply reds_trans; [apply reds_app; [apply reds_ulam; exact IHt|exact IHu]|]. apply reds_one, red_beta.
    - assert (exists ts', Forall2 (inst s') (sr_args r) ts' /\ Forall2 reds ts ts') as (ts' & H1 & H2).
      { clear - Hi IHs. induction Hi as [|p u ps ts Hp Hps IHf]; [exists []; auto|].
        destruct (inst_reds _ _ p IHs _ Hp) as (u' & ? & ?). destruct IHf as (ts' & ? & ?). exists (u' :: ts'). auto. }
      eapply reds_trans; [apply reds_apps; [exact H2|apply reds_refl]|]. apply reds_one.
      destruct Hr as (rs & ? & ? & ?). eapply red_rule; eassumption.
  Qed.
  Lemma red_par t t' : red t t' -> par t t'.
  Proof.
    induction 1; eauto using par, par_refl.
    apply par_rule with (s := s); [exists rs; auto|assumption|intros; apply par_refl].
  Qed.

  (** what a parallel step does to a symbol with arguments *)
  Lemma par_const_inv c ts t' : par (apps (Const c) ts) t' ->
    (exists ts', t' = apps (Const c) ts' /\ Forall2 par ts ts') \/
    (exists ts1 ts2 ts2' r s s', ts = ts1 ++ ts2 /\ rule_of sg c r /\ Forall2 (inst s) (sr_args r) ts1 /\
       (forall m, par (s m) (s' m)) /\ Forall2 par ts2 ts2' /\ t' = apps (sub s' (strip (sr_rhs r))) ts2').
  Proof.
    revert t'. induction ts as [|u ts IH] using rev_ind; intros t' H.
    - cbn in H. inversion H; subst.
      + left. exists []. auto.
      + right. apply (apps_const_inj _ _ c []) in H0. destruct H0 as [-> ->].
        exists [], [], [], r, s, s'. auto 10.
    - rewrite apps_snoc in H. inversion H as [| | | |t1 t1' u1 u1' Ht Hu| | | |t1 t1' u1 u1' Ht Hu E|c' r s s' ts' Hr Hi Hs E E']; subst.
      + destruct (IH _ Ht) as [(ts' & -> & Hts)|(ts1 & ts2 & ts2' & r & s & s' & -> & Hr & Hi & Hs & H2 & ->)].
        * left. exists (ts' ++ [u1']). split; [now rewrite apps_snoc|]. apply Forall2_app; auto.
        * right. exists ts1, (ts2 ++ [u]), (ts2' ++ [u1']), r, s, s'. rewrite apps_snoc.
          split; [now rewrite app_assoc|]. repeat (split; [assumption|]). split; [|reflexivity]. apply Forall2_app; auto.
      + exfalso. destruct (apps_const_cases c ts) as [[-> E0]|(vs & v & -> & E0)]; rewrite E0 in *; discriminate.
      + right. rewrite <- apps_snoc in E. apply apps_const_inj in E. destruct E as [-> ->].
        exists (ts ++ [u]), [], [], r, s, s'. rewrite app_nil_r. auto 10.
  Qed.

  Hypothesis Hor : orthogonal sg.

  Definition safe (p : pat) : Prop := forall c qs r, subpat (PatSymb c qs) p -> rule_of sg c r -> disjoint qs (sr_args r).

  Lemma inst_par p : forall s t t', inst s p t -> NoDup (pat_vars p) -> safe p -> par t t' ->
    exists s', inst s' p t' /\ forall m, par (s m) (s' m).
  Proof.
    induction p as [c ps IH|m|] using pat_ind'; intros s t t' Hi Hn Hs Hp; inversion Hi; subst.
    - destruct (par_const_inv _ _ _ Hp) as [(ts' & -> & Hts)|(ts1 & ts2 & ts2' & r & s0 & s0' & -> & Hr & Hi0 & _)].
      + assert (exists s', Forall2 (inst s') ps ts' /\ forall m, par (s m) (s' m)) as (s' & K1 & K2).
        { assert (Hs' : forall p, In p ps -> safe p).
          { intros p Hin c0 qs r Hsub. apply (Hs c0 qs r). eapply subpat_arg; eassumption. }
          clear Hi Hp Hs. cbn [pat_vars] in Hn. revert ts' Hts. 
          match goal with H : Forall2 _ _ _ |- _ => induction H as [|p u ps ts Hp Hps IHf] end; intros ts' Hts.
          - inversion Hts; subst. exists s. split; [constructor|intros; apply par_refl].
          - inversion Hts as [|? u' ? ts2' Hu Hts2]; subst. inversion IH as [|? ? Hx Hy]; subst. cbn in Hn.
            destruct (Hx s u u' Hp) as (s1 & A1 & A2); [eapply NoDup_l; exact Hn|apply Hs'; left; reflexivity|assumption|].
            destruct (IHf Hy) with (ts' := ts2') as (s2 & B1 & B2);
              [eapply NoDup_r; exact Hn|intros; apply Hs'; right; assumption|assumption|].
            exists (fun m => if in_dec Nat.eq_dec m (pat_vars p) then s1 m else s2 m). split.
            + constructor.
              * eapply inst_ext; [|exact A1]. intros m Hm. destruct (in_dec Nat.eq_dec m (pat_vars p)); [reflexivity|contradiction].
              * eapply insts_ext; [|exact B1]. intros m Hm. destruct (in_dec Nat.eq_dec m (pat_vars p)) as [Hin|]; [|reflexivity].
                exfalso. clear - Hn Hm Hin. induction (pat_vars p) as [|x l IHl]; [destruct Hin|]. cbn in Hn. inversion Hn; subst.
                destruct Hin as [->|Hin]; [|auto]. apply H1. apply in_or_app; auto.
            + intros m. destruct (in_dec Nat.eq_dec m (pat_vars p)); auto. }
        exists s'. split; [constructor; assumption|assumption].
      + exfalso. match goal with H : Forall2 (inst s) ps _ |- _ => rename H into Hts end.
        apply (Hs c ps r (subpat_refl _) Hr) with (s1 := s) (s2 := s0) (ts := ts1).
        * apply Forall2_len in Hts, Hi0. rewrite app_length in Hts. lia.
        * pose proof (Forall2_firstn _ _ _ (length (sr_args r)) Hts) as H.
          rewrite (Forall2_len _ _ _ Hi0), firstn_app, Nat.sub_diag, firstn_all, app_nil_r in H.
          rewrite (Forall2_len _ _ _ Hi0). exact H.
        * exact Hi0.
    - exists (fun m' => if m' =? m then t' else s m'). split.
      + pose proof (inst_var (fun m' => if m' =? m then t' else s m') m) as H. cbn in H. rewrite Nat.eqb_refl in H. exact H.
      + intros m'. destruct (Nat.eqb_spec m' m); [subst; assumption|apply par_refl].
    - exists s. split; [constructor|intros; apply par_refl].
  Qed.
  Lemma insts_par ps : forall s ts ts', Forall2 (inst s) ps ts -> NoDup (flat_map pat_vars ps) -> (forall p, In p ps -> safe p) ->
    Forall2 par ts ts' -> exists s', Forall2 (inst s') ps ts' /\ forall m, par (s m) (s' m).
  Proof.
    intros s ts ts' Hi Hn Hs Hts. revert ts' Hts. induction Hi as [|p u ps ts Hp Hps IHf]; intros ts' Hts.
    - inversion Hts; subst. exists s. split; [constructor|intros; apply par_refl].
    - inversion Hts as [|? u' ? ts2' Hu Hts2]; subst. cbn in Hn.
      destruct (inst_par p s u u' Hp) as (s1 & A1 & A2); [eapply NoDup_l; exact Hn|apply Hs; left; reflexivity|assumption|].
      destruct IHf with (ts' := ts2') as (s2 & B1 & B2);
        [eapply NoDup_r; exact Hn|intros; apply Hs; right; assumption|assumption|].
      exists (fun m => if in_dec Nat.eq_dec m (pat_vars p) then s1 m else s2 m). split.
      + constructor.
        * eapply inst_ext; [|exact A1]. intros m Hm. destruct (in_dec Nat.eq_dec m (pat_vars p)); [reflexivity|contradiction].
        * eapply insts_ext; [|exact B1]. intros m Hm. destruct (in_dec Nat.eq_dec m (pat_vars p)) as [Hin|]; [|reflexivity].
          exfalso. clear - Hn Hm Hin. induction (pat_vars p) as [|x l IHl]; [destruct Hin|]. cbn in Hn. inversion Hn; subst.
          destruct Hin as [->|Hin]; [|auto]. apply H1. apply in_or_app; auto.
      + intros m. destruct (in_dec Nat.eq_dec m (pat_vars p)); auto.
  Qed.

  Lemma inst_step s s' p : (forall m, par (s m) (s' m)) -> forall t, inst s p t -> exists t', inst s' p t' /\ par t t'.
  Proof.
    intros Hs. induction p as [c ps IH|m|] using pat_ind'; intros t Hi; inversion Hi as [| |? ? ts HF]; subst.
    - assert (exists ts', Forall2 (inst s') ps ts' /\ Forall2 par ts ts') as (ts' & H1 & H2).
      { clear Hi. induction HF as [|p u ps ts Hp _ IHF]; [exists []; split; constructor|]. inversion IH as [|? ? Hx Hy]; subst.
        destruct (Hx _ Hp) as (u' & ? & ?). destruct (IHF Hy) as (ts' & ? & ?). exists (u' :: ts'). split; constructor; assumption. }
      exists (apps (Const c) ts'). split; [constructor; exact H1|]. apply par_apps; [exact H2|apply par_refl].
    - exists (s' m). split; [constructor|apply Hs].
    - exists t. split; [constructor|apply par_refl].
  Qed.
  Lemma insts_step s s' ps ts : Forall2 (inst s) ps ts -> (forall m, par (s m) (s' m)) -> exists ts', Forall2 (inst s') ps ts' /\ Forall2 par ts ts'.
  Proof.
    intros H Hs. induction H as [|p u ps ts Hp _ (ts' & ? & ?)]; [exists []; split; constructor|].
    destruct (inst_step s s' p Hs u Hp) as (u' & ? & ?). exists (u' :: ts'). split; constructor; assumption.
  Qed.

  Definition joins (t1 t2 : tm) : Prop := exists v, par t1 v /\ par t2 v.

  (** joining the instances of a right-hand side *)
  Lemma rhs_join r s1 s2 : scoped (sr_vars r) (sr_rhs r) -> (forall m, m < sr_vars r -> joins (s1 m) (s2 m)) ->
    exists f, (forall m, par (s1 m) (f m)) /\ par (sub s2 (strip (sr_rhs r))) (sub f (strip (sr_rhs r))).
  Proof.
    intros Hsc Hj. destruct (finite_choice (fun m v => par (s1 m) v /\ par (s2 m) v) _ Hj) as [f Hf].
    exists (fun m => if m <? sr_vars r then f m else s1 m). split.
    - intros m. destruct (Nat.ltb_spec m (sr_vars r)); [apply Hf; assumption|apply par_refl].
    - rewrite (sub_scoped _ (sr_vars r) (fun m => if m <? sr_vars r then f m else s1 m) (fun m => if m <? sr_vars r then f m else s2 m)).
      + apply par_sub; [apply par_refl|]. intros m. destruct (Nat.ltb_spec m (sr_vars r)); [apply Hf; assumption|apply par_refl].
      + apply scoped_strip. assumption.
      + intros m Hm. destruct (Nat.ltb_spec m (sr_vars r)); [reflexivity|lia].
  Qed.

  Lemma rule_diamond c r s s1 ts t2 :
    (forall t, size t < size (apps (Const c) ts) -> forall t1 t2, par t t1 -> par t t2 -> joins t1 t2) ->
    rule_of sg c r -> Forall2 (inst s) (sr_args r) ts -> (forall m, par (s m) (s1 m)) ->
    par (apps (Const c) ts) t2 -> joins (sub s1 (strip (sr_rhs r))) t2.
  Proof.
    intros IH Hr Hi Hs H2. destruct (Hor c r Hr) as (Hlin & Hsc & Hov).
    assert (Hu : forall m, m < sr_vars r -> In m (flat_map pat_vars (sr_args r))) by (destruct Hr as (rs & _ & _ & Hu); apply Hu).
    destruct (par_const_inv _ _ _ H2) as [(ts' & -> & Hts)|(ts1 & ts2 & ts2' & r' & s0 & s0' & -> & Hr' & Hi0 & Hs0 & Hts2 & ->)].
    - destruct (insts_par (sr_args r) s ts ts' Hi Hlin) as (s2 & Hi2 & Hs2); [|assumption|].
      { intros p Hin c2 qs r2 Hsub Hr2. apply (proj1 (Hov c2 r2 Hr2) p qs Hin Hsub). }
      destruct (rhs_join r s2 s1 Hsc) as (f & Hf1 & Hf2).
      { intros m Hm. apply (IH (s m)); auto. eapply insts_size; [exact Hi|auto]. }
      exists (sub f (strip (sr_rhs r))). split; [assumption|]. apply par_rule with (s := s2); assumption.
    - destruct (srule_eq_dec r r') as [<-|Hne].
      + assert (ts2 = []) as ->.
        { apply Forall2_len in Hi, Hi0. rewrite app_length in Hi. destruct ts2; [reflexivity|cbn in Hi; lia]. }
        inversion Hts2; subst. cbn [apps]. rewrite app_nil_r in *.
        destruct (rhs_join r s0' s1 Hsc) as (f & Hf1 & Hf2).
        { intros m Hm. apply (IH (s m)); auto; [eapply insts_size; [exact Hi|auto]|].
          rewrite (insts_agree _ _ _ _ Hi Hi0) by auto. apply Hs0. }
        exists (sub f (strip (sr_rhs r))). split; [assumption|]. apply par_sub; [apply par_refl|assumption].
      + destruct (proj2 (Hov c r' Hr') eq_refl Hne) as [Hd|[Hlen Hsame]].
        * exfalso. apply Hd with (s1 := s) (s2 := s0) (ts := ts1).
          -- apply Forall2_len in Hi, Hi0. rewrite app_length in Hi. lia.
          -- pose proof (Forall2_firstn _ _ _ (length (sr_args r')) Hi) as H.
             rewrite (Forall2_len _ _ _ Hi0), firstn_app, Nat.sub_diag, firstn_all, app_nil_r in H.
             rewrite (Forall2_len _ _ _ Hi0). exact H.
          -- exact Hi0.
        * assert (ts2 = []) as ->.
          { apply Forall2_len in Hi, Hi0. rewrite app_length in Hi. destruct ts2; [reflexivity|cbn in Hi; lia]. }
          inversion Hts2; subst. cbn [apps]. rewrite app_nil_r in *. destruct (Hor c r' Hr') as (Hlin' & Hsc' & Hov').
          assert (Hu' : forall m, In m (flat_map pat_vars (sr_args r')) -> m < sr_vars r') by (destruct Hr' as (rs & _ & _ & Hu'); apply Hu').
          destruct (insts_step _ _ _ _ Hi Hs) as (vs1 & V1 & V2). destruct (insts_step _ _ _ _ Hi0 Hs0) as (vs2 & W1 & W2).
          assert (exists ws, Forall2 par vs1 ws /\ Forall2 par vs2 ws) as (ws & X1 & X2).
          { assert (IH' : forall t, In t ts1 -> forall t1 t2, par t t1 -> par t t2 -> joins t1 t2) by (intros t Ht; apply IH, size_apps; exact Ht).
            clear - V2 W2 IH'. revert vs2 W2. induction V2 as [|t v ts vs Hv _ IHV]; intros vs2 W2; inversion W2 as [|? w ? ws0 Hw Hws]; subst.
            - exists []. split; constructor.
            - destruct (IH' t (or_introl eq_refl) _ _ Hv Hw) as (z & Z1 & Z2). destruct (IHV (fun u Hu => IH' u (or_intror Hu)) _ Hws) as (zs & ? & ?).
              exists (z :: zs). split; constructor; assumption. }
          destruct (insts_par (sr_args r) s1 vs1 ws V1 Hlin) as (f1 & F1 & F2); [|exact X1|].
          { intros p Hin c2 qs r2 Hsub Hr2. apply (proj1 (Hov c2 r2 Hr2) p qs Hin Hsub). }
          destruct (insts_par (sr_args r') s0' vs2 ws W1 Hlin') as (f2 & G1 & G2); [|exact X2|].
          { intros p Hin c2 qs r2 Hsub Hr2. apply (proj1 (Hov' c2 r2 Hr2) p qs Hin Hsub). }
          exists (sub f1 (strip (sr_rhs r))). split; [apply par_sub; [apply par_refl|exact F2]|].
          rewrite (Hsame f1 f2 ws F1 G1). apply par_sub; [apply par_refl|exact G2].
  Qed.

  Lemma joins_sym t u : joins t u -> joins u t.
  Proof. intros (v & ? & ?). exists v. auto. Qed.

  Lemma par_ulam_inv t u : par (ULam t) u -> exists t', u = ULam t' /\ par t t'.
  Proof.
    intros H. inversion H; subst; eauto.
    destruct (apps_const_cases c ts) as [[-> E]|(vs & v & -> & E)]; rewrite E in *; discriminate.
  Qed.
  (** a parallel step from a term that is not an application either is by a rule or goes inside *)
  Definition is_rule (t t' : tm) : Prop := exists c r s s' ts, t = apps (Const c) ts /\ t' = sub s' (strip (sr_rhs r)) /\
    rule_of sg c r /\ Forall2 (inst s) (sr_args r) ts /\ forall m, par (s m) (s' m).
  Definition is_struct (t t' : tm) : Prop :=
    match t with
    | App t u => (exists t1 u1, t' = App t1 u1 /\ par t t1 /\ par u u1) \/
                 (exists b b1 u1, t = ULam b /\ t' = subst1 u1 b1 /\ par b b1 /\ par u u1)
    | Lam a t => exists a1 t1, t' = Lam a1 t1 /\ par a a1 /\ par t t1
    | ULam t => exists t1, t' = ULam t1 /\ par t t1
    | Pi a t => exists a1 t1, t' = Pi a1 t1 /\ par a a1 /\ par t t1
    | t => t' = t
    end.
  Lemma par_inv t t' : par t t' -> is_rule t t' \/ is_struct t t'.
  Proof.
    intros H. inversion H; subst; try (right; cbn; eauto 10; fail).
    left. exists c, r, s, s', ts. auto.
  Qed.

  Lemma diamond : forall n t, size t < n -> forall t1 t2, par t t1 -> par t t2 -> joins t1 t2.
  Proof.
    induction n as [|n IH]; [intros; lia|]. intros t Hn t1 t2 H1 H2.
    destruct (par_inv _ _ H1) as [(c & r & s & s1 & ts & -> & -> & Hr & Hi & Hs)|S1].
    { eapply rule_diamond; try eassumption. intros u Hu. apply IH. lia. }
    destruct (par_inv _ _ H2) as [(c & r & s & s1 & ts & -> & -> & Hr & Hi & Hs)|S2].
    { apply joins_sym. eapply rule_diamond; try eassumption. intros u Hu. apply IH. lia. }
    destruct t as [| |c|x|t u|a t|t|a t]; cbn in S1, S2, Hn; try (subst; exists t1; subst; split; apply par_refl); try (subst; eexists; split; apply par_refl).
    - destruct S1 as [(a1 & u1 & -> & Ha1 & Hu1)|(b & b1 & u1 & -> & -> & Hb1 & Hu1)];
      destruct S2 as [(a2 & u2 & -> & Ha2 & Hu2)|(b' & b2 & u2 & E & -> & Hb2 & Hu2)].
      + destruct (IH t) with (t1 := a1) (t2 := a2) as (v & ? & ?); auto; [lia|].
        destruct (IH u) with (t1 := u1) (t2 := u2) as (w & ? & ?); auto; [lia|]. exists (App v w). eauto using par_app, par_lam, par_ulam, par_pi.
      + subst t. destruct (par_ulam_inv _ _ Ha1) as (b1 & -> & Hb1). cbn in Hn.
        destruct (IH b') with (t1 := b1) (t2 := b2) as (v & ? & ?); auto; [lia|].
        destruct (IH u) with (t1 := u1) (t2 := u2) as (w & ? & ?); auto; [lia|]. exists (subst1 w v). eauto using par_beta, par_subst1.
      + destruct (par_ulam_inv _ _ Ha2) as (b2 & -> & Hb2). cbn in Hn.
        destruct (IH b) with (t1 := b1) (t2 := b2) as (v & ? & ?); auto; [lia|].
        destruct (IH u) with (t1 := u1) (t2 := u2) as (w & ? & ?); auto; [lia|]. exists (subst1 w v). eauto using par_beta, par_subst1.
      + injection E as <-. cbn in Hn.
        destruct (IH b) with (t1 := b1) (t2 := b2) as (v & ? & ?); auto; [lia|].
        destruct (IH u) with (t1 := u1) (t2 := u2) as (w & ? & ?); auto; [lia|]. exists (subst1 w v). auto using par_subst1.
    - destruct S1 as (a1 & b1 & -> & ? & ?). destruct S2 as (a2 & b2 & -> & ? & ?).
      destruct (IH a) with (t1 := a1) (t2 := a2) as (v & ? & ?); auto; [lia|].
      destruct (IH t) with (t1 := b1) (t2 := b2) as (w & ? & ?); auto; [lia|]. exists (Lam v w). eauto using par_app, par_lam, par_ulam, par_pi.
    - destruct S1 as (b1 & -> & ?). destruct S2 as (b2 & -> & ?).
      destruct (IH t) with (t1 := b1) (t2 := b2) as (w & ? & ?); auto; [lia|]. exists (ULam w). eauto using par_app, par_lam, par_ulam, par_pi.
    - destruct S1 as (a1 & b1 & -> & ? & ?). destruct S2 as (a2 & b2 & -> & ? & ?).
      destruct (IH a) with (t1 := a1) (t2 := a2) as (v & ? & ?); auto; [lia|].
      destruct (IH t) with (t1 := b1) (t2 := b2) as (w & ? & ?); auto; [lia|]. exists (Pi v w). eauto using par_app, par_lam, par_ulam, par_pi.
  Qed.

  Lemma par_reds_join t u : reds t u -> forall t', par t t' -> exists v, reds t' v /\ par u v.
  Proof.
    induction 1 as [t|t u v Hr Hrs IH]; intros t' Hp; [exists t'; split; [apply reds_refl|assumption]|].
    destruct (diamond (S (size t)) t (Nat.lt_succ_diag_r _) t' u Hp (red_par _ _ Hr)) as (w & H1 & H2).
    destruct (IH _ H2) as (z & H3 & H4). exists z. split; [|assumption]. eapply reds_trans; [apply par_reds; exact H1|exact H3].
  Qed.
  Lemma confluent t u : reds t u -> forall t', reds t t' -> exists v, reds u v /\ reds t' v.
  Proof.
    intros Hu t' Ht. revert u Hu. induction Ht as [t|t t1 t' Hr Hrs IH]; intros u Hu; [exists u; split; [apply reds_refl|assumption]|].
    destruct (par_reds_join _ _ Hu _ (red_par _ _ Hr)) as (w & H1 & H2).
    destruct (IH _ H1) as (z & H3 & H4). exists z. split; [|assumption]. eapply reds_trans; [apply par_reds; exact H2|exact H3].
  Qed.

End Confl.
