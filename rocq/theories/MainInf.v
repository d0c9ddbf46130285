(** * Evaluation that does not terminate: the tower of successors (C74) *)

From Verif Require Import Base LibMono ModelTerm ModelGctx ModelCommand ModelSubst ModelReduce ModelInfer
  SpecTerm SpecConv SpecConvFacts SpecWhnf SpecRed SpecSN RedConfl EtaConfl RedStuck Erase RefMachine RefMono RefSafe RefRed RefStuck RefInfer SimReduce MainKernel MainConv MainTerm.

Section Tower.
  (** successor, infinity, the function that searches zero *)
  Variables (sg : sig) (s i z : nat).
  Hypothesis Hs : sg_rules sg s = None.
  Hypothesis Hi : sg_rules sg i = Some [MkSRule 0 [] (App (Const s) (Const i))].
  Hypothesis Hz : sg_rules sg z = Some [MkSRule 1 [PatSymb s [PatVar 0]] (App (Const z) (Var 0))].
  Hypothesis Hl : left_linear sg.
  Hypothesis Hcr : church_rosser sg.
  Hypothesis He : sg_eta sg = false.

  Definition tower (k : nat) : tm := Nat.iter k (App (Const s)) (Const i).

  Lemma const_red c u : red sg (Const c) u -> exists rs r f, sg_rules sg c = Some rs /\ In r rs /\ Forall2 (inst f) (sr_args r) [] /\ u = sub f (strip (sr_rhs r)).
  Proof.
    intros H. inversion H as [|c' rs r f ts H1 H2 H3 H4 E| | | | | | |]; subst. destruct (apps_const_cases c' ts) as [[-> E']|(? & ? & -> & E')]; rewrite E' in E; [|discriminate].
    injection E as ->. exists rs, r, f. auto.
  Qed.
  Lemma tower_red k : forall u, red sg (tower k) u -> exists k', u = tower k'.
  Proof.
    induction k as [|k IH]; intros u H.
    - apply const_red in H as (rs & r & f & H1 & H2 & _ & ->). rewrite Hi in H1. injection H1 as <-. destruct H2 as [<-|[]]. exists 1. reflexivity.
    - change (tower (S k)) with (App (Const s) (tower k)) in H. inversion H as [|c rs r f ts H1 H2 H3 H4 E|? ? ? H1|? ? ? H1| | | | |]; subst.
      + destruct (apps_const_cases c ts) as [[-> E']|(ts' & t' & -> & E')]; rewrite E' in E; [discriminate|]. injection E as E _.
        destruct (apps_const_cases c ts') as [[-> E2]|(? & ? & -> & E2)]; rewrite E2 in E; [|discriminate]. injection E as ->. congruence.
      + apply const_red in H1 as (rs & ? & ? & H1 & _). congruence.
      + apply IH in H1 as (k' & ->). exists (S k'). reflexivity.
  Qed.
  Lemma tower_reds k u : reds sg (tower k) u -> exists k', u = tower k'.
  Proof. intros H. remember (tower k) as t eqn:E. revert k E. induction H as [t|t v u H1 H2 IH]; intros k ->; [eauto|]. apply tower_red in H1 as (k' & ->). eauto. Qed.
  Lemma tower_up k : reds sg (tower k) (tower (S k)).
  Proof.
    induction k as [|k IH].
    - eapply reds_step; [|constructor]. refine (red_rule sg i _ _ (fun _ => Typ) [] Hi (or_introl eq_refl) _ _); [intros m; cbn; lia|constructor].
    - change (tower (S (S k))) with (App (Const s) (tower (S k))). change (tower (S k)) with (App (Const s) (tower k)) at 1.
      clear -IH. induction IH; [constructor|]. eapply reds_step; [apply red_appr; eassumption|assumption].
  Qed.
  Lemma inst_succ f t : inst f (PatSymb s [PatVar 0]) t -> t = App (Const s) (f 0).
  Proof. intros H. inversion H as [| |? ? us Hus]; subst. inversion Hus as [|? ? ? ? Hy Hn]; subst. inversion Hn; subst. inversion Hy; subst. reflexivity. Qed.
  Lemma search_red k u : red sg (App (Const z) (tower k)) u -> exists k', u = App (Const z) (tower k').
  Proof.
    intros H. inversion H as [|c rs r f ts H1 H2 H3 H4 E|? ? ? H1|? ? ? H1| | | | |]; subst.
    - destruct (apps_const_cases c ts) as [[-> E']|(ts' & t' & -> & E')]; rewrite E' in E; [discriminate|]. injection E as E Et.
      destruct (apps_const_cases c ts') as [[-> E2]|(? & ? & -> & E2)]; rewrite E2 in E; [|discriminate]. injection E as ->. cbn [app] in *.
      rewrite Hz in H1. injection H1 as <-. destruct H2 as [<-|[]]. cbn [sr_args sr_rhs] in *. inversion H4 as [|? ? ? ? Hx _]; subst. apply inst_succ in Hx.
      destruct k as [|k]; [discriminate|]. change (tower (S k)) with (App (Const s) (tower k)) in Hx. injection Hx as Hx. exists k. cbn. rewrite <- Hx. reflexivity.
    - apply const_red in H1 as (rs & r & ? & H1 & H2 & H3 & _). rewrite Hz in H1. injection H1 as <-. destruct H2 as [<-|[]]. inversion H3.
    - apply tower_red in H1 as (k' & ->). eauto.
  Qed.
  Lemma search_reds k u : reds sg (App (Const z) (tower k)) u -> exists k', u = App (Const z) (tower k').
  Proof. intros H. remember (App (Const z) (tower k)) as t eqn:E. revert k E. induction H as [t|t v u H1 H2 IH]; intros k ->; [eauto|]. apply search_red in H1 as (k' & ->). eauto. Qed.
  Lemma strip_tower k : strip (tower k) = tower k.
  Proof. induction k as [|k IH]; [reflexivity|]. change (tower (S k)) with (App (Const s) (tower k)). cbn [strip]. rewrite IH. reflexivity. Qed.

  (** There is no weak head normal form. *)
  Lemma search_stuck k : ~ stuck sg (App (Const z) (tower k)).
  Proof.
    intros H. inversion H as [h us Hr E| |]; subst.
    assert (Hh : h = Const z /\ us = [tower k]).
    { assert (N : not_app h) by (destruct h; cbn in *; auto). apply (fun H1 H2 => apps_inj us [tower k] h (Const z) H1 H2 E); [exact N|exact I]. }
    destruct Hh as [-> ->]. cbn [strip rigid map] in Hr. rewrite strip_tower in Hr. cbn in Hr.
    refine (Hr [tower (S k)] _ (MkSRule 1 [PatSymb s [PatVar 0]] (App (Const z) (Var 0))) _ _).
    - constructor; [apply tower_up|constructor].
    - eexists. split; [exact Hz|]. split; [left; reflexivity|]. intros m. cbn. lia.
    - exists (fun _ => tower k), [tower (S k)], []. split; [reflexivity|]. constructor; [|constructor]. change (tower (S k)) with (apps (Const s) [tower k]). constructor. constructor; [|constructor]. exact (inst_var (fun _ => tower k) 0).
  Qed.
  Lemma search_whnf n k h : r_whnf sg n (App (Const z) (tower k)) h = Fuel.
  Proof.
    pose proof (r_whnf_safe sg n (App (Const z) (tower k)) h) as S. red in S.
    destruct (r_whnf sg n (App (Const z) (tower k)) h) as [[t' h']| | |] eqn:E; try (exfalso; exact S); [|reflexivity]. exfalso.
    pose proof (r_whnf_red sg Hl _ _ _ _ _ E) as Hr. pose proof (r_whnf_stuck sg Hcr (eta_off_safe sg He) _ _ _ _ _ E) as Hk.
    change (strip (App (Const z) (tower k))) with (App (Const z) (strip (tower k))) in Hr. rewrite strip_tower in Hr. apply search_reds in Hr as (k' & Hr).
    assert (Ht : t' = App (Const z) (tower k')).
    { destruct t'; try discriminate. cbn in Hr. injection Hr as H1 H2. destruct t'1; try discriminate. injection H1 as ->. f_equal. clear -H2. revert t'2 H2.
      induction k' as [|k' IH]; intros t H; [destruct t; try discriminate; exact H|]. change (tower (S k')) with (App (Const s) (tower k')) in *. destruct t; try discriminate. cbn in H. injection H as H1 H2. destruct t1; try discriminate. injection H1 as ->. f_equal. auto. }
    subst t'. exact (search_stuck k' Hk).
  Qed.

  (** Types that depend on it are not compared in finite time. *)
  Variable d : nat.
  Hypothesis Hd : sg_rules sg d = None.
  Lemma dep_whnf n a h : r_whnf sg (S (S n)) (App (Const d) a) h = Ok (App (Const d) a, h) \/ r_whnf sg (S (S n)) (App (Const d) a) h = Fuel.
  Proof.
    unfold r_whnf, r_whnf_, r_fresh, bind. cbn [r_state_whnf]. unfold bind. cbn [r_unwind rs_ctx rs_term rs_stack]. unfold bind. cbn [r_from_ctx_term r_alloc ret r_head rs_ctx].
    unfold r_head. rewrite Hd. cbn. auto.
  Qed.
  Lemma search_conv n k l cns h : k <> l -> r_conv_loop sg n ((App (Const z) (tower k), App (Const z) (tower l)) :: cns) h = Fuel.
  Proof.
    intros Hk. destruct n as [|n]; [reflexivity|]. rewrite conv_loop_S; [|]. 
    - unfold bind at 1. rewrite search_whnf. reflexivity.
    - intros [= E]. apply Hk. clear -E. revert l E. induction k as [|k IH]; intros [|l] E; try discriminate; [reflexivity|]. f_equal. apply IH. injection E as E. exact E.
  Qed.
  Lemma dep_conv n k l h : k <> l -> r_convertible sg n (App (Const d) (App (Const z) (tower k))) (App (Const d) (App (Const z) (tower l))) h = Fuel.
  Proof.
    intros Hk. unfold r_convertible. destruct n as [|n]; [reflexivity|]. rewrite conv_loop_S.
    2:{ intros [= E]. apply Hk. clear -E. revert l E. induction k as [|k IH]; intros [|l] E; try discriminate; [reflexivity|]. f_equal. apply IH. injection E as E. exact E. }
    destruct n as [|[|n]]; [reflexivity| |].
    { unfold bind at 1. destruct (r_whnf_mono sg 1 2 (App (Const d) (App (Const z) (tower k))) ltac:(lia) h) as [E|E]; rewrite E; [reflexivity|].
      destruct (dep_whnf 0 (App (Const z) (tower k)) h) as [E2|E2]; rewrite E2; [|reflexivity].
      unfold bind at 1. destruct (r_whnf_mono sg 1 2 (App (Const d) (App (Const z) (tower l))) ltac:(lia) h) as [F|F]; rewrite F; [reflexivity|].
      destruct (dep_whnf 0 (App (Const z) (tower l)) h) as [F2|F2]; rewrite F2; [|reflexivity].
      cbn [r_step lam_body spine length Nat.eqb combine rev app]. apply search_conv. exact Hk. }
    unfold bind at 1. destruct (dep_whnf n (App (Const z) (tower k)) h) as [E2|E2]; rewrite E2; [|reflexivity].
    unfold bind at 1. destruct (dep_whnf n (App (Const z) (tower l)) h) as [F2|F2]; rewrite F2; [|reflexivity].
    cbn [r_step lam_body spine length Nat.eqb combine rev app]. apply search_conv. exact Hk.
  Qed.
End Tower.
