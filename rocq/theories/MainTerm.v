(** * Termination of evaluation and comparison *)

From Coq Require Import List Arith Lia Bool.
From Verif Require Import Base ModelTerm ModelGctx ModelCommand ModelSubst ModelReduce ModelInfer
  SpecTerm SpecConv SpecConvFacts SpecWhnf SpecRed SpecSN RedConfl RedSN Erase RefMachine RefSafe RefRed SimReduce MainKernel MainConv
  TotReduce TotConv TotEta.
Import ListNotations.

Lemma run_whnf_cases uniq gc n t : (exists t', run (whnf uniq gc n t) = Ok t') \/ run (whnf uniq gc n t) = Fuel.
Proof.
  pose proof (run_simm _ _ _ _ (whnf_sim uniq gc n t)) as H. pose proof (r_whnf_safe (er_gctx gc) n (ers t) []) as Hs.
  red in Hs. destruct (run (whnf uniq gc n t)); eauto; rewrite H in Hs; destruct Hs.
Qed.
Lemma run_convertible_cases uniq gc n t u :
  (exists b, run (convertible uniq gc n t u) = Ok b) \/ run (convertible uniq gc n t u) = Fuel.
Proof.
  pose proof (run_simm _ _ _ _ (convertible_sim uniq gc n t u)) as H.
  pose proof (r_conv_safe (er_gctx gc) n [(ers t, ers u)] []) as Hs.
  red in Hs. unfold r_convertible in H. destruct (run (convertible uniq gc n t u)); eauto; rewrite H in Hs; destruct Hs.
Qed.

Lemma main_whnf_returns uniq gc t : left_linear (er_gctx gc) -> strongly_normalising (er_gctx gc) (ers t) ->
  exists n0 t', forall n, n0 <= n -> run (whnf uniq gc n t) = Ok t'.
Proof.
  intros Hl Hs. destruct (tot_run _ (whnf_tot uniq gc Hl t (MSt [] 0) Hs)) as (n0 & r & Hr & H).
  destruct (run_whnf_cases uniq gc n0 t) as [[t' E]|E]; [|rewrite H in E by apply le_n; contradiction].
  exists n0, t'. intros n Hn. rewrite (H n Hn), <- (H n0 (le_n _)). exact E.
Qed.
Lemma main_whnf_reduces uniq gc n t t' : left_linear (er_gctx gc) -> run (whnf uniq gc n t) = Ok t' ->
  reds (er_gctx gc) (strip (ers t)) (strip (ers t')).
Proof.
  intros Hl H. apply run_whnf_ref in H. destruct H as [h H]. eapply r_whnf_red; [exact Hl|exact H].
Qed.
Lemma main_convertible_returns uniq gc t u : left_linear (er_gctx gc) -> eta_safe (er_gctx gc) ->
  strongly_normalising (er_gctx gc) (ers t) -> strongly_normalising (er_gctx gc) (ers u) ->
  exists n0 b, forall n, n0 <= n -> run (convertible uniq gc n t u) = Ok b.
Proof.
  intros Hl He Ht Hu. destruct (tot_run _ (convertible_tot_safe uniq gc Hl He t u (MSt [] 0) Ht Hu (hinv_empty 0))) as (n0 & r & Hr & H).
  destruct (run_convertible_cases uniq gc n0 t u) as [[b E]|E]; [|rewrite H in E by apply le_n; contradiction].
  exists n0, b. intros n Hn. rewrite (H n Hn), <- (H n0 (le_n _)). exact E.
Qed.
Lemma main_convertible_decides uniq gc t u : left_linear (er_gctx gc) -> orthogonal (er_gctx gc) -> eta_safe (er_gctx gc) ->
  strongly_normalising (er_gctx gc) (ers t) -> strongly_normalising (er_gctx gc) (ers u) ->
  exists n0 b, (forall n, n0 <= n -> run (convertible uniq gc n t u) = Ok b) /\ (b = true <-> conv (er_gctx gc) (ers t) (ers u)).
Proof.
  intros Hl Ho He Ht Hu. destruct (main_convertible_returns uniq gc t u Hl He Ht Hu) as (n0 & b & H).
  exists n0, b. split; [exact H|]. eapply main_convertible_iff; [exact Ho|exact He|]. apply (H n0). apply le_n.
Qed.

(** ** A rule that loops *)
Section Loop.
  Variables (sg : sig) (f : nat).
  Hypothesis Hf : sg_rules sg f = Some [MkSRule 1 [PatVar 0] (App (Const f) (Var 0))].
  Lemma loop_head n cv ctx l h : (forall ctx v h, r_state_whnf sg n (RState ctx (App (Const f) v) []) h = Fuel) ->
    r_head sg n (r_state_whnf sg n) cv ctx (Const f) [l] h = Fuel.
  Proof. intros H. unfold r_head. rewrite Hf. cbn -[r_state_whnf]. unfold bind. cbn -[r_state_whnf]. apply H. Qed.
  Lemma loop_state n : forall ctx v h, r_state_whnf sg n (RState ctx (App (Const f) v) []) h = Fuel.
  Proof.
    induction n as [|n IH]; intros ctx v h; [reflexivity|]. cbn [r_state_whnf]. unfold bind at 1. cbn [r_unwind rs_ctx rs_term rs_stack].
    unfold bind at 1. cbn [r_from_ctx_term r_alloc ret]. apply loop_head. exact IH.
  Qed.
  Lemma loop_whnf n v h : r_whnf sg n (App (Const f) v) h = Fuel.
  Proof. unfold r_whnf, r_whnf_, r_fresh, bind. rewrite loop_state. reflexivity. Qed.
  Lemma conv_loop_S n t u cns : t <> u -> r_conv_loop sg (S n) ((t, u) :: cns) =
    bind (r_whnf sg n t) (fun t => bind (r_whnf sg n u) (fun u =>
      match r_step (sg_eta sg) t u with None => ret false | Some new => r_conv_loop sg n (new ++ cns) end)).
  Proof.
    intros H. change (r_conv_loop sg (S n) ((t, u) :: cns)) with
      (if tm_eq_dec t u then r_conv_loop sg n cns else bind (r_whnf sg n t) (fun t => bind (r_whnf sg n u) (fun u =>
      match r_step (sg_eta sg) t u with None => ret false | Some new => r_conv_loop sg n (new ++ cns) end))).
    destruct (tm_eq_dec t u); [contradiction|reflexivity].
  Qed.
  Lemma loop_conv n c cns h : (sg_rules sg c = None \/ sg_rules sg c = Some []) -> r_conv_loop sg n ((Const c, App (Const f) (Var 0)) :: cns) h = Fuel.
  Proof.
    intros Hc. destruct n as [|n]; [reflexivity|]. rewrite conv_loop_S by discriminate.
    destruct n as [|n]; [reflexivity|].
    assert (E : r_whnf sg (S n) (Const c) h = Ok (Const c, h)).
    { unfold r_whnf, r_whnf_, r_fresh, bind. cbn [r_state_whnf]. unfold bind. cbn [r_unwind rs_ctx rs_term rs_stack ret r_head].
      destruct Hc as [Hc|Hc]; rewrite Hc; reflexivity. }
    unfold bind at 1. rewrite E. unfold bind at 1.
    rewrite loop_whnf. reflexivity.
  Qed.
  Lemma loop_eta n c h : sg_eta sg = true -> (sg_rules sg c = None \/ sg_rules sg c = Some []) ->
    r_conv_loop sg n [(Const f, ULam (Const c))] h = Fuel.
  Proof.
    intros He Hc. destruct n as [|n]; [reflexivity|]. rewrite conv_loop_S by discriminate. destruct n as [|n]; [reflexivity|].
    assert (E : r_whnf sg (S n) (Const f) h = Ok (Const f, h)).
    { unfold r_whnf, r_whnf_, r_fresh, bind. cbn [r_state_whnf]. unfold bind. cbn [r_unwind rs_ctx rs_term rs_stack ret r_head].
      rewrite Hf. reflexivity. }
    unfold bind at 1. rewrite E. unfold bind at 1.
    change (r_whnf sg (S n) (ULam (Const c)) h) with (Ok (A := tm * heap) (E := kerror) (ULam (Const c), h)).
    cbn [r_step lam_body]. rewrite He. change (lift 1 (Const f)) with (Const f). cbn [app]. unfold r_shift_app. cbn [lift]. apply loop_conv. exact Hc.
  Qed.
End Loop.

Lemma loop_whnf_fuel uniq gc f n t v : sg_rules (er_gctx gc) f = Some [MkSRule 1 [PatVar 0] (App (Const f) (Var 0))] ->
  ers t = App (Const f) v -> run (whnf uniq gc n t) = Fuel.
Proof.
  intros Hf Et. destruct (run_whnf_cases uniq gc n t) as [[t' E]|E]; [|exact E].
  apply run_whnf_ref in E. destruct E as [h E]. rewrite Et, (loop_whnf _ _ Hf) in E. discriminate.
Qed.
Lemma loop_eta_fuel uniq gc f c n t u : sg_rules (er_gctx gc) f = Some [MkSRule 1 [PatVar 0] (App (Const f) (Var 0))] ->
  g_eta gc = true -> (sg_rules (er_gctx gc) c = None \/ sg_rules (er_gctx gc) c = Some []) ->
  ers t = Const f -> ers u = ULam (Const c) -> run (convertible uniq gc n t u) = Fuel.
Proof.
  intros Hf He Hc Et Eu. destruct (run_convertible_cases uniq gc n t u) as [[t' E]|E]; [|exact E].
  apply run_convertible_ref in E. destruct E as [h E]. unfold r_convertible in E.
  rewrite Et, Eu, (loop_eta _ _ Hf n c [] He Hc) in E. discriminate.
Qed.
