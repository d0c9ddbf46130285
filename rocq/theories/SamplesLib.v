(** * Sample program with an ill-typed rule *)

From Verif Require Import Base ModelTerm ModelGctx ModelCommand ModelSubst ModelReduce ModelInfer ModelSyntax ModelSymbols ModelShare ModelParse ModelProcess ModelMain ModelLib
  SpecTerm SpecConv SpecConvFacts SpecTyping SpecRed SpecBidir SpecProcess SpecLib RedConfl EtaConfl Erase TypeFacts DomUnique MainVerify MainTyped Samples SamplesProcess.

(** [Nat : Type. def f : Nat -> Nat. \[x : Nat\] f x --> Nat.] *)
Definition ill_commands : list ModelSyntax.scoped :=
  [ PIntro ($"Nat") [] (IDeclaration false p_type);
    PIntro ($"f") [] (IDefinition (Some (p_arr pNAT pNAT)) None);
    PRules [ MkPRule [($"x", Some pNAT)] (p_app (local ($"f")) [p_var 0]) pNAT ] ].

Lemma no_rules_orthogonal sg : (forall c rs, sg_rules sg c = Some rs -> rs = []) -> orthogonal sg.
Proof. intros H c r (rs & Hr & Hin & _). rewrite (H _ _ Hr) in Hin. destruct Hin. Qed.
Lemma no_rules_const sg c v : (forall c rs, sg_rules sg c = Some rs -> rs = []) -> reds sg (Const c) v -> v = Const c.
Proof.
  intros H Hv. remember (Const c) as t eqn:Et. induction Hv as [|t u v Hr _ _]; [reflexivity|]. exfalso. subst t.
  remember (Const c) as t eqn:Et. destruct Hr; try discriminate. rewrite (H _ _ H0) in H1. destruct H1.
Qed.
Lemma lib_rules_refuted : exists cmds st,
  lib_check (real_kernel (fun _ => shared) fuel) cmds lib_new = (st, Ok tt) /\
  snd (infer_checks_seq unit (real_kernel (fun _ => shared) fuel) (Opts false None false) _ (consume_item unit (Opts false None false))
    (map (fun c => Ok (EvCommand c)) cmds) (pst_new (Opts false None false))) = Err (PKo (KoTyping Unconvertible)) /\
  forall sg', ~ exists cs, share_results (map EvCommand cmds) lib_new = map Ok cs /\ verified_all (empty_sig false) (map er_cmd cs) sg'.
Proof.
  exists ill_commands. eexists. split; [vm_compute; reflexivity|]. split; [vm_compute; reflexivity|]. intros sg' (cs & Hs & Hv).
  let x := eval vm_compute in (share_results (map EvCommand ill_commands) lib_new) in change (share_results (map EvCommand ill_commands) lib_new) with x in Hs.
  destruct cs as [|c1 [|c2 [|c3 [|]]]]; try discriminate. cbn [map] in Hs. injection Hs as <- <- <-. cbn in Hv.
  inversion Hv as [|? ? sg1 ? ? V1 Hv1]; subst. inversion Hv1 as [|? ? sg2 ? ? V2 Hv2]; subst. inversion Hv2 as [|? ? sg3 ? ? V3 _]; subst. clear Hv Hv1 Hv2.
  inversion V1 as [? ? ? ? ? _ _ E1| | | | |]; subst. inversion V2 as [|? ? ? ? _ _ E2| | | |]; subst. inversion V3 as [| | | | |? ? P3 _]; subst.
  destruct E1 as (_ & T1 & R1 & Eta1), E2 as (_ & T2 & R2 & Eta2).
  assert (Hr : forall c rs, sg_rules sg2 c = Some rs -> rs = []).
  { intros c rs. rewrite R2. destruct (c =? 1); [intros [= <-]; reflexivity|]. rewrite R1. destruct (c =? 0); discriminate. }
  assert (Ht0 : sg_type sg2 0 = Some Typ) by (rewrite T2, T1; reflexivity).
  assert (Ht1 : sg_type sg2 1 = Some (Pi (Const 0) (Const 0))) by (rewrite T2; reflexivity).
  assert (He : sg_eta sg2 = false) by (rewrite Eta2, Eta1; reflexivity).
  pose proof (orthogonal_church_rosser _ (no_rules_orthogonal _ Hr) He) as Hcr. pose proof (orthogonal_pi _ (no_rules_orthogonal _ Hr) He) as Hpi.
  inversion P3 as [|? ? P _]; subst. destruct (P [Const 0] eq_refl eq_refl) as (lhs & ty & Hi & H1 & H2). clear P3 P V1 V2 V3.
  cbn in Hi. inversion Hi; subst. match goal with H : Forall2 _ _ _ |- _ => inversion H; subst end. match goal with H : Forall2 _ [] _ |- _ => inversion H; subst end. match goal with H : inst _ (PatVar _) _ |- _ => inversion H; subst end.
  cbn in H1, H2.
  assert (C1 : conv sg2 (Const 0) ty).
  { refine (infers_unique sg2 Hpi [Const 0] (App (Const 1) (Var 0)) (Const 0) _ ty H1).
    refine (inf_app sg2 [Const 0] (Const 1) (Var 0) (Pi (Const 0) (Const 0)) (Const 0) (Const 0) _ _ _); [constructor; exact Ht1|apply conv_refl|].
    eapply chk_infer; [apply (inf_var sg2 [Const 0] 0 (Const 0)); reflexivity|apply conv_refl]. }
  assert (C2 : conv sg2 Typ ty).
  { refine (infers_unique sg2 Hpi [Const 0] (Const 0) Typ _ ty H2). constructor. exact Ht0. }
  destruct (Hcr (Const 0) Typ) as (v & V1 & V2); [eapply conv_trans; [exact C1|apply conv_sym; exact C2]|]. cbn [strip] in V1, V2.
  apply (redxs_reds _ _ _ He) in V1, V2. apply no_rules_const in V1; [|exact Hr]. apply reds_sort in V2; [|auto]. congruence.
Qed.
