(** * Sample context in which all commands terminate: numbers with addition, and vectors *)

From Verif Require Import Base ModelTerm ModelGctx ModelCommand ModelSubst ModelReduce ModelInfer ModelProcess
  SpecTerm SpecConv SpecConvFacts SpecRed SpecSN SpecType SpecQuery SpecDomain SpecTotal RedConfl EtaConfl Erase RedCheck RedEnum MainConv MainTerm MainTyped
  TypeFacts DomFacts SnVec MainTotal Samples SamplesConv SamplesTerm.

(** [4: vec, 5: nil, 6: cons] *)
Definition vec_gc : gctx := fst (ghist gctx_new
  [ OInsert 0 (typing_new LType None) false;
    OInsert 1 (typing_new NAT None) false;
    OInsert 2 (typing_new (larr NAT NAT) None) false;
    OInsert 3 (typing_new (larr NAT (larr NAT NAT)) None) true;
    OAddRule plus_zero;
    OAddRule plus_succ;
    OInsert 4 (typing_new (larr NAT LType) None) false;
    OInsert 5 (typing_new (VEC ZERO) None) false;
    OInsert 6 (typing_new (larr NAT (larr NAT (larr (VEC (LVar 1)) (VEC (SUCC (LVar 2)))))) None) false ]).
Notation vec_sg := (er_gctx vec_gc).

Lemma vec_types c A : sg_type vec_sg c = Some A ->
  (c = 0 /\ A = Typ) \/ (c = 1 /\ A = Const 0) \/ (c = 2 /\ A = Pi (Const 0) (Const 0)) \/
  (c = 3 /\ A = Pi (Const 0) (Pi (Const 0) (Const 0))) \/ (c = 4 /\ A = Pi (Const 0) Typ) \/
  (c = 5 /\ A = App (Const 4) (Const 1)) \/
  (c = 6 /\ A = Pi (Const 0) (Pi (Const 0) (Pi (App (Const 4) (Var 1)) (App (Const 4) (App (Const 2) (Var 2)))))).
Proof.
  destruct c as [|[|[|[|[|[|[|c]]]]]]]; vm_compute; intros H; try discriminate; injection H as <-; tauto.
Qed.
Lemma vec_rules c rs : sg_rules vec_sg c = Some rs -> In c [0;1;2;3;4;5;6] /\
  (rs = [] \/ c = 3 /\ rs = [MkSRule 1 [PatSymb 1 []; PatVar 0] (Var 0);
                  MkSRule 2 [PatSymb 2 [PatVar 1]; PatVar 0] (App (Const 2) (App (App (Const 3) (Var 1)) (Var 0)))]).
Proof.
  destruct c as [|[|[|[|[|[|[|c]]]]]]]; vm_compute; intros H; try discriminate; injection H as <-; tauto.
Qed.
Lemma vec_orthogonal : orthogonal vec_sg.
Proof. apply gctx_orthogonal. vm_compute. reflexivity. Qed.
Lemma vec_church_rosser : church_rosser vec_sg.
Proof. apply orthogonal_church_rosser; [exact vec_orthogonal|reflexivity]. Qed.
Lemma vec_pi : pi_injective vec_sg.
Proof. apply orthogonal_pi; [exact vec_orthogonal|reflexivity]. Qed.

Lemma wt_const' c A T G : sg_type vec_sg c = Some A -> strip A = T -> well_typed vec_sg G (Const c) T.
Proof. intros H <-. constructor. exact H. Qed.
Lemma wt_app' G t u A B T : well_typed vec_sg G t (Pi A B) -> well_typed vec_sg G u A -> subst1 u B = T -> well_typed vec_sg G (App t u) T.
Proof. intros H1 H2 <-. eapply wt_app; eassumption. Qed.
Lemma wt_var' G n A T : nth_error G n = Some A -> lift (S n) A = T -> well_typed vec_sg G (Var n) T.
Proof. intros H <-. constructor. exact H. Qed.
Ltac wtc := eapply wt_const'; [reflexivity|reflexivity].
Ltac wtv := eapply wt_var'; [reflexivity|reflexivity].
Ltac wts := first [wtc|wtv|(eapply wt_app'; [wts|wts|reflexivity])].

Lemma vec_good_types : good_types vec_sg.
Proof.
  intros c A H. apply vec_types in H.
  destruct H as [[-> ->]|[[-> ->]|[[-> ->]|[[-> ->]|[[-> ->]|[[-> ->]|[-> ->]]]]]]]; (split; [discriminate|]); cbn [strip].
  - exists Kind. split; [tauto|constructor].
  - exists Typ. split; [tauto|wts].
  - exists Typ. split; [tauto|]. eapply wt_pi; [wts|wts|tauto].
  - exists Typ. split; [tauto|]. eapply wt_pi; [wts| |tauto]. eapply wt_pi; [wts|wts|tauto].
  - exists Kind. split; [tauto|]. eapply wt_pi; [wts|constructor|tauto].
  - exists Typ. split; [tauto|wts].
  - exists Typ. split; [tauto|]. eapply wt_pi; [wts| |tauto]. eapply wt_pi; [wts| |tauto]. eapply wt_pi; [wts|wts|tauto].
Qed.
Lemma vec_good_rules : good_rules vec_sg.
Proof.
  intros c rs r Hrs Hin _. apply vec_rules in Hrs. destruct Hrs as [_ [->|[-> ->]]]; [destruct Hin|].
  destruct Hin as [<-|[<-|[]]].
  - eexists. split; [left; reflexivity|]. split; [repeat constructor|]. exists [Const 0], (App (App (Const 3) (Const 1)) (Var 0)), (Const 0).
    split; [reflexivity|]. split.
    + change (App (App (Const 3) (Const 1)) (Var 0)) with (apps (Const 3) [apps (Const 1) []; Var 0]). repeat constructor.
    + split; [wts|]. cbn. wts.
  - eexists. split; [left; reflexivity|]. split; [repeat constructor|]. exists [Const 0; Const 0], (App (App (Const 3) (App (Const 2) (Var 1))) (Var 0)), (Const 0).
    split; [reflexivity|]. split.
    + change (App (App (Const 3) (App (Const 2) (Var 1))) (Var 0)) with (apps (Const 3) [apps (Const 2) [Var 1]; Var 0]). repeat constructor.
    + split; [wts|]. cbn. wts.
Qed.
Lemma vec_sn : normalising vec_sg.
Proof.
  assert (Hr : forall c rs r s ts, sg_rules vec_sg c = Some rs -> In r rs -> usable r -> Forall2 (inst s) (sr_args r) ts ->
    c = 3 /\ ((exists v, ts = [Const 1; v] /\ sub s (strip (sr_rhs r)) = v) \/
              (exists u v, ts = [App (Const 2) u; v] /\ sub s (strip (sr_rhs r)) = App (Const 2) (App (App (Const 3) u) v)))).
  { intros c rs r s ts Hrs Hin _ Hi. apply vec_rules in Hrs. destruct Hrs as [_ [->|[-> ->]]]; [destruct Hin|].
    split; [reflexivity|]. destruct Hin as [<-|[<-|[]]]; cbn in Hi.
    + left. inversion Hi as [|? t1 ? ts1 P1 P2]; subst. inversion P2 as [|? t2 ? ts2 P3 P4]; subst. inversion P4; subst.
      inversion P1; subst. match goal with H : Forall2 _ [] _ |- _ => inversion H; subst end. inversion P3; subst. eexists. split; reflexivity.
    + right. inversion Hi as [|? t1 ? ts1 P1 P2]; subst. inversion P2 as [|? t2 ? ts2 P3 P4]; subst. inversion P4; subst.
      inversion P1; subst. match goal with H : Forall2 _ [_] _ |- _ => inversion H as [|? u1 ? us1 Q1 Q2]; subst end. inversion Q2; subst. inversion Q1; subst. inversion P3; subst.
      eexists _, _. split; reflexivity. }
  apply vec_normalising; [exact vec_church_rosser|exact vec_pi|exact Hr|].
  - intros c A H. apply vec_types in H.
    destruct H as [[-> ->]|[[-> ->]|[[-> ->]|[[-> ->]|[[-> ->]|[[-> ->]|[-> ->]]]]]]]; cbn [strip].
    + exists star. split; [apply isty_shape; constructor|]. apply RED_nat; try assumption.
    + exists o. split; [apply isty_shape; constructor|]. apply RED_inactive; try assumption; [discriminate|exact I].
    + exists (arr o o). split; [apply isty_shape; repeat constructor|]. apply RED_inactive; try assumption; [discriminate|repeat constructor].
    + exists (arr o (arr o o)). split; [apply isty_shape; repeat constructor|]. apply RED_plus; assumption.
    + exists (arr o star). split; [apply isty_shape; repeat constructor|]. apply RED_vec; assumption.
    + exists o. split; [apply isty_shape; constructor|]. apply RED_inactive; try assumption; [discriminate|exact I].
    + exists (arr o (arr o (arr o o))). split; [apply isty_shape; repeat constructor|]. apply RED_inactive; try assumption; [discriminate|repeat constructor].
Qed.

Lemma vec_terminating : terminating vec_gc.
Proof.
  split; [apply eta_off_safe; reflexivity|apply gctx_left_linear; vm_compute; reflexivity|exact vec_pi|exact vec_good_types|exact vec_good_rules|exact vec_sn].
Qed.

(** [x : vec 2 |- cons (plus 1 1) 0 x : vec 3], where the length is only known after evaluation *)
Definition cons_tm : lterm := lapp (LConst 6) [PLUS (num 1) (num 1); ZERO; LVar 0].
Definition cons_chk : ModelGctx.check := MkTyping [VEC (num 2)] (VEC (num 3)) cons_tm.
Lemma vec_ctx : type_ctx vec_sg (dctx (t_lc cons_chk)).
Proof. repeat constructor. cbn. wts. Qed.
Lemma vec_goal : exists K, well_typed vec_sg (dctx (t_lc cons_chk)) (strip (erl (t_ty cons_chk))) K.
Proof. eexists. cbn. wts. Qed.

(** [x => cons (plus 1 1) 0 x], as a definition *)
Definition cons_def : intro := IDefinition (Some (larr (VEC (num 2)) (VEC (num 3)))) (Some (lulam cons_tm)).
(** [plus x zero --> x] *)
Definition plus_right : rule := MkRule [nat_v] (TopPat 3 [PMVar 0; PSymb 1 []]) (LVar 0).
Lemma plus_right_ctx : cmd_ctx vec_gc (CRules [plus_right]).
Proof. constructor; [|constructor]. intros r' [= <-]. cbn. repeat constructor. cbn. wts. Qed.

(** ** [0: A, 1: F, 2: c, 3: p] with [F : A -> Type], [p : F c] and [F x --> F x]; the type of [p c] is never found *)
Definition spin_gc : gctx := fst (ghist gctx_new
  [ OInsert 0 (typing_new LType None) false;
    OInsert 1 (typing_new (larr (LConst 0) LType) None) true;
    OInsert 2 (typing_new (LConst 0) None) false;
    OInsert 3 (typing_new (lapp (LConst 1) [LConst 2]) None) false;
    OAddRule (MkRule [(nm, Some (LConst 0))] (TopPat 1 [PMVar 0]) (lapp (LConst 1) [LVar 0])) ]).
Notation spin_sg := (er_gctx spin_gc).

Lemma spin_const' c A T G : sg_type spin_sg c = Some A -> strip A = T -> well_typed spin_sg G (Const c) T.
Proof. intros H <-. constructor. exact H. Qed.
Lemma spin_app' G t u A B T : well_typed spin_sg G t (Pi A B) -> well_typed spin_sg G u A -> subst1 u B = T -> well_typed spin_sg G (App t u) T.
Proof. intros H1 H2 <-. eapply wt_app; eassumption. Qed.
Lemma spin_good : good_types spin_sg /\ good_rules spin_sg.
Proof.
  split.
  - intros c A H.
    assert (H' : (c = 0 /\ A = Typ) \/ (c = 1 /\ A = Pi (Const 0) Typ) \/ (c = 2 /\ A = Const 0) \/ (c = 3 /\ A = App (Const 1) (Const 2))).
    { destruct c as [|[|[|[|c]]]]; vm_compute in H; try discriminate; injection H as <-; tauto. }
    destruct H' as [[-> ->]|[[-> ->]|[[-> ->]|[-> ->]]]]; (split; [discriminate|]); cbn [strip].
    + exists Kind. split; [tauto|constructor].
    + exists Kind. split; [tauto|]. eapply wt_pi; [eapply spin_const'; reflexivity|constructor|tauto].
    + exists Typ. split; [tauto|]. eapply spin_const'; reflexivity.
    + exists Typ. split; [tauto|]. eapply spin_app'; [eapply spin_const'; reflexivity|eapply spin_const'; reflexivity|reflexivity].
  - intros c rs r Hrs Hin _.
    assert (H' : rs = [] \/ c = 1 /\ rs = [MkSRule 1 [PatVar 0] (App (Const 1) (Var 0))]).
    { destruct c as [|[|[|[|c]]]]; vm_compute in Hrs; try discriminate; injection Hrs as <-; tauto. }
    destruct H' as [->|[-> ->]]; [destruct Hin|]. destruct Hin as [<-|[]].
    eexists. split; [left; reflexivity|]. split; [repeat constructor|]. exists [Const 0], (App (Const 1) (Var 0)), Typ. split; [reflexivity|]. split.
    + change (App (Const 1) (Var 0)) with (apps (Const 1) [Var 0]). repeat constructor.
    + assert (H : well_typed spin_sg [Const 0] (App (Const 1) (Var 0)) Typ).
      { eapply spin_app'; [eapply spin_const'; reflexivity|apply (wt_var spin_sg [Const 0] 0 (Const 0)); reflexivity|reflexivity]. }
      split; exact H.
Qed.
Definition spin_it : intro := IDefinition None (Some (lapp (LConst 3) [LConst 2])).

Lemma spin_refuted : exists gc it,
  g_eta gc = false /\ left_linear (er_gctx gc) /\ pi_injective (er_gctx gc) /\ good_types (er_gctx gc) /\ good_rules (er_gctx gc) /\
  forall uniq n, ModelInfer.run (kintro uniq gc n it) = Fuel.
Proof.
  exists spin_gc, spin_it. split; [reflexivity|]. split; [apply gctx_left_linear; vm_compute; reflexivity|].
  split; [apply orthogonal_pi; [apply gctx_orthogonal; vm_compute; reflexivity|reflexivity]|].
  split; [apply spin_good|]. split; [apply spin_good|]. intros uniq n.
  assert (H : ModelInfer.infer uniq spin_gc n [] (sterm_of_lterm (lapp (LConst 3) [LConst 2])) (MSt [] 0) = Fuel).
  { destruct n as [|[|n]]; [reflexivity|reflexivity|].
    pose proof (loop_whnf_fuel uniq spin_gc 1 (S n) (sterm_of_lterm (lapp (LConst 1) [LConst 2])) (Const 2) eq_refl eq_refl) as W.
    unfold ModelInfer.run in W.
    change (ModelInfer.infer uniq spin_gc (S (S n)) [] (sterm_of_lterm (lapp (LConst 3) [LConst 2])) (MSt [] 0))
      with (bind (whnf uniq spin_gc (S n) (sterm_of_lterm (lapp (LConst 1) [LConst 2])))
        (fun ty => bind (ok_or (get_prod ty) ProductExpected) (fun '(_, a, b) =>
          bind (ModelInfer.check uniq spin_gc (S n) [] (SConst 2) a) (fun ok => if ok : bool then bind (subst uniq b (SConst 2)) (fun b => ret b) else fail Unconvertible))) (MSt [] 0)).
    unfold bind at 1. destruct (whnf uniq spin_gc (S n) (sterm_of_lterm (lapp (LConst 1) [LConst 2])) (MSt [] 0)) as [[? ?]| | |]; try discriminate. reflexivity. }
  unfold spin_it. cbn [kintro define]. unfold ModelInfer.run, bind at 1. rewrite H. reflexivity.
Qed.
