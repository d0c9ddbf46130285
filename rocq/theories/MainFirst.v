(** * There is only one first command that is not typable (C86) *)

From Verif Require Import Base ModelTerm ModelGctx ModelCommand ModelSyntax ModelSymbols ModelShare ModelParse ModelProcess
  SpecTerm SpecConv SpecSyntax SpecSymbols SpecShare SpecProcess SpecDecide SpecMake SpecProgram SpecWhole SpecFault SpecBlame.
(** ** The first command that is not typable *)
Definition longer (s s' : list source) : Prop := exists s1 m cs1 cs2 s2, s = s1 ++ [(m, cs1)] /\ s' = s1 ++ (m, cs1 ++ cs2) :: s2.
Lemma commands_prefix cs1 : forall cs2 ops n vs ops' n', elab_commands ops n (cs1 ++ cs2) vs ops' n' -> exists vs1 vs2 ops1 n1, vs = vs1 ++ vs2 /\ elab_commands ops n cs1 vs1 ops1 n1.
Proof.
  induction cs1 as [|c cs1 IH]; intros cs2 ops n vs ops' n' H; cbn in H; [exists [], vs, ops, n; split; [reflexivity|constructor]|].
  inversion H as [|? ? ? v ops1 n1 ? vs' ? ? H1 H2]; subst. destruct (IH _ _ _ _ _ _ H2) as (vs1 & vs2 & ops2 & n2 & -> & H3). exists (v :: vs1), vs2, ops2, n2. split; [reflexivity|econstructor; eassumption].
Qed.
Lemma sources_prefix s1 m cs1 cs2 s2 : forall ops n vs, elab_sources ops n (s1 ++ (m, cs1 ++ cs2) :: s2) vs -> exists vs1 vs2, vs = vs1 ++ vs2 /\ elab_sources ops n (s1 ++ [(m, cs1)]) vs1.
Proof.
  induction s1 as [|[m' cs'] s1 IH]; intros ops n vs H; cbn [app] in *; inversion H as [|? ? ? ? vs1 ops1 n1 ? vs2 H1 H2]; subst.
  - destruct (commands_prefix _ _ _ _ _ _ _ H1) as (vs3 & vs4 & ops3 & n3 & -> & H3). exists (vs3 ++ []), (vs4 ++ vs2). rewrite app_nil_r, app_assoc. split; [reflexivity|].
    rewrite <- (app_nil_r vs3). econstructor; [exact H3|constructor].
  - destruct (IH _ _ _ H2) as (vs3 & vs4 & -> & H3). exists (vs1 ++ vs3), vs4. rewrite app_assoc. split; [reflexivity|econstructor; eassumption].
Qed.
Lemma typable_prefix vs1 : forall vs2 sg sg', typable_all sg (vs1 ++ vs2) sg' -> exists sg1, typable_all sg vs1 sg1.
Proof.
  induction vs1 as [|v vs1 IH]; intros vs2 sg sg' H; cbn in H; [exists sg; constructor|]. inversion H; subst. match goal with X : typable_all _ (vs1 ++ vs2) _ |- _ => destruct (IH _ _ _ X) as [sg2 Y] end. exists sg2. econstructor; eassumption.
Qed.
Lemma longer_typable eta s s' : longer s s' -> typable_sources eta s' -> typable_sources eta s.
Proof.
  intros (s1 & m & cs1 & cs2 & s2 & -> & ->) (vs & sg & H1 & H2). destruct (sources_prefix _ _ _ _ _ _ _ _ H1) as (vs1 & vs2 & -> & H3). destruct (typable_prefix _ _ _ _ H2) as [sg1 H4].
  exists vs1, sg1. split; assumption.
Qed.
Lemma blamed_order b b' : bl_all b = bl_all b' -> forall l, bl_before b' = bl_before b ++ l -> b = b' \/ longer (bl_including b) (bl_earlier b') \/ longer (bl_including b') (bl_earlier b).
Proof.
  destruct b as [before m cs c rest after], b' as [before' m' cs' c' rest' after']. unfold bl_all, bl_earlier, bl_including. cbn. intros E l ->. rewrite <- app_assoc in E. apply app_inv_head in E.
  destruct l as [|x l]; cbn in E.
  - injection E as <- E <-. rewrite app_nil_r. destruct (app_eq_app _ _ _ _ E) as [l2 [[E1 E2]|[E1 E2]]]; destruct l2 as [|y l2]; cbn in E1, E2.
    + left. injection E2 as <- <-. rewrite app_nil_r in E1. subst. reflexivity.
    + right. right. injection E2 as <- ->. subst cs. exists before, m, (cs' ++ [c']), l2, []. rewrite <- app_assoc. split; reflexivity.
    + left. injection E2 as <- <-. rewrite app_nil_r in E1. subst. reflexivity.
    + right. left. injection E2 as <- ->. subst cs'. exists before, m, (cs ++ [c]), l2, []. rewrite <- app_assoc. split; reflexivity.
  - injection E as <- E. right. left. exists before, m, (cs ++ [c]), rest, (l ++ [(m', cs')]). split; [reflexivity|]. rewrite <- !app_assoc. reflexivity.
Qed.
Theorem blamed_unique eta b b' : bl_all b = bl_all b' -> typable_sources eta (bl_earlier b) -> ~ typable_sources eta (bl_including b) ->
  typable_sources eta (bl_earlier b') -> ~ typable_sources eta (bl_including b') -> b = b'.
Proof.
  intros E H1 H2 H3 H4. assert (X : b = b' \/ longer (bl_including b) (bl_earlier b') \/ longer (bl_including b') (bl_earlier b)).
  { pose proof E as E'. unfold bl_all in E'. destruct (app_eq_app _ _ _ _ E') as [l [[E1 _]|[E1 _]]].
    - destruct (blamed_order b' b (eq_sym E) l E1) as [X|[X|X]]; auto.
    - destruct (blamed_order b b' E l E1) as [X|[X|X]]; auto. }
  destruct X as [X|[X|X]]; [exact X| |]; exfalso; [apply H2|apply H4]; eapply longer_typable; eassumption.
Qed.
