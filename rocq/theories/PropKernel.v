(** * Properties C01-C17: the kernel *)

From Verif Require Import Base ModelTerm ModelGctx ModelCommand ModelSubst ModelReduce ModelInfer
  SpecTerm SpecConv SpecTyping SpecWhnf SpecQuery Erase KernelFacts ModelMono MainKernel MainGctx Samples.

(** ** C01: type inference is sound *)
Theorem C01_infer_sound : forall uniq gc n lc t ty,
  run (infer uniq gc n (lctx_of lc) (sterm_of_lterm t)) = Ok ty ->
  has_type (er_gctx gc) (map erl (rev lc)) (erl t) (ers ty).
Proof. exact main_infer. Qed.
Print Assumptions C01_infer_sound.

(** the same for the terms that occur during evaluation *)
Theorem C01_infer_sound_short : forall uniq gc n lc t ty,
  Forall kind_free lc -> kind_free t ->
  run (infer uniq gc n lc t) = Ok ty ->
  has_type (er_gctx gc) (map ers lc) (ers t) (ers ty).
Proof. exact main_infer_s. Qed.
Print Assumptions C01_infer_sound_short.

(** [y : vec (plus two zero) |- (x : vec (succ (succ zero)) => x) y : vec (succ (succ zero))] *)
Example C01_example :
  exists ty, run (infer sometimes sample_gc fuel (lctx_of [VEC (PLUS (LConst 7) ZERO)])
    (sterm_of_lterm (lapp (llam (VEC (num 2)) (LVar 0)) [LVar 0]))) = Ok ty /\ ers ty = erl (VEC (num 2)).
Proof. eexists. split; [vm_compute; reflexivity|]. vm_compute. reflexivity. Qed.

(** ** C02: type checking is sound *)
Theorem C02_check_sound : forall uniq gc n c,
  run (check_check uniq gc n c) = Ok tt ->
  has_type (er_gctx gc) (map erl (rev (t_lc c))) (erl (t_tm c)) (erl (t_ty c)).
Proof. exact main_check. Qed.
Print Assumptions C02_check_sound.

Theorem C02_check_sound_short : forall uniq gc n lc t ty,
  Forall kind_free lc -> kind_free t -> kind_free ty ->
  run (check uniq gc n lc t ty) = Ok true ->
  has_type (er_gctx gc) (map ers lc) (ers t) (ers ty).
Proof. exact main_check_s. Qed.
Print Assumptions C02_check_sound_short.

(** [x => x] has type [vec (plus 2 1) -> vec (plus 1 2)] *)
Example C02_example :
  run (check_check sometimes sample_gc fuel
    (typing_new (larr (VEC (PLUS (num 2) (num 1))) (VEC (PLUS (num 1) (num 2)))) (lulam (LVar 0)))) = Ok tt.
Proof. vm_compute. reflexivity. Qed.
Example C02_example_rejected :
  run (check_check sometimes sample_gc fuel
    (typing_new (larr (VEC (num 2)) (VEC (num 1))) (lulam (LVar 0)))) = Err Unconvertible.
Proof. vm_compute. reflexivity. Qed.

(** ** C03: evaluation preserves the meaning of terms *)
Theorem C03_whnf_sound : forall uniq gc n t t',
  run (whnf uniq gc n t) = Ok t' -> conv (er_gctx gc) (ers t) (ers t').
Proof. exact main_whnf. Qed.
Print Assumptions C03_whnf_sound.

Example C03_example :
  exists t', run (whnf sometimes sample_gc fuel (sterm_of_lterm (PLUS (LConst 7) (num 1)))) = Ok t' /\
    ers t' = erl (SUCC (PLUS (num 1) (num 1))).
Proof. eexists. split; [vm_compute; reflexivity|]. vm_compute. reflexivity. Qed.

(** ** C04: positive answers of convertibility are right *)
Theorem C04_convertible_sound : forall uniq gc n t u,
  run (convertible uniq gc n t u) = Ok true -> conv (er_gctx gc) (ers t) (ers u).
Proof. exact main_convertible. Qed.
Print Assumptions C04_convertible_sound.

Example C04_example :
  run (convertible sometimes sample_gc fuel (sterm_of_lterm (llam NAT (PLUS (LConst 7) (LVar 0))))
    (sterm_of_lterm (lulam (SUCC (SUCC (LVar 0)))))) = Ok true.
Proof. vm_compute. reflexivity. Qed.
Example C04_example_no :
  run (convertible sometimes sample_gc fuel (sterm_of_lterm (PLUS (LVar 0) (num 1)))
    (sterm_of_lterm (PLUS (num 1) (LVar 0)))) = Ok false.
Proof. vm_compute. reflexivity. Qed.

(** ** C05: convertibility is symmetric *)
Theorem C05_convertible_symmetric : forall uniq1 uniq2 gc n1 n2 t u b1 b2,
  run (convertible uniq1 gc n1 t u) = Ok b1 -> run (convertible uniq2 gc n2 u t) = Ok b2 -> b1 = b2.
Proof. exact main_convertible_sym. Qed.
Print Assumptions C05_convertible_symmetric.

Example C05_example :
  run (convertible shared sample_eta fuel (sterm_of_lterm (lulam (PLUS (LConst 7) (LVar 0)))) (sterm_of_lterm (lapp (LConst 3) [num 2]))) = Ok true /\
  run (convertible owned sample_eta fuel (sterm_of_lterm (lapp (LConst 3) [num 2])) (sterm_of_lterm (lulam (PLUS (LConst 7) (LVar 0))))) = Ok true.
Proof. split; vm_compute; reflexivity. Qed.

(** ** C06: results do not depend on sharing or representation *)
Theorem C06_whnf_agree : forall uniq1 uniq2 gc n1 n2 t1 t2 r1 r2,
  ers t1 = ers t2 ->
  run (whnf uniq1 gc n1 t1) = Ok r1 -> run (whnf uniq2 gc n2 t2) = Ok r2 -> ers r1 = ers r2.
Proof. exact main_whnf_agree. Qed.
Print Assumptions C06_whnf_agree.

Theorem C06_convertible_agree : forall uniq1 uniq2 gc n1 n2 t1 t2 u1 u2 b1 b2,
  ers t1 = ers t2 -> ers u1 = ers u2 ->
  run (convertible uniq1 gc n1 t1 u1) = Ok b1 -> run (convertible uniq2 gc n2 t2 u2) = Ok b2 -> b1 = b2.
Proof. exact main_convertible_agree. Qed.
Print Assumptions C06_convertible_agree.

Theorem C06_infer_agree : forall uniq1 uniq2 gc n1 n2 lc1 lc2 t1 t2,
  proper_gctx gc -> Forall proper_s lc1 -> Forall proper_s lc2 -> proper_s t1 -> proper_s t2 ->
  map ers lc1 = map ers lc2 -> ers t1 = ers t2 ->
  same_answer (fun a b => ers a = ers b) (run (infer uniq1 gc n1 lc1 t1)) (run (infer uniq2 gc n2 lc2 t2)).
Proof. exact main_infer_agree. Qed.
Print Assumptions C06_infer_agree.

Theorem C06_check_agree : forall uniq1 uniq2 gc n1 n2 lc1 lc2 t1 t2 ty1 ty2,
  proper_gctx gc -> Forall proper_s lc1 -> Forall proper_s lc2 ->
  proper_s t1 -> proper_s t2 -> proper_s ty1 -> proper_s ty2 ->
  map ers lc1 = map ers lc2 -> ers t1 = ers t2 -> ers ty1 = ers ty2 ->
  same_answer eq (run (check uniq1 gc n1 lc1 t1 ty1)) (run (check uniq2 gc n2 lc2 t2 ty2)).
Proof. exact main_check_agree. Qed.
Print Assumptions C06_check_agree.

(** two representations of [plus two one] *)
Example C06_example :
  let t1 := sterm_of_lterm (PLUS (LConst 7) (num 1)) in
  let t2 := sapp (sapp (SConst 3) [SConst 7]) [sapp (SConst 2) [SConst 1]] in
  t1 <> t2 /\ ers t1 = ers t2 /\ proper_s t1 /\ proper_s t2 /\
  (exists ty, run (infer shared sample_gc fuel [] t1) = Ok ty) /\
  (exists ty, run (infer owned sample_gc fuel [] t2) = Ok ty).
Proof.
  cbn zeta. split; [discriminate|]. split; [reflexivity|]. split; [cbn; tauto|]. split; [cbn; tauto|].
  split; eexists; vm_compute; reflexivity.
Qed.
Example C06_example_gctx : proper_gctx sample_gc.
Proof.
  assert (H : forall c, slookup (g_types sample_gc) c <> None -> c < 8).
  { do 8 (destruct c as [|c]; [lia|]). intros H. exfalso. apply H. reflexivity. }
  assert (H' : forall c, slookup (g_rules sample_gc) c <> None -> c < 8).
  { do 8 (destruct c as [|c]; [lia|]). intros H'. exfalso. apply H'. reflexivity. }
  split.
  - intros c ty E. assert (L : c < 8) by (apply H; unfold get_type in E; congruence).
    do 8 (destruct c as [|c]; [vm_compute in E; injection E as <-; cbn; tauto|]). lia.
  - intros c rs r E. assert (L : c < 8) by (apply H'; unfold get_rules in E; congruence).
    do 8 (destruct c as [|c]; [vm_compute in E; try discriminate; injection E as <-; cbn [In]; intros Hr;
      repeat destruct Hr as [<-|Hr]; try contradiction; cbn; tauto|]). lia.
Qed.

(** ** C07: the kernel never panics *)
Theorem C07_whnf_no_panic : forall uniq gc n t, run (whnf uniq gc n t) <> Panic.
Proof. exact (fun uniq gc n t => run_np _ (whnf_np uniq gc n t)). Qed.
Print Assumptions C07_whnf_no_panic.
Theorem C07_convertible_no_panic : forall uniq gc n t u, run (convertible uniq gc n t u) <> Panic.
Proof. exact (fun uniq gc n t u => run_np _ (convertible_np uniq gc n t u)). Qed.
Print Assumptions C07_convertible_no_panic.
Theorem C07_infer_no_panic : forall uniq gc n lc t, run (infer uniq gc n lc t) <> Panic.
Proof. exact (fun uniq gc n lc t => run_np _ (proj1 (infer_np uniq gc n) lc t)). Qed.
Print Assumptions C07_infer_no_panic.
Theorem C07_check_no_panic : forall uniq gc n lc t ty, run (ModelInfer.check uniq gc n lc t ty) <> Panic.
Proof. exact (fun uniq gc n lc t ty => run_np _ (proj2 (infer_np uniq gc n) lc t ty)). Qed.
Print Assumptions C07_check_no_panic.
Theorem C07_intro_no_panic : forall uniq gc n it, run (kintro uniq gc n it) <> Panic.
Proof. exact (fun uniq gc n it => run_np _ (kintro_np uniq gc n it)). Qed.
Print Assumptions C07_intro_no_panic.
Theorem C07_rewrite_no_panic : forall uniq gc n r, run (rewrite uniq gc n r) <> Panic.
Proof. exact (fun uniq gc n r => run_np _ (rewrite_np uniq gc n r)). Qed.
Print Assumptions C07_rewrite_no_panic.
Theorem C07_check_check_no_panic : forall uniq gc n c, run (check_check uniq gc n c) <> Panic.
Proof. exact (fun uniq gc n c => run_np _ (check_check_np uniq gc n c)). Qed.
Print Assumptions C07_check_check_no_panic.

(** Panics are expressible: the machine panics on a dangling reference,
    and when it enters a thunk that is being evaluated. *)
Example C07_example_dangling : force sometimes 1 0 (MSt [] 0) = Panic.
Proof. reflexivity. Qed.

(** ** C08: results are deterministic *)
Theorem C08_whnf_deterministic : forall uniq gc t n m,
  run (whnf uniq gc n t) <> Fuel -> run (whnf uniq gc m t) <> Fuel -> run (whnf uniq gc n t) = run (whnf uniq gc m t).
Proof. exact (fun uniq gc t => run_agree (fun n => whnf uniq gc n t) (fun n m => whnf_mono uniq gc n m t)). Qed.
Print Assumptions C08_whnf_deterministic.
Theorem C08_convertible_deterministic : forall uniq gc t u n m,
  run (convertible uniq gc n t u) <> Fuel -> run (convertible uniq gc m t u) <> Fuel ->
  run (convertible uniq gc n t u) = run (convertible uniq gc m t u).
Proof. exact (fun uniq gc t u => run_agree (fun n => convertible uniq gc n t u) (fun n m => convertible_mono uniq gc n m t u)). Qed.
Print Assumptions C08_convertible_deterministic.
Theorem C08_infer_deterministic : forall uniq gc lc t n m,
  run (infer uniq gc n lc t) <> Fuel -> run (infer uniq gc m lc t) <> Fuel ->
  run (infer uniq gc n lc t) = run (infer uniq gc m lc t).
Proof. exact (fun uniq gc lc t => run_agree (fun n => infer uniq gc n lc t) (fun n m => infer_mono uniq gc n m lc t)). Qed.
Print Assumptions C08_infer_deterministic.
Theorem C08_intro_deterministic : forall uniq gc it n m,
  run (kintro uniq gc n it) <> Fuel -> run (kintro uniq gc m it) <> Fuel ->
  run (kintro uniq gc n it) = run (kintro uniq gc m it).
Proof. exact (fun uniq gc it => run_agree (fun n => kintro uniq gc n it) (fun n m => kintro_mono uniq gc n m it)). Qed.
Print Assumptions C08_intro_deterministic.
Theorem C08_rewrite_deterministic : forall uniq gc r n m,
  run (rewrite uniq gc n r) <> Fuel -> run (rewrite uniq gc m r) <> Fuel ->
  run (rewrite uniq gc n r) = run (rewrite uniq gc m r).
Proof. exact (fun uniq gc r => run_agree (fun n => rewrite uniq gc n r) (fun n m => rewrite_mono uniq gc n m r)). Qed.
Print Assumptions C08_rewrite_deterministic.
Theorem C08_check_deterministic : forall uniq gc c n m,
  run (check_check uniq gc n c) <> Fuel -> run (check_check uniq gc m c) <> Fuel ->
  run (check_check uniq gc n c) = run (check_check uniq gc m c).
Proof. exact (fun uniq gc c => run_agree (fun n => check_check uniq gc n c) (fun n m => check_check_mono uniq gc n m c)). Qed.
Print Assumptions C08_check_deterministic.

Example C08_example :
  run (check_check owned sample_gc 60 (typing_new NAT (PLUS (num 1) (num 1)))) = Ok tt /\
  run (check_check owned sample_gc 5 (typing_new (VEC (PLUS (num 1) (num 1))) (LConst 5))) = Fuel.
Proof. split; vm_compute; reflexivity. Qed.

(** ** C09: substitution and shifting avoid capture *)
Theorem C09_subst : forall uniq t u, exists t', run (subst uniq t u) = Ok t' /\ ers t' = subst1 (ers u) (ers t).
Proof. exact main_subst. Qed.
Print Assumptions C09_subst.
Theorem C09_shift : forall uniq t k, exists t', run (shift uniq t k) = Ok t' /\ ers t' = lift k (ers t).
Proof. exact main_shift. Qed.
Print Assumptions C09_shift.
(** for any replacement [sb] of variables: no change is reported only if there is none *)
Theorem C09_change_flag : forall uniq sb t k s t' s',
  apply_subst uniq sb t k s = Ok ((t', false), s') -> ers t' = ers t.
Proof. exact main_flag. Qed.
Print Assumptions C09_change_flag.

(** [(x => y x)[y := x']]: the replaced variable is lifted below the binder *)
Example C09_example :
  run (subst shared (SLComb (Abst nm None (lapp (LVar 1) [LVar 0; LVar 2]))) (SVar 0)) =
  Ok (SSComb (Abst nm None (SSComb (Appl (SVar 1) [SVar 0; SVar 1])))).
Proof. vm_compute. reflexivity. Qed.

(** ** C10: evaluation returns weak head normal forms *)
Theorem C10_whnf_form : forall uniq gc n t t',
  run (whnf uniq gc n t) = Ok t' -> whnf_form (er_gctx gc) (ers t').
Proof. exact main_whnf_form. Qed.
Print Assumptions C10_whnf_form.

Example C10_example :
  exists t', run (whnf sometimes sample_gc fuel (sapp (SLComb (Abst nm None (PLUS (LVar 0) (LVar 1)))) [SVar 3])) = Ok t' /\
    ers t' = erl (PLUS (LVar 3) (LVar 0)).
Proof. eexists. split; [vm_compute; reflexivity|]. vm_compute. reflexivity. Qed.
(** [plus zero x] is not a weak head normal form *)
Example C10_example_not : ~ whnf_form (er_gctx sample_gc) (erl (PLUS ZERO (LVar 3))).
Proof.
  intros H.
  assert (E : erl (PLUS ZERO (LVar 3)) = apps (Const 3) [Const 1; Var 3]) by reflexivity.
  rewrite E in H. remember (apps (Const 3) [Const 1; Var 3]) as t eqn:Et.
  assert (Hinj : forall us h, (forall a b, h <> App a b) -> apps h us = App (App (Const 3) (Const 1)) (Var 3) -> h = Const 3 /\ us = [Const 1; Var 3]).
  { intros us h Hh. destruct us as [|v us] using rev_ind; [cbn; intros ->; destruct (Hh (App (Const 3) (Const 1)) (Var 3) eq_refl)|].
    rewrite apps_app. cbn [apps]. intros [= E1 E2]. clear IHus. destruct us as [|w us] using rev_ind; [cbn in E1; subst; destruct (Hh _ _ eq_refl)|].
    rewrite apps_app in E1. cbn [apps] in E1. injection E1 as E1 E3. clear IHus. destruct us as [|x us] using rev_ind.
    - cbn in *. subst. auto.
    - rewrite apps_app in E1. discriminate. }
  destruct H as [us|us|a b us|n us|a b|b|c us Hc]; try discriminate Et;
    try (apply Hinj in Et; [destruct Et; discriminate|discriminate]).
  apply Hinj in Et; [|discriminate]. destruct Et as [[= ->] ->].
  apply (Hc (map er_rule [plus_zero; plus_succ]) (er_rule plus_zero)); [reflexivity|left; reflexivity| | |].
  - intros m. cbn. lia.
  - repeat constructor. intros [].
  - exists (fun _ => Var 3), [Const 1; Var 3], []. split; [reflexivity|].
    constructor; [apply (inst_symb _ 1 [] []); constructor|]. constructor; [|constructor].
    apply (inst_var (fun _ => Var 3) 0).
Qed.

(** ** C11: rules fire only on instances *)
Theorem C11_match_sound : forall uniq gc n rules args ts r,
  run (match_args uniq gc n rules args) = Ok (Some (ts, r)) ->
  In r rules /\ usable (er_rule r) /\ length ts = length (r_ctx r) /\
  length (tp_args (r_lhs r)) <= length args /\
  exists vs, Forall2 (inst (slist (map ers ts))) (map erp (tp_args (r_lhs r))) vs /\
             Forall2 (conv (er_gctx gc)) vs (map ers (firstn (length (tp_args (r_lhs r))) args)).
Proof. exact main_match. Qed.
Print Assumptions C11_match_sound.
Theorem C11_absent_variable : forall uniq gc n rules args ts r,
  ~ usable (er_rule r) -> run (match_args uniq gc n rules args) <> Ok (Some (ts, r)).
Proof. exact main_match_unusable. Qed.
Print Assumptions C11_absent_variable.

(** [same (plus 1 1) two] matches [same x x] *)
Example C11_example :
  exists ts, run (match_args sometimes sample_gc fuel [lost_rule; same_rule]
    [sterm_of_lterm (PLUS (num 1) (num 1)); SConst 7]) = Ok (Some (ts, same_rule)) /\ length ts = 1.
Proof. eexists. split; [vm_compute; reflexivity|]. vm_compute. reflexivity. Qed.
Example C11_example_no :
  run (match_args sometimes sample_gc fuel [lost_rule; same_rule] [sterm_of_lterm (num 1); SConst 7]) = Ok None.
Proof. vm_compute. reflexivity. Qed.
Example C11_example_unusable : ~ usable (er_rule lost_rule).
Proof. intros H. destruct (proj1 (H 1)); cbn; [lia|discriminate|contradiction]. Qed.

(** ** C12: eta only on request *)
Theorem C12_no_eta : forall uniq gc n t u, g_eta gc = false ->
  run (convertible uniq gc n t u) = Ok true -> conv_no_eta (er_gctx gc) (ers t) (ers u).
Proof. exact main_no_eta. Qed.
Print Assumptions C12_no_eta.
(** [t] is an abstraction with body [b], [u] evaluates to something else;
    the body is found convertible with [u' x] *)
Theorem C12_eta : forall uniq1 uniq2 uniq3 gc n1 n2 n3 t u b u' b' v r,
  g_eta gc = true ->
  ers t = ULam b \/ (exists a, ers t = Lam a b) ->
  run (whnf uniq1 gc n1 u) = Ok u' -> (forall a c, ers u' <> Lam a c) -> (forall c, ers u' <> ULam c) ->
  ers b' = b -> ers v = App (lift 1 (ers u')) (Var 0) ->
  run (convertible uniq2 gc n2 b' v) = Ok true ->
  run (convertible uniq3 gc n3 t u) = Ok r \/ run (convertible uniq3 gc n3 u t) = Ok r -> r = true.
Proof. exact main_eta. Qed.
Print Assumptions C12_eta.

Example C12_example :
  let t := sterm_of_lterm (lulam (SUCC (LVar 0))) in
  run (convertible shared sample_gc fuel t (SConst 2)) = Ok false /\
  run (convertible shared sample_eta fuel t (SConst 2)) = Ok true.
Proof. split; vm_compute; reflexivity. Qed.
Example C12_example_eta :
  run (whnf shared sample_eta fuel (SConst 2)) = Ok (SConst 2) /\
  run (convertible shared sample_eta fuel (sterm_of_lterm (SUCC (LVar 0))) (sapp (SConst 2) [SVar 0])) = Ok true /\
  run (convertible shared sample_eta fuel (SConst 2) (sterm_of_lterm (lulam (SUCC (LVar 0))))) = Ok true.
Proof. repeat split; vm_compute; reflexivity. Qed.

(** ** C13: accepted introductions have a proper type
    Full statement: for every accepted introduction, the type of the symbol has a sort as type.
    It holds of declarations and untyped definitions.  For theorems and definitions with a type,
    only typability of the type is verified (kontroli/src/kernel/mod.rs:49, 59). *)
Theorem C13_intro_type_partial : forall uniq gc n it ty chk,
  run (kintro uniq gc n it) = Ok (ty, chk) ->
  t_lc ty = [] /\
  match it with
  | IDeclaration _ A | IDefinition (Some A) None =>
    t_ty ty = A /\ t_tm ty = None /\ chk = None /\ exists s, (s = Typ \/ s = Kind) /\ has_type (er_gctx gc) [] (erl A) s
  | IDefinition None (Some t) =>
    t_tm ty = Some t /\ chk = None /\ has_type (er_gctx gc) [] (erl t) (erl (t_ty ty))
  | IDefinition (Some A) (Some t) =>
    t_ty ty = A /\ t_tm ty = Some t /\ chk = Some (MkTyping [] A t) /\ exists K, has_type (er_gctx gc) [] (erl A) K
  | ITheorem A t =>
    t_ty ty = A /\ t_tm ty = None /\ chk = Some (MkTyping [] A t) /\ exists K, has_type (er_gctx gc) [] (erl A) K
  | IDefinition None None => False
  end.
Proof. exact main_kintro. Qed.
Print Assumptions C13_intro_type_partial.
(** The full statement is false: a theorem and a definition of "type" [zero] are accepted,
    although the type of [zero] is [Nat], not a sort; a declaration of the same type is rejected. *)
Theorem C13_intro_type_refuted : exists gc n A t ty1 ty2,
  (exists r, run (kintro shared gc n (ITheorem A t)) = Ok r /\ t_ty (fst r) = A) /\
  (exists r, run (kintro shared gc n (IDefinition (Some A) (Some t))) = Ok r /\ t_ty (fst r) = A) /\
  run (infer shared gc n [] (sterm_of_lterm A)) = Ok (SConst ty1) /\
  run (infer shared gc n [] (SConst ty1)) = Ok ty2 /\ ty2 = SType /\
  run (kintro shared gc n (IDeclaration false A)) = Err SortExpected.
Proof.
  exists sample_gc, fuel, ZERO, ZERO, 0, SType.
  split; [eexists; split; [vm_compute; reflexivity|]; vm_compute; reflexivity|]. split; [eexists; split; [vm_compute; reflexivity|]; vm_compute; reflexivity|].
  vm_compute. auto.
Qed.
Print Assumptions C13_intro_type_refuted.

Example C13_example :
  run (kintro shared sample_gc fuel (IDeclaration true (larr NAT (VEC (LVar 0))))) = Ok (typing_new (larr NAT (VEC (LVar 0))) None, None) /\
  exists ty, run (kintro shared sample_gc fuel (IDefinition None (Some (llam NAT (PLUS (LVar 0) (num 1)))))) = Ok ty.
Proof. split; [|eexists]; vm_compute; reflexivity. Qed.

(** ** C14: accepted rules preserve types *)
Theorem C14_rule_preserves_type : forall uniq gc n n' (r : rule) r' c,
  rule_try r = Ok r' -> run (rewrite uniq gc n r') = Ok c -> run (check_check uniq gc n' c) = Ok tt ->
  exists tys lhs ty,
    map snd (r_ctx r) = map Some tys /\
    inst Var (PatSymb (tp_symbol (r_lhs r)) (map erp (tp_args (r_lhs r)))) lhs /\
    has_type (er_gctx gc) (map erl (rev tys)) lhs ty /\ has_type (er_gctx gc) (map erl (rev tys)) (erl (r_rhs r)) ty.
Proof. exact main_rule. Qed.
Print Assumptions C14_rule_preserves_type.

Example C14_example :
  exists r' c, rule_try plus_succ = Ok r' /\ run (rewrite shared sample_gc fuel r') = Ok c /\
    run (check_check owned sample_gc fuel c) = Ok tt.
Proof. do 2 eexists. split; [reflexivity|]. split; [vm_compute; reflexivity|]. vm_compute. reflexivity. Qed.

(** ** C15: theorems and plain declarations never compute *)
Theorem C15_never_computes : forall ops gc es c,
  ghist gctx_new ops = (gc, es) ->
  (forall ty rw, In (OInsert c ty rw) ops -> rw = false) ->
  get_rules gc c = None /\
  (forall r, tp_symbol (r_lhs r) = c -> add_rule gc r = (gc, Some NonRewritable)) /\
  (forall uniq n t us t', ers t = apps (Const c) us -> run (whnf uniq gc n t) = Ok t' -> ers t' = ers t).
Proof. exact main_no_compute. Qed.
Print Assumptions C15_never_computes.
(** what is inserted as not rewritable *)
Theorem C15_rewritable : forall it : intro,
  rewritable it = false <-> (exists ty tm, it = ITheorem ty tm) \/ (exists ty, it = IDeclaration false ty).
Proof. exact main_rewritable. Qed.
Print Assumptions C15_rewritable.

Example C15_example :
  (forall ty rw, In (OInsert 2 ty rw) sample_ops -> rw = false) /\
  (exists t', run (whnf shared sample_gc fuel (sterm_of_lterm (SUCC (PLUS ZERO ZERO)))) = Ok t').
Proof.
  split; [|eexists; vm_compute; reflexivity].
  unfold sample_ops. cbn [In]. intros ty rw H. repeat destruct H as [[= ]|H]; try congruence. contradiction.
Qed.

(** ** C16: a symbol gets at most one type *)
Theorem C16_history : forall ops gc es c,
  ghist gctx_new ops = (gc, es) -> inserts_ok ops es ->
  get_type gc c = hist_type c ops /\ get_rules gc c = hist_rules c ops.
Proof. exact main_hist. Qed.
Print Assumptions C16_history.
Theorem C16_reintroduction : forall gc c ty rw t,
  get_type gc c = Some t -> snd (gctx_insert gc c ty rw) = Some Reintroduction.
Proof. exact main_reintro. Qed.
Print Assumptions C16_reintroduction.
Theorem C16_stable : forall ops ops' gc es c t,
  ghist gctx_new (ops ++ ops') = (gc, es) -> inserts_ok (ops ++ ops') es ->
  hist_type c ops = Some t -> get_type gc c = Some t.
Proof. exact main_stable. Qed.
Print Assumptions C16_stable.

Example C16_example :
  inserts_ok sample_ops (snd (ghist gctx_new sample_ops)) /\ hist_rules 3 sample_ops = Some [plus_zero; plus_succ] /\
  hist_rules 7 sample_ops = Some [MkRule [] (TopPat 7 []) (num 2)] /\ hist_rules 2 sample_ops = None.
Proof. vm_compute. tauto. Qed.

(** ** C17: fresh symbols change no answer *)
Theorem C17_fresh_whnf : forall uniq gc gc' ops es c,
  Forall (concerns c) ops -> ghist gc ops = (gc', es) ->
  (forall d rs r, get_rules gc d = Some rs -> In r rs -> absent c (r_rhs r)) ->
  forall n t, absent c t ->
  run (whnf uniq gc n (sterm_of_lterm t)) = run (whnf uniq gc' n (sterm_of_lterm t)).
Proof. exact main_fresh_whnf. Qed.
Print Assumptions C17_fresh_whnf.
Theorem C17_fresh_convertible : forall uniq gc gc' ops es c,
  Forall (concerns c) ops -> ghist gc ops = (gc', es) ->
  (forall d rs r, get_rules gc d = Some rs -> In r rs -> absent c (r_rhs r)) ->
  forall n t u, absent c t -> absent c u ->
  run (convertible uniq gc n (sterm_of_lterm t) (sterm_of_lterm u)) =
  run (convertible uniq gc' n (sterm_of_lterm t) (sterm_of_lterm u)).
Proof. exact main_fresh_convertible. Qed.
Print Assumptions C17_fresh_convertible.
Theorem C17_fresh_infer : forall uniq gc gc' ops es c,
  Forall (concerns c) ops -> ghist gc ops = (gc', es) ->
  (forall d ty, get_type gc d = Some ty -> absent c ty) ->
  (forall d rs r, get_rules gc d = Some rs -> In r rs -> absent c (r_rhs r)) ->
  forall n lc t, Forall (absent c) lc -> absent c t ->
  run (infer uniq gc n (lctx_of lc) (sterm_of_lterm t)) = run (infer uniq gc' n (lctx_of lc) (sterm_of_lterm t)).
Proof. exact main_fresh_infer. Qed.
Print Assumptions C17_fresh_infer.
Theorem C17_fresh_intro : forall uniq gc gc' ops es c,
  Forall (concerns c) ops -> ghist gc ops = (gc', es) ->
  (forall d ty, get_type gc d = Some ty -> absent c ty) ->
  (forall d rs r, get_rules gc d = Some rs -> In r rs -> absent c (r_rhs r)) ->
  forall n it, intro_all (absent c) it -> run (kintro uniq gc n it) = run (kintro uniq gc' n it).
Proof. exact main_fresh_kintro. Qed.
Print Assumptions C17_fresh_intro.
Theorem C17_fresh_rewrite : forall uniq gc gc' ops es c,
  Forall (concerns c) ops -> ghist gc ops = (gc', es) ->
  (forall d ty, get_type gc d = Some ty -> absent c ty) ->
  (forall d rs r, get_rules gc d = Some rs -> In r rs -> absent c (r_rhs r)) ->
  forall n r, Forall (absent c) (r_ctx r) -> absent c (r_lhs r) ->
  run (rewrite uniq gc n r) = run (rewrite uniq gc' n r).
Proof. exact main_fresh_rewrite. Qed.
Print Assumptions C17_fresh_rewrite.
Theorem C17_fresh_check : forall uniq gc gc' ops es c,
  Forall (concerns c) ops -> ghist gc ops = (gc', es) ->
  (forall d ty, get_type gc d = Some ty -> absent c ty) ->
  (forall d rs r, get_rules gc d = Some rs -> In r rs -> absent c (r_rhs r)) ->
  forall n k, Forall (absent c) (t_lc k) -> absent c (t_ty k) -> absent c (t_tm k) ->
  run (check_check uniq gc n k) = run (check_check uniq gc' n k).
Proof. exact main_fresh_check. Qed.
Print Assumptions C17_fresh_check.

(** a fresh symbol [9] with a type, a definition and a rule *)
Example C17_example :
  let ops := [OInsert 9 (typing_new (larr NAT NAT) (Some (LConst 2))) true; OAddRule (MkRule [nat_v] (TopPat 9 [PMVar 0]) ZERO)] in
  Forall (concerns 9) ops /\ snd (ghist sample_gc ops) = [None; None] /\ absent 9 (PLUS (num 1) (num 2)).
Proof. cbn. repeat split; try lia; repeat constructor. Qed.
Example C17_example_gctx :
  (forall d ty, get_type sample_gc d = Some ty -> absent 9 ty) /\
  (forall d rs r, get_rules sample_gc d = Some rs -> In r rs -> absent 9 (r_rhs r)).
Proof.
  split.
  - intros d ty E. do 8 (destruct d as [|d]; [vm_compute in E; injection E as <-; cbn; repeat split; lia|]). discriminate.
  - intros d rs r E. do 8 (destruct d as [|d]; [vm_compute in E; try discriminate; injection E as <-; cbn [In]; intros Hr;
      repeat destruct Hr as [<-|Hr]; try contradiction; cbn; repeat split; lia|]). discriminate.
Qed.
