(** * Sample contexts for convertibility *)

From Verif Require Import Base ModelTerm ModelGctx ModelCommand ModelSubst ModelReduce ModelInfer SpecTerm SpecConv SpecConvFacts SpecRed
  SpecQuery Erase RedCheck MainKernel MainConv Samples.

(** natural numbers with addition and a definition, as in [sample_gc], and the type of [n]-ary functions,
    [8: fun zero --> Nat, fun (succ n) --> Nat -> fun n] *)
Definition fun_zero : rule := MkRule [] (TopPat 8 [PSymb 1 []]) NAT.
Definition fun_succ : rule := MkRule [nat_v] (TopPat 8 [PSymb 2 [PMVar 0]]) (larr NAT (lapp (LConst 8) [LVar 1])).
Definition orth_gc : gctx := fst (ghist gctx_new
  [ OInsert 0 (typing_new LType None) false;
    OInsert 1 (typing_new NAT None) false;
    OInsert 2 (typing_new (larr NAT NAT) None) false;
    OInsert 3 (typing_new (larr NAT (larr NAT NAT)) None) true;
    OAddRule plus_zero;
    OAddRule plus_succ;
    OInsert 7 (typing_new NAT (Some (num 2))) true;
    OInsert 8 (typing_new (larr NAT LType) None) true;
    OAddRule fun_zero;
    OAddRule fun_succ ]).

(** [0: A, 1: a, 2: b, 3: c] with [a --> b] and [a --> c] *)
Definition overlap_gc : gctx := fst (ghist gctx_new
  [ OInsert 0 (typing_new LType None) false;
    OInsert 1 (typing_new (LConst 0) None) true;
    OInsert 2 (typing_new (LConst 0) None) false;
    OInsert 3 (typing_new (LConst 0) None) false;
    OAddRule (MkRule [] (TopPat 1 []) (LConst 2));
    OAddRule (MkRule [] (TopPat 1 []) (LConst 3)) ]).

(** [0: A, 1: f, 2: g] with [f x --> x] and [g x --> x] *)
Definition eta_gc : gctx := let gc := fst (ghist gctx_new
  [ OInsert 0 (typing_new LType None) false;
    OInsert 1 (typing_new (larr (LConst 0) (LConst 0)) None) true;
    OInsert 2 (typing_new (larr (LConst 0) (LConst 0)) None) true;
    OAddRule (MkRule [(nm, None)] (TopPat 1 [PMVar 0]) (LVar 0));
    OAddRule (MkRule [(nm, None)] (TopPat 2 [PMVar 0]) (LVar 0)) ]) in
  GCtx (g_types gc) (g_rules gc) true.

Lemma usable_none args : flat_map pat_vars args = [] -> forall t, usable (MkSRule 0 args t).
Proof. intros H t m. cbn. rewrite H. cbn. lia. Qed.

Lemma overlap_refuted : exists gc n t u,
  g_eta gc = false /\ conv (er_gctx gc) (ers t) (ers u) /\ run (convertible shared gc n t u) = Ok false.
Proof.
  exists overlap_gc, fuel, (SConst 2), (SConst 3). split; [reflexivity|]. split; [|vm_compute; reflexivity].
  set (rs := [MkSRule 0 [] (Const 2); MkSRule 0 [] (Const 3)]).
  assert (Hrs : sg_rules (er_gctx overlap_gc) 1 = Some rs) by (vm_compute; reflexivity).
  assert (H : forall r, In r rs -> conv (er_gctx overlap_gc) (Const 1) (sub Var (sr_rhs r))).
  { intros r Hin. change (Const 1) with (apps (Const 1) []). eapply conv_rule; [exact Hrs|exact Hin| |].
    - destruct Hin as [<-|[<-|[]]]; apply usable_none; reflexivity.
    - destruct Hin as [<-|[<-|[]]]; constructor. }
  eapply conv_trans; [apply conv_sym; apply (H (MkSRule 0 [] (Const 2)))|apply (H (MkSRule 0 [] (Const 3)))]; cbn; auto.
Qed.

Lemma eta_refuted : exists gc n t u v,
  orthogonal (er_gctx gc) /\ g_eta gc = true /\
  run (convertible shared gc n t u) = Ok true /\ run (convertible shared gc n u v) = Ok true /\
  conv (er_gctx gc) (ers t) (ers v) /\ run (convertible shared gc n t v) = Ok false.
Proof.
  exists eta_gc, fuel, (SConst 1), (sterm_of_lterm (lulam (LVar 0))), (SConst 2).
  split; [apply gctx_orthogonal; vm_compute; reflexivity|]. split; [reflexivity|].
  assert (H1 : run (convertible shared eta_gc fuel (SConst 1) (sterm_of_lterm (lulam (LVar 0)))) = Ok true) by (vm_compute; reflexivity).
  assert (H2 : run (convertible shared eta_gc fuel (sterm_of_lterm (lulam (LVar 0))) (SConst 2)) = Ok true) by (vm_compute; reflexivity).
  split; [exact H1|]. split; [exact H2|]. split; [|vm_compute; reflexivity].
  eapply conv_trans; [exact (main_convertible _ _ _ _ _ H1)|exact (main_convertible _ _ _ _ _ H2)].
Qed.

(** [0: Nat, 1: zero, 2: F : Nat -> Type, 3: f : Nat -> F zero] with the unverified rule [F _ --> Type] *)
Definition sort_gc : gctx := fst (ghist gctx_new
  [ OInsert 0 (typing_new LType None) false;
    OInsert 1 (typing_new NAT None) false;
    OInsert 2 (typing_new (larr NAT LType) None) true;
    OInsert 3 (typing_new (larr NAT (lapp (LConst 2) [ZERO])) None) false;
    OAddRule (MkRule [] (TopPat 2 [PJoker]) LType) ]).
(** [f zero -> Nat] *)
Definition sort_tm : lterm := larr (lapp (LConst 3) [ZERO]) NAT.
