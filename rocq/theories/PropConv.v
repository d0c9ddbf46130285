(** * Properties C47-C48: negative answers of convertibility, and head normal forms *)

From Verif Require Import Base ModelTerm ModelGctx ModelCommand ModelSubst ModelReduce ModelInfer
  SpecTerm SpecConv SpecWhnf SpecRed SpecQuery Erase RedConfl EtaConfl RedCheck MainConv Samples SamplesConv.

(** ** C47: negative answers of convertibility are right *)
(** if reduction has the Church-Rosser property and eta is off, or the rules are orthogonal and without arguments (such as definitions) *)
Theorem C47_not_convertible : forall uniq gc n t u,
  church_rosser (er_gctx gc) -> eta_safe (er_gctx gc) ->
  run (convertible uniq gc n t u) = Ok false -> ~ conv (er_gctx gc) (ers t) (ers u).
Proof. exact main_not_convertible. Qed.
Print Assumptions C47_not_convertible.

(** in particular, answers are right for orthogonal rules *)
Theorem C47_orthogonal : forall uniq gc n t u b,
  orthogonal (er_gctx gc) -> eta_safe (er_gctx gc) ->
  run (convertible uniq gc n t u) = Ok b -> (b = true <-> conv (er_gctx gc) (ers t) (ers u)).
Proof. exact main_convertible_iff. Qed.
Print Assumptions C47_orthogonal.

(** positive answers are transitive *)
Theorem C47_transitive : forall uniq1 uniq2 uniq3 gc n1 n2 n3 t u v b,
  church_rosser (er_gctx gc) -> eta_safe (er_gctx gc) ->
  run (convertible uniq1 gc n1 t u) = Ok true -> run (convertible uniq2 gc n2 u v) = Ok true ->
  run (convertible uniq3 gc n3 t v) = Ok b -> b = true.
Proof. exact main_transitive. Qed.
Print Assumptions C47_transitive.

Example C47_example_orthogonal : orthogonal (er_gctx orth_gc) /\ g_eta orth_gc = false /\ church_rosser (er_gctx orth_gc).
Proof.
  assert (H : orthogonal (er_gctx orth_gc)) by (apply gctx_orthogonal; vm_compute; reflexivity).
  split; [exact H|]. split; [reflexivity|]. apply orthogonal_church_rosser; [exact H|reflexivity].
Qed.
Example C47_example :
  run (convertible sometimes orth_gc fuel (sterm_of_lterm (PLUS (LVar 0) (num 1))) (sterm_of_lterm (PLUS (num 1) (LVar 0)))) = Ok false /\
  run (convertible shared orth_gc fuel (sterm_of_lterm (lulam (PLUS (LConst 7) (LVar 0)))) (sterm_of_lterm (lulam (SUCC (LVar 0))))) = Ok false /\
  run (convertible owned orth_gc fuel (sterm_of_lterm (PLUS (LConst 7) (num 1))) (sterm_of_lterm (SUCC (PLUS (num 1) (num 1))))) = Ok true /\
  run (convertible owned orth_gc fuel (sterm_of_lterm (SUCC (PLUS (num 1) (num 1)))) (sterm_of_lterm (num 3))) = Ok true /\
  run (convertible owned orth_gc fuel (sterm_of_lterm (PLUS (LConst 7) (num 1))) (sterm_of_lterm (num 3))) = Ok true.
Proof. repeat split; vm_compute; reflexivity. Qed.

(** Without the Church-Rosser property, negative answers can be wrong:
    [a --> b] and [a --> c] make [b] and [c] convertible. *)
Theorem C47_overlap_refuted : exists gc n t u,
  g_eta gc = false /\ conv (er_gctx gc) (ers t) (ers u) /\ run (convertible shared gc n t u) = Ok false.
Proof. exact overlap_refuted. Qed.
Print Assumptions C47_overlap_refuted.

(** With eta, negative answers can be wrong even for orthogonal rules, and positive answers are not
    transitive: [f x --> x] and [g x --> x] make [f] and [g] convertible with [x => x]. *)
Theorem C47_eta_refuted : exists gc n t u v,
  orthogonal (er_gctx gc) /\ g_eta gc = true /\
  run (convertible shared gc n t u) = Ok true /\ run (convertible shared gc n u v) = Ok true /\
  conv (er_gctx gc) (ers t) (ers v) /\ run (convertible shared gc n t v) = Ok false.
Proof. exact eta_refuted. Qed.
Print Assumptions C47_eta_refuted.

(** ** C48: evaluation reaches the head of a term *)
(** The head of the result never changes any more, whatever is reduced inside it,
    also with non-linear rules. *)
Theorem C48_head_normal : forall uniq gc n t t',
  church_rosser (er_gctx gc) -> eta_safe (er_gctx gc) ->
  run (whnf uniq gc n t) = Ok t' -> head_normal (er_gctx gc) (ers t').
Proof. exact main_head_normal. Qed.
Print Assumptions C48_head_normal.

(** So without eta, evaluation finds every product ... *)
Theorem C48_product : forall uniq gc n t t' a b,
  church_rosser (er_gctx gc) -> g_eta gc = false ->
  run (whnf uniq gc n t) = Ok t' -> conv (er_gctx gc) (ers t) (Pi a b) ->
  exists a' b', ers t' = Pi a' b' /\ conv (er_gctx gc) a' a /\ conv (er_gctx gc) b' b.
Proof. exact main_whnf_prod. Qed.
Print Assumptions C48_product.

(** ... and every sort. *)
Theorem C48_sort : forall uniq gc n t t' s,
  church_rosser (er_gctx gc) -> g_eta gc = false -> s = Typ \/ s = Kind ->
  run (whnf uniq gc n t) = Ok t' -> conv (er_gctx gc) (ers t) s -> ers t' = s.
Proof. exact main_whnf_sort. Qed.
Print Assumptions C48_sort.

Example C48_example :
  (exists t', run (whnf sometimes orth_gc fuel (sterm_of_lterm (PLUS (PLUS (LVar 0) (num 1)) (num 1)))) = Ok t' /\
     head (ers t') = Const 3 /\ nargs (ers t') = 2) /\
  (exists t', run (whnf sometimes orth_gc fuel (sterm_of_lterm (lapp (LConst 8) [num 1]))) = Ok t' /\
     ers t' = erl (larr NAT (lapp (LConst 8) [ZERO]))).
Proof. split; eexists; split; vm_compute; repeat split; reflexivity. Qed.
