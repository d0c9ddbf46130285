(** * Specification for C67: contexts with and without eta *)

From Verif Require Import Base ModelTerm ModelGctx ModelProcess SpecTerm SpecConv SpecWhnf SpecProcess SpecProgram.

(** the same context, in which eta conversion is switched on, or off *)
Definition with_eta (gc : gctx) : gctx := GCtx (g_types gc) (g_rules gc) true.
Definition without_eta (gc : gctx) : gctx := GCtx (g_types gc) (g_rules gc) false.

(** A uniqueness oracle may depend on the context of the query; this one looks at the context without eta. *)
Definition same_sharing (O : query -> nat -> bool) (q : query) : nat -> bool :=
  O match q with
    | QIntro gc it => QIntro (without_eta gc) it
    | QRewrite gc r => QRewrite (without_eta gc) r
    | QCheck gc c => QCheck (without_eta gc) c
    end.

(** No variable occurs more than once in the left-hand side of a rule. *)
Definition linear_vrule (v : vrule) : Prop := NoDup (flat_map pat_vars (v_args v)).
Definition linear_vcmd (v : vcmd) : Prop := match v with VIntro _ _ => True | VRules rs => Forall linear_vrule rs end.
Definition linear_sources (srcs : list source) : Prop := forall vs, elaborates srcs vs -> Forall linear_vcmd vs.
