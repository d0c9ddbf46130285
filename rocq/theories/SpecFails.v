(** * Specification of failing commands

    [cmd_fails K gc cmd e]: processing [cmd] in the context [gc] meets the error [e].
    [K] answers the queries to the kernel; nothing is omitted. *)

From Verif Require Import Base ModelTerm ModelGctx ModelCommand ModelSubst ModelReduce ModelInfer
  ModelSyntax ModelSymbols ModelShare ModelProcess.

Section Fails.
  Variable K : kernel.
  Variable gc : gctx.

  (** The rule is not checked (some variable without type, or a joker), or its checks succeed. *)
  Definition rule_passes (r : rule) : Prop :=
    forall r', rule_try r = Ok r' -> exists chk, k_rewrite K gc r' = Ok chk /\ k_check K gc chk = Ok tt.
  Inductive rule_fails (r : rule) : kerror -> Prop :=
  | rf_infer r' e : rule_try r = Ok r' -> k_rewrite K gc r' = Err e -> rule_fails r e
  | rf_check r' chk e : rule_try r = Ok r' -> k_rewrite K gc r' = Ok chk -> k_check K gc chk = Err e -> rule_fails r e.
  (** The rules can be added one after the other up to one that cannot. *)
  Inductive adding_fails : gctx -> list rule -> gctx_error -> Prop :=
  | af_here gc0 gc1 r rules e : add_rule gc0 r = (gc1, Some e) -> adding_fails gc0 (r :: rules) e
  | af_later gc0 gc1 r rules e : add_rule gc0 r = (gc1, None) -> adding_fails gc1 rules e -> adding_fails gc0 (r :: rules) e.

  Inductive cmd_fails : command -> ko_error -> Prop :=
  | cf_intro c it e : k_intro K gc it = Err e -> cmd_fails (CIntro c it) (KoTyping e)
  | cf_check c it ty chk e : k_intro K gc it = Ok (ty, Some chk) -> k_check K gc chk = Err e ->
    cmd_fails (CIntro c it) (KoTyping e)
  | cf_insert c it ty chk gc' e : k_intro K gc it = Ok (ty, chk) ->
    (forall k, chk = Some k -> k_check K gc k = Ok tt) -> gctx_insert gc c ty (rewritable it) = (gc', Some e) ->
    cmd_fails (CIntro c it) (KoGCtx e)
  | cf_rule pre r post e : Forall rule_passes pre -> rule_fails r e -> cmd_fails (CRules (pre ++ r :: post)) (KoTyping e)
  | cf_add rules e : Forall rule_passes rules -> adding_fails gc rules e -> cmd_fails (CRules rules) (KoGCtx e).
End Fails.

(** An element of a source of commands fails if it is an error, or a failing command. *)
Definition elem_fails {PE} (K : kernel) (st : pst) (r : option (res (perror PE) command)) (e : perror PE) : Prop :=
  r = Some (Err e) \/ exists cmd e', r = Some (Ok cmd) /\ cmd_fails K (ps_gc st) cmd e' /\ e = PKo e'.
