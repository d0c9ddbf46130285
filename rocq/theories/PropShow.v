(** * Property C70: what is printed determines the term

    [Display] of terms, patterns, rules, local contexts and events, as used in log messages.
    [name] is the string that a symbol points to. *)

From Verif Require Import Base ModelTerm ModelSubst ModelInfer ModelSyntax ModelCommand ModelShare ModelProcess ModelShow SpecSyntax SpecProcess SpecShow
  Samples SamplesProcess MainShow.

(** Two terms have the same text iff they have the same tree (constants by name), however they are stored. *)
Theorem C70_term : forall name t u, plain (stree name t) -> plain (stree name u) ->
  (sterm_show name t = sterm_show name u <-> stree name t = stree name u).
Proof. exact main_show_term. Qed.
Print Assumptions C70_term.
Theorem C70_long_term : forall name t u, plain (ltree name t) -> plain (ltree name u) ->
  (lterm_show name t = lterm_show name u <-> ltree name t = ltree name u).
Proof. exact main_show_long. Qed.
Print Assumptions C70_long_term.
Theorem C70_pattern : forall name p q, plain (ptree name p) -> plain (ptree name q) ->
  (pattern_show name p = pattern_show name q <-> ptree name p = ptree name q).
Proof. exact main_show_pattern. Qed.
Print Assumptions C70_pattern.
(** Rules have the same text iff they have the same sides; the types of variables are not shown. *)
Theorem C70_rule : forall name (r1 r2 : rule),
  plain (toptree name (r_lhs r1)) -> plain (ltree name (r_rhs r1)) -> plain (toptree name (r_lhs r2)) -> plain (ltree name (r_rhs r2)) ->
  (rule_show (toppat_show name) (lterm_show name) r1 = rule_show (toppat_show name) (lterm_show name) r2 <->
   toptree name (r_lhs r1) = toptree name (r_lhs r2) /\ ltree name (r_rhs r1) = ltree name (r_rhs r2)).
Proof. intros name r1 r2. exact (main_show_rule name r1 r2). Qed.
Print Assumptions C70_rule.

(** A local context is shown as a list of all its variables with the types that inference returns for them. *)
Theorem C70_context : forall name uniq lc ty,
  (forall i, i < length lc -> exists uniq' gc n T, ModelInfer.run (ModelInfer.infer uniq' gc n lc (SVar i)) = Ok T /\ ty i = sterm_show name T) ->
  ModelInfer.run (lctx_show name uniq lc) = Ok ($"[" ++ flat_map (fun i => $"β" ++ nat_show i ++ $" : " ++ ty i ++ $", ") (seq 0 (length lc)) ++ $"]").
Proof. exact main_show_ctx. Qed.
Print Assumptions C70_context.
Theorem C70_context_types : forall uniq gc n lc i, i < length lc -> exists T, ModelInfer.run (ModelInfer.infer uniq gc (S n) lc (SVar i)) = Ok T.
Proof. exact (main_show_ctx_types (fun _ => [])). Qed.
Print Assumptions C70_context_types.

(** The text of an event shows the path of a module, the name of a symbol, or the number of rules. *)
Theorem C70_event : forall ev ev', (forall path, ev = EvModule path \/ ev' = EvModule path -> Forall (fun p => ~ In "/"%char p) path) ->
  (event_show ev = event_show ev' <->
   match ev, ev' with
   | EvModule path, EvModule path' => path = path'
   | EvCommand (PIntro x _ _), EvCommand (PIntro y _ _) => x = y
   | EvCommand (PRules rs), EvCommand (PRules rs') => length rs = length rs'
   | _, _ => False
   end).
Proof. exact main_show_event. Qed.
Print Assumptions C70_event.

(** ** Names *)
(** Every symbol allocated by a run has a name. *)
Theorem C70_names : forall evs st, length (symbol_names evs st) + ps_next st = ps_next (share_state evs st).
Proof. exact main_names. Qed.
Print Assumptions C70_names.

(** Two symbols of a program may have the same name, and terms made of them the same text. *)
Definition twice : list event :=
  [ EvModule [$"a"]; EvCommand (PIntro ($"x") [] (IDeclaration false p_type));
    EvModule [$"b"]; EvCommand (PIntro ($"x") [] (IDeclaration false p_type));
    EvCommand (PIntro ($"y") [] (IDeclaration false (p_const [$"a"] ($"x")))); EvCommand (PIntro ($"z") [] (IDeclaration false (p_const [$"b"] ($"x")))) ].
Theorem C70_distinct_refuted : exists evs st c d t u,
  share_results evs (pst_new st) = [Ok (CIntro 0 (IDeclaration false LType)); Ok (CIntro 1 (IDeclaration false LType));
    Ok (CIntro c (IDeclaration false t)); Ok (CIntro d (IDeclaration false u))] /\
  t <> u /\ let name := name_in (symbol_names evs (pst_new st)) in
  plain (ltree name t) /\ plain (ltree name u) /\ lterm_show name t = lterm_show name u.
Proof.
  exists twice, (Opts false None false), 2, 3, (LConst 0), (LConst 1). split; [vm_compute; reflexivity|]. split; [discriminate|].
  cbv zeta. assert (E : plain_name ($"x")).
  { split; [left; exists "x"%char, []; split; [reflexivity|split; [cbn; tauto|constructor]]|]. cbn. intros [H|[H|[H|[]]]]; discriminate. }
  repeat split; exact E || apply E.
Qed.
Print Assumptions C70_distinct_refuted.
(** A symbol called [Kind] or, in another module, [Type] has the text of the sort. *)
Definition sorts : list event :=
  [ EvModule [$"a"]; EvCommand (PIntro ($"Type") [] (IDeclaration false p_type)); EvCommand (PIntro ($"Kind") [] (IDeclaration false p_type));
    EvModule [$"b"]; EvCommand (PIntro ($"y") [] (IDeclaration false (p_const [$"a"] ($"Type")))); EvCommand (PIntro ($"z") [] (IDeclaration false (p_const [$"a"] ($"Kind")))) ].
Theorem C70_sorts_refuted : exists evs st t u,
  share_results evs (pst_new st) = [Ok (CIntro 0 (IDeclaration false LType)); Ok (CIntro 1 (IDeclaration false LType));
    Ok (CIntro 2 (IDeclaration false t)); Ok (CIntro 3 (IDeclaration false u))] /\
  let name := name_in (symbol_names evs (pst_new st)) in
  sterm_show name (sterm_of_lterm t) = sterm_show name SType /\ sterm_show name (sterm_of_lterm u) = sterm_show name SKind /\
  stree name (sterm_of_lterm t) <> stree name SType /\ stree name (sterm_of_lterm u) <> stree name SKind.
Proof.
  exists sorts, (Opts false None false), (LConst 0), (LConst 1). split; [vm_compute; reflexivity|]. repeat split; discriminate.
Qed.
Print Assumptions C70_sorts_refuted.

(** [x : Nat => plus x (succ x) -> Nat] and its text; a context *)
Definition shown_names : sym -> str := name_in (symbol_names sample_events (pst_new (Opts false None false))).
Definition shown : lterm := LComb (Abst ($"x") (Some NAT) (LComb (Prod ($"$") (PLUS (LVar 0) (SUCC (LVar 0))) NAT))).
Example C70_example :
  lterm_show shown_names shown = $"(λ x : Nat. (Π $ : (plus β0 (succ β0)). Nat))" /\
  plain (ltree shown_names shown) /\
  rule_show (toppat_show shown_names) (lterm_show shown_names) plus_succ' = $"(plus (succ μ1) μ0) ⟶ (succ (plus β1 β0))" /\
  ModelInfer.run (lctx_show shown_names (fun _ => true) [SSComb (Appl (SConst 4) [SVar 0]); SConst 0]) = Ok ($"[β0 : (two β1), β1 : Nat, ]") /\
  event_show (EvModule [$"a"; $"b"]) = $"Open module /a/b" /\
  map event_show (map EvCommand nat_commands) =
    [$"Introduce symbol Nat"; $"Introduce symbol zero"; $"Introduce symbol succ"; $"Introduce symbol plus"; $"Add 2 rules"].
Proof.
  split; [vm_compute; reflexivity|]. split; [|vm_compute; auto].
  assert (H : forall c t, In c name_chars -> forallb (fun d => if in_dec ascii_dec d more_chars then true else false) t = true ->
    ~ In (c :: t) [$"Type"; $"Kind"; $"_"] -> plain_name (c :: t)).
  { intros c t Hc Ht Hn. split; [left; exists c, t; repeat split; auto|exact Hn].
    apply Forall_forall. intros d Hd. rewrite forallb_forall in Ht. specialize (Ht d Hd). destruct (in_dec ascii_dec d more_chars); [assumption|discriminate]. }
  repeat split; try (right; reflexivity); try (left; apply (H _ _); vm_compute; auto; fail);
    try (apply H; [vm_compute; tauto|vm_compute; reflexivity|vm_compute; intros [E|[E|[E|[]]]]; discriminate]).
  left. apply (H "x"%char []); vm_compute; auto; try tauto. intros [E|[E|[E|[]]]]; discriminate.
Qed.
