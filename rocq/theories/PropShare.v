(** * Properties of symbol tables and sharing: C23-C27, C42 *)

From Verif Require Import Base ModelTerm ModelGctx ModelCommand ModelSyntax ModelSymbols ModelShare ModelProcess
  SpecTerm SpecConv SpecQuery SpecSymbols SpecShare SpecProcess Erase Samples SamplesProcess
  MainGctx MainSymbols MainShare MainVerify.

(** ** C23: names are introduced once per module *)
Theorem C23_insert : forall ops x c,
  let r := snd (symbols_insert (symhist ops) x c) in
  (r = Err Reinsertion <-> exists d, bound ops (cur_module ops) x d) /\
  (r = Ok c <-> unbound ops (cur_module ops) x) /\
  (r = Err Reinsertion \/ r = Ok c).
Proof. exact main_insert. Qed.
Print Assumptions C23_insert.
(** [i] and [j] are positions in the results for a stream of commands, also after errors. *)
Theorem C23_distinct : forall o evs i j c it it',
  nth_error (share_results evs (pst_new o)) i = Some (Ok (CIntro c it)) ->
  nth_error (share_results evs (pst_new o)) j = Some (Ok (CIntro c it')) -> i = j.
Proof. exact main_distinct. Qed.
Print Assumptions C23_distinct.

Example C23_example :
  snd (symbols_insert (symhist [SetPath [$"a"]; Insert ($"x") 0; SetPath [$"b"]]) ($"x") 1) = Ok 1 /\
  snd (symbols_insert (symhist [SetPath [$"a"]; Insert ($"x") 0; SetPath [$"b"]; SetPath [$"a"]]) ($"x") 1) = Err Reinsertion /\
  exists its, share_results sample_events (pst_new (Opts false None false)) =
    map Ok (map (fun '(c, it) => CIntro c it) its) ++ [Ok (CRules [plus_zero'; plus_succ']); Ok (CIntro 4 two_intro); Ok (CIntro 5 three_intro)] /\
    map fst its = [0; 1; 2; 3].
Proof.
  split; [vm_compute; reflexivity|]. split; [vm_compute; reflexivity|].
  eexists [(0, _); (1, _); (2, _); (3, _)]. split; [|reflexivity]. vm_compute. reflexivity.
Qed.

(** ** C24: name resolution searches enclosing modules from the inside out *)
Theorem C24_get : forall ops path x,
  (forall c, symbols_get (symhist ops) path x = Some c <-> resolves ops path x c) /\
  (symbols_get (symhist ops) path x = None <-> unresolved ops path x).
Proof. exact main_get. Qed.
Print Assumptions C24_get.

Example C24_example :
  let ops := [Insert ($"x") 0; SetPath [$"a"]; Insert ($"x") 1; SetPath [$"a"; $"b"]; Insert ($"y") 2] in
  symbols_get (symhist ops) [] ($"x") = Some 1 /\ symbols_get (symhist ops) [$"b"] ($"y") = Some 2 /\
  symbols_get (symhist ops) [$"a"; $"b"] ($"y") = Some 2 /\ symbols_get (symhist ops) [$"a"; $"b"] ($"x") = None /\
  symbols_get (symhist (ops ++ [SetPath [$"c"]])) [] ($"x") = Some 0.
Proof. vm_compute. auto. Qed.

(** ** C25: sharing resolves exactly the declared names *)
Theorem C25_term_ok : forall syms t,
  (exists u, share_term syms t = Ok u) <-> Forall (fun s => resolve syms s <> None) (consts t).
Proof. exact main_share_ok. Qed.
Print Assumptions C25_term_ok.
Theorem C25_term_structure : forall syms t u,
  share_term syms t = Ok u -> denotes (resolve syms) t (erl u) /\ proper_l u /\ lbinders u = binders t.
Proof. exact main_share_struct. Qed.
Print Assumptions C25_term_structure.
Theorem C25_term_error : forall syms t,
  (forall e, share_term syms t = Err e <-> first_unresolved syms (consts t) e) /\
  share_term syms t <> Panic /\ share_term syms t <> Fuel.
Proof. exact main_share_err. Qed.
Print Assumptions C25_term_error.
Theorem C25_intro : forall syms x args it,
  ((exists r, share_command syms (PIntro x args it) = Ok r) <->
   Forall (fun s => resolve syms s <> None) (command_consts (PIntro x args it))) /\
  (forall e, share_command syms (PIntro x args it) = Err e ->
    exists s, In s (command_consts (PIntro x args it)) /\ resolve syms s = None /\ e = UndeclaredSymbol (symb_show s)) /\
  share_command syms (PIntro x args it) <> Panic /\ share_command syms (PIntro x args it) <> Fuel.
Proof. exact main_share_intro. Qed.
Print Assumptions C25_intro.
Theorem C25_intro_structure : forall syms x it x' it',
  share_command syms (PIntro x [] it) = Ok (CIntro x' it') -> x' = x /\ den_intro syms it it'.
Proof. exact main_share_intro_struct. Qed.
Print Assumptions C25_intro_structure.
Theorem C25_rules : forall syms rules,
  match share_command syms (PRules rules) with
  | Ok (CRules rules') => Forall2 (fun r r' => share_rule syms r = Ok r') rules rules'
  | Ok (CIntro _ _) => False
  | Err e => exists pre r post, rules = pre ++ r :: post /\
      Forall (fun r => exists r', share_rule syms r = Ok r') pre /\ share_rule syms r = Err e
  | _ => False
  end.
Proof. exact main_share_rules. Qed.
Print Assumptions C25_rules.
(** A symbol does not occur in its own introduction, nor in any command before it. *)
Theorem C25_scope : forall o evs i j c it cmd,
  nth_error (share_results evs (pst_new o)) i = Some (Ok (CIntro c it)) -> j <= i ->
  nth_error (share_results evs (pst_new o)) j = Some (Ok cmd) -> absent_cmd c cmd.
Proof. exact main_scope. Qed.
Print Assumptions C25_scope.

Example C25_example :
  share_term (ps_syms (share_state sample_events (pst_new (Opts false None false))))
    (p_app (p_const [$"nat"] ($"succ")) [p_const [] ($"two")]) = Ok (SUCC (LConst 4)) /\
  share_term (ps_syms (share_state sample_events (pst_new (Opts false None false))))
    (p_app (p_const [$"nat"] ($"succ")) [p_const [$"nat"] ($"two"); p_const [] ($"z")]) = Err (UndeclaredSymbol ($"nat.two")).
Proof. split; vm_compute; reflexivity. Qed.

(** ** C26: parameters are products and abstractions *)
Theorem C26_params : forall syms x args it r, it <> IDefinition None None ->
  (share_command syms (PIntro x args it) = Ok r <-> share_command syms (PIntro x [] (nest args it)) = Ok r).
Proof. exact main_params. Qed.
Print Assumptions C26_params.
(** An introduction with neither type nor term is the same for all parameters
    (as long as their types can be shared). *)
Theorem C26_params_none : forall syms x args r,
  share_command syms (PIntro x args (IDefinition None None)) = Ok r -> r = CIntro x (IDefinition None None).
Proof. exact main_params_none. Qed.
Print Assumptions C26_params_none.

Example C26_example :
  let syms := ps_syms (share_state sample_events (pst_new (Opts false None false))) in
  let nat := p_const [$"nat"] ($"Nat") in
  exists r, share_command syms (PIntro ($"f") [($"x", nat); ($"y", nat)]
    (IDefinition (Some nat) (Some (p_app (p_const [$"nat"] ($"plus")) [p_var 1; p_var 0])))) = Ok r /\
  share_command syms (PIntro ($"f") [] (IDefinition
    (Some (PTm (HProd (Some ($"x")) nat (PTm (HProd (Some ($"y")) nat nat) [])) []))
    (Some (PTm (HAbst ($"x") (Some nat) (PTm (HAbst ($"y") (Some nat)
      (p_app (p_const [$"nat"] ($"plus")) [p_var 1; p_var 0])) [])) [])))) = Ok r.
Proof. eexists. split; [vm_compute; reflexivity|]. vm_compute. reflexivity. Qed.

(** ** C27: rule left-hand sides become the patterns they denote *)
Theorem C27_rule : forall syms r r', share_rule syms r = Ok r' ->
  Forall2 (fun (x : str * option (pterm atom)) (y : str * option lterm) => fst x = fst y /\ den_opt syms (snd x) (snd y)) (pr_ctx r) (r_ctx r') /\
  denotes (resolve syms) (pr_rhs r) (erl (r_rhs r')) /\
  exists lhs, denotes (resolve syms) (pr_lhs r) lhs /\
    pat_denotes (length (pr_ctx r)) (PatSymb (tp_symbol (r_lhs r')) (map erp (tp_args (r_lhs r')))) lhs /\
    (vars_below (S (length (pr_ctx r))) lhs ->
     Forall (fun m => m < length (r_ctx r')) (flat_map pat_vars (map erp (tp_args (r_lhs r'))))).
Proof. exact main_share_rule. Qed.
Print Assumptions C27_rule.
Theorem C27_complete : forall syms r lhs c ps,
  Forall (fun s => resolve syms s <> None) (rule_consts r) ->
  denotes (resolve syms) (pr_lhs r) lhs -> pat_denotes (length (pr_ctx r)) (PatSymb c ps) lhs ->
  exists r', share_rule syms r = Ok r' /\ tp_symbol (r_lhs r') = c /\ map erp (tp_args (r_lhs r')) = ps.
Proof. exact main_share_rule_complete. Qed.
Print Assumptions C27_complete.
Theorem C27_error : forall syms r e, share_rule syms r = Err e ->
  match e with
  | UndeclaredSymbol x => exists s, In s (rule_consts r) /\ resolve syms s = None /\ x = symb_show s
  | NoPrepattern => exists lhs, denotes (resolve syms) (pr_lhs r) lhs /\ forall P, ~ pat_denotes (length (pr_ctx r)) P lhs
  | NoTopPattern => exists v, denotes (resolve syms) (pr_lhs r) (Var v)
  end.
Proof. exact main_share_rule_err. Qed.
Print Assumptions C27_error.

(** [[x] plus zero _ --> x], where [_] is the variable after the last one *)
Example C27_example :
  let syms := ps_syms (share_state sample_events (pst_new (Opts false None false))) in
  share_rule syms (MkPRule [($"x", None)]
    (p_app (p_const [$"nat"] ($"plus")) [p_var 0; p_app (p_const [$"nat"] ($"succ")) [p_var 1]]) (p_var 0)) =
  Ok (MkRule [($"x", None)] (TopPat 3 [PMVar 0; PSymb 2 [PJoker]]) (LVar 0)) /\
  share_rule syms (MkPRule [($"x", None)]
    (p_app (p_const [$"nat"] ($"plus")) [p_var 0; p_app (p_var 0) [p_var 1]]) (p_var 0)) = Err NoPrepattern.
Proof. split; vm_compute; reflexivity. Qed.

(** ** C42: a failed introduction leaves the tables unchanged *)
Theorem C42_symbols_partial : forall s x c y p path, y <> x ->
  symbols_get (set_path (fst (symbols_insert s x c)) p) path y = symbols_get (set_path s p) path y.
Proof. exact main_insert_other. Qed.
Print Assumptions C42_symbols_partial.
(** The full statement is false: the failed insertion replaces the symbol. *)
Theorem C42_symbols_refuted : exists ops x c,
  snd (symbols_insert (symhist ops) x c) = Err Reinsertion /\
  symbols_get (fst (symbols_insert (symhist ops) x c)) [] x <> symbols_get (symhist ops) [] x.
Proof. exists [Insert ($"x") 0], ($"x"), 1. split; [vm_compute; reflexivity|]. vm_compute. discriminate. Qed.
Print Assumptions C42_symbols_refuted.
Theorem C42_gctx_partial : forall gc c ty rw gc' e, gctx_insert gc c ty rw = (gc', Some e) ->
  forall d, d <> c -> get_type gc' d = get_type gc d /\ get_rules gc' d = get_rules gc d.
Proof. exact main_gctx_insert_other. Qed.
Print Assumptions C42_gctx_partial.
(** The full statement is false: the failed insertion replaces the type. *)
Theorem C42_gctx_refuted : exists ops gc es c ty rw gc' e,
  ghist gctx_new ops = (gc, es) /\ gctx_insert gc c ty rw = (gc', Some e) /\ get_type gc' c <> get_type gc c.
Proof.
  exists sample_ops. do 2 eexists. exists 1, (typing_new LType None), false. do 2 eexists.
  split; [vm_compute; reflexivity|]. split; [vm_compute; reflexivity|]. vm_compute. discriminate.
Qed.
Print Assumptions C42_gctx_refuted.
(** A rejected rule does leave the context unchanged. *)
Theorem C42_rule : forall gc r gc' e, add_rule gc r = (gc', Some e) -> gc' = gc.
Proof. exact main_add_rule_err. Qed.
Print Assumptions C42_rule.

Example C42_example : add_rule sample_gc (MkRule [] (TopPat 1 []) ZERO) = (sample_gc, Some NonRewritable).
Proof. reflexivity. Qed.
