(** * Sample programs with structurally recursive functions *)

From Verif Require Import Base ModelTerm ModelGctx ModelCommand ModelSubst ModelReduce ModelInfer ModelSyntax ModelSymbols ModelShare ModelLex ModelParse ModelMake ModelProcess ModelMain
  SpecTerm SpecConv SpecRed SpecSN SpecType SpecProcess SpecDomain SpecTotal SpecRec SpecRecProg RedConfl Erase RedCheck RedEnum MainRec RecCheck Samples SamplesProcess SamplesParse SamplesProgram SamplesProg.

(** the module [rec] with the commands of a text *)
Definition text_events (text : str) : list event :=
  match run_results (lazy_next scope_atom junk0) 100 (lazy_new (text_lines text)) with
  | Some l => EvModule [$"rec"] :: flat_map (fun r => match r with Ok c => [EvCommand c] | _ => [] end) l
  | None => []
  end.
(** numbers, with functions that are defined by recursion, by composition, and for functions as arguments; lists; a predicate *)
Definition rec_text : str :=
  $"Nat : Type. Z : Nat. S : Nat -> Nat. def plus : Nat -> Nat -> Nat. def times : Nat -> Nat -> Nat." ++ nl ++
  $"[m : Nat] plus Z m --> m [n : Nat, m : Nat] plus (S n) m --> S (plus n m)." ++ nl ++
  $"[m : Nat] times Z m --> Z [n : Nat, m : Nat] times (S n) m --> plus m (times n m)." ++ nl ++
  $"def iter : (Nat -> Nat) -> Nat -> Nat -> Nat." ++ nl ++
  $"[f : Nat -> Nat, x : Nat] iter f Z x --> x [f : Nat -> Nat, n : Nat, x : Nat] iter f (S n) x --> f (iter f n x)." ++ nl ++
  $"def pow (m : Nat) (n : Nat) : Nat := iter (times m) n (S Z)." ++ nl ++
  $"List : Type. nil : List. cons : Nat -> List -> List." ++ nl ++
  $"def fold : (Nat -> Nat -> Nat) -> Nat -> List -> Nat." ++ nl ++
  $"[f : Nat -> Nat -> Nat, x : Nat] fold f x nil --> x" ++ nl ++
  $"[f : Nat -> Nat -> Nat, x : Nat, n : Nat, l : List] fold f x (cons n l) --> f n (fold f x l)." ++ nl ++
  $"def two := S (S Z). Is : Nat -> Type. is : n : Nat -> Is n." ++ nl.
(** [1 + 2 * 2 ^ 2] and [9] *)
Definition good_rec : list event := text_events (rec_text ++
  $"thm t : Is (plus (S Z) (times two (pow two two))) := is (fold plus Z (cons (S two) (cons (times two two) (cons two nil)))).").
Definition wrong_rec : list event := text_events (rec_text ++ $"thm t : Is (pow two two) := is (S two).").

Definition rec_seq evs := infer_checks_seq unit (real_kernel (fun _ => sometimes) fuel) (Opts false None false) _ (consume_item unit (Opts false None false)) (map Ok evs) (pst_new (Opts false None false)).
Lemma good_rec_structural : structural_program (fun _ => sometimes) unit (Opts false None false) good_rec.
Proof. apply main_programb with (uniq := sometimes) (n := fuel). vm_compute. reflexivity. Qed.
Lemma wrong_rec_structural : structural_program (fun _ => sometimes) unit (Opts false None false) wrong_rec.
Proof. apply main_programb with (uniq := sometimes) (n := fuel). vm_compute. reflexivity. Qed.

(** ** Programs that are structurally recursive up to their last rule, which makes reduction diverge *)
Definition loop_rec : list event := text_events ($"Nat : Type. Z : Nat. def f : Nat -> Nat. [n : Nat] f n --> f n.").
(** untyped terms: a function with an argument of which the type is not a base type *)
Definition untyped_rec : list event := text_events ($"Tm : Type. lam : (Tm -> Tm) -> Tm. def app : Tm -> Tm -> Tm. [f : Tm -> Tm, x : Tm] app (lam f) x --> f x.").
Definition rec_sig (evs : list event) : sig := er_gctx (ps_gc (fst (fst (rec_seq evs)))).

Lemma loop_built : built (rec_sig loop_rec).
Proof.
  apply (main_built structural structural_class (fun _ => sometimes) unit false loop_rec); [|exists fuel; vm_compute; reflexivity].
  apply main_programb with (uniq := sometimes) (n := fuel). vm_compute. reflexivity.
Qed.
Lemma untyped_built : built (rec_sig untyped_rec).
Proof.
  apply (main_built structural structural_class (fun _ => sometimes) unit false untyped_rec); [|exists fuel; vm_compute; reflexivity].
  apply main_programb with (uniq := sometimes) (n := fuel). vm_compute. reflexivity.
Qed.
Lemma rec_rule evs c r : rule_of (rec_sig evs) c r -> In (c, r) (gctx_rules (ps_gc (fst (fst (rec_seq evs))))).
Proof. apply gctx_rule. Qed.

Lemma rec_const evs G c A : sg_type (rec_sig evs) c = Some A -> strip A = A -> well_typed (rec_sig evs) G (Const c) A.
Proof. intros H E. rewrite <- E. apply wt_const. exact H. Qed.
Ltac rec_const := apply rec_const; vm_compute; reflexivity.
Lemma loop_diverges : ~ normalising (rec_sig loop_rec).
Proof.
  intros H. assert (X : sn (rec_sig loop_rec) (App (Const 2) (Const 1))).
  { apply (H [] _ (Const 0)); [constructor|]. change (Const 0) with (subst1 (Const 1) (Const 0)). apply (wt_app _ _ _ _ (Const 0)); rec_const. }
  assert (R : red (rec_sig loop_rec) (App (Const 2) (Const 1)) (App (Const 2) (Const 1))).
  { refine (red_rule _ 2 [MkSRule 1 [PatVar 0] (App (Const 2) (Var 0))] (MkSRule 1 [PatVar 0] (App (Const 2) (Var 0))) (fun _ => Const 1) [Const 1] _ (or_introl eq_refl) _ _).
    - vm_compute. reflexivity.
    - intros m. cbn. lia.
    - constructor; [|constructor]. exact (inst_var (fun _ => Const 1) 0). }
  revert R. induction X as [t _ IH]. intros R. apply (IH t); assumption.
Qed.
Lemma untyped_diverges : ~ normalising (rec_sig untyped_rec).
Proof.
  set (sg := rec_sig untyped_rec). set (w := ULam (App (App (Const 2) (Var 0)) (Var 0))). set (W := App (Const 1) w).
  intros H. assert (Hself : forall G t, well_typed sg G t (Const 0) -> well_typed sg G (App (App (Const 2) t) t) (Const 0)).
  { intros G t Ht. change (Const 0) with (subst1 t (Const 0)). apply (wt_app _ _ _ _ (Const 0)); [|exact Ht].
    change (Pi (Const 0) (Const 0)) with (subst1 t (Pi (Const 0) (Const 0))). apply (wt_app _ _ _ _ (Const 0)); [|exact Ht]. rec_const. }
  assert (HW : well_typed sg [] W (Const 0)).
  { change (Const 0) with (subst1 w (Const 0)). apply (wt_app _ _ _ _ (Pi (Const 0) (Const 0))); [rec_const|].
    apply (wt_lam _ _ _ _ _ Typ); [rec_const| |rec_const|left; reflexivity]. apply Hself. exact (wt_var _ [Const 0] 0 (Const 0) eq_refl). }
  assert (X : sn sg (App (App (Const 2) W) W)) by (apply (H [] _ (Const 0)); [constructor|apply Hself, HW]).
  assert (R : red sg (App (App (Const 2) W) W) (App w W)).
  { refine (red_rule _ 2 [MkSRule 2 [PatSymb 1 [PatVar 1]; PatVar 0] (App (Var 1) (Var 0))] (MkSRule 2 [PatSymb 1 [PatVar 1]; PatVar 0] (App (Var 1) (Var 0)))
      (fun n => match n with 0 => W | _ => w end) [W; W] _ (or_introl eq_refl) _ _).
    - vm_compute. reflexivity.
    - intros m. cbn. lia.
    - set (s := fun n => match n with 0 => W | _ => w end). constructor; [|constructor; [exact (inst_var s 0)|constructor]].
      apply (inst_symb s 1 [PatVar 1] [w]). constructor; [exact (inst_var s 1)|constructor]. }
  assert (R2 : red sg (App w W) (App (App (Const 2) W) W)) by apply red_beta.
  revert R R2. generalize (App w W). intros u. revert u. induction X as [t _ IH]. intros u R R2. apply (IH u R t R2 R).
Qed.
Lemma loop_refuted : exists sg, built sg /\ left_linear sg /\ orthogonal sg /\
  (forall c r, rule_of sg c r -> Forall (data sg) (sr_args r)) /\ ~ normalising sg.
Proof.
  exists (rec_sig loop_rec). split; [exact loop_built|]. split; [apply gctx_left_linear; vm_compute; reflexivity|]. split; [apply gctx_orthogonal; vm_compute; reflexivity|].
  split; [|exact loop_diverges]. intros c r H. apply rec_rule in H. vm_compute in H. destruct H as [[= <- <-]|[]]. repeat constructor.
Qed.
Lemma untyped_refuted : exists sg, built sg /\ left_linear sg /\ orthogonal sg /\
  (forall c r, rule_of sg c r -> guarded c 0 (fun _ => False) (strip (sr_rhs r))) /\ ~ normalising sg.
Proof.
  exists (rec_sig untyped_rec). split; [exact untyped_built|]. split; [apply gctx_left_linear; vm_compute; reflexivity|]. split; [apply gctx_orthogonal; vm_compute; reflexivity|].
  split; [|exact untyped_diverges]. intros c r H. apply rec_rule in H. vm_compute in H. destruct H as [[= <- <-]|[]]. cbn. repeat constructor.
Qed.
