(** * The examples of the repository as samples, and what goes wrong without the conditions on unchecked rules *)

From Verif Require Import Base ModelTerm ModelGctx ModelCommand ModelSubst ModelInfer ModelSyntax ModelLex ModelParse ModelProcess ModelMain
  SpecTerm SpecConv SpecRed SpecSN SpecType SpecProcess SpecDomain SpecTotal SpecRec SpecInd SpecRecProg SpecProgram SpecWhole SpecWholeRec RedConfl Erase RedCheck RedEnum
  Samples SamplesProcess SamplesParse SamplesProgram SamplesProg SamplesWhole SamplesRec SamplesInd MainVerify MainWhole MainRec MainWholeRec CompCheck RecCheck RecTest IndCheck TestExamples ModelMake.

(** The sources are typable; whichever of its subterms are shared, given enough fuel, kocheck accepts them, and has no other result. *)
Definition accepts (inputs : list (str * option str)) : Prop :=
  exists srcs, Forall2 (source_of junk0) inputs srcs /\ typable_program srcs /\
    forall O, exists n0, forall n, n0 <= n -> forall r, kocheck junk0 (real_kernel O n) (Opts false None false) false inputs r <-> r = Ok tt.
(** The sources are not typable; given enough fuel, kocheck rejects them, and has no other result. *)
Definition rejects (inputs : list (str * option str)) : Prop :=
  exists srcs, Forall2 (source_of junk0) inputs srcs /\ ~ typable_program srcs /\
    forall O, exists n0 e, forall n, n0 <= n -> forall r, kocheck junk0 (real_kernel O n) (Opts false None false) false inputs r <-> r = Err e.

(** It is enough to find one result. *)
Lemma accepts_by O n inputs : (exists srcs, Forall2 (source_of junk0) inputs srcs /\ sources_in recursive_sig srcs) ->
  kocheck junk0 (real_kernel O n) (Opts false None false) false inputs (Ok tt) -> accepts inputs.
Proof.
  intros (srcs & Hs & Hr) Hk. exists srcs. split; [exact Hs|]. assert (Ht : typable_program srcs).
  { destruct (main_rec_decides recursive_sig recursive_class junk0 O inputs srcs Hs Hr) as (n0 & r0 & _ & _ & _ & H1 & H2).
    destruct (H1 _ _ Hk) as [<-|H]; [apply H2; reflexivity|discriminate]. }
  split; [exact Ht|]. intros O'. destruct (main_rec_decides recursive_sig recursive_class junk0 O' inputs srcs Hs Hr) as (n0 & r0 & _ & _ & H0 & _ & H2).
  apply H2 in Ht. subst r0. exists n0. exact H0.
Qed.
Lemma rejects_by O n inputs e : (exists srcs, Forall2 (source_of junk0) inputs srcs /\ sources_in recursive_sig srcs) ->
  kocheck junk0 (real_kernel O n) (Opts false None false) false inputs (Err e) -> rejects inputs.
Proof.
  intros (srcs & Hs & Hr) Hk. exists srcs. split; [exact Hs|]. assert (Ht : ~ typable_program srcs).
  { destruct (main_rec_decides recursive_sig recursive_class junk0 O inputs srcs Hs Hr) as (n0 & r0 & _ & _ & _ & H1 & H2).
    destruct (H1 _ _ Hk) as [<-|H]; [|discriminate]. rewrite <- H2. discriminate. }
  split; [exact Ht|]. intros O'. destruct (main_rec_decides recursive_sig recursive_class junk0 O' inputs srcs Hs Hr) as (n0 & r0 & Hf & Hp & H0 & _ & H2).
  rewrite <- H2 in Ht. exists n0. destruct r0 as [[]|e0| |]; try congruence. exists e0. exact H0.
Qed.

(** kocheck on one file that is given as standard input *)
Definition stdin (text : str) : list (str * option str) := [($"-", Some text)].
Ltac example_sources := eapply (ind_class_sources junk0 (fun _ => sometimes) sometimes fuel);
  [constructor; [eapply opens_text; [reflexivity|apply run_results_ok with (n := big); vm_compute; reflexivity]|constructor]|vm_compute; reflexivity|vm_compute; reflexivity].
Ltac example_accepts := eapply accepts_by; [example_sources|apply verdict_kocheck; vm_compute; reflexivity].
Ltac example_rejects := eapply rejects_by; [example_sources|apply verdict_kocheck; vm_compute; reflexivity].

(** fib 8 is not 8 *)
Definition fib8_wrong : str := $"def eq : Dep (fib (mul 2 4)) := dep 8.".
(** the definition of booleans that are equal, but not by computation *)
Definition or_wrong : str := $"def eq : Bool_Dep (or_n (mul 2 4)) := bool_dep T.".

Lemma bool_accepts : accepts (stdin bool_dk).
Proof. example_accepts. Qed.
Lemma fo_imp_accepts : accepts (stdin fo_imp_dk).
Proof. example_accepts. Qed.
Lemma magic_accepts : accepts (stdin magic_dk).
Proof. example_accepts. Qed.
Lemma magic_rejects : rejects (stdin (magic_dk ++ magic_fails)).
Proof. example_rejects. Qed.
Lemma nat_accepts : accepts (stdin nat_dk).
Proof. example_accepts. Qed.
Lemma fib_accepts : accepts (stdin (nat_dk ++ fib8)).
Proof. example_accepts. Qed.
Lemma fib_rejects : rejects (stdin (nat_dk ++ fib8_wrong)).
Proof. example_rejects. Qed.
Lemma or_accepts : accepts (stdin (bool_dk ++ nat_dk ++ or_n_dk ++ or8)).
Proof. example_accepts. Qed.
Lemma or_rejects : rejects (stdin (bool_dk ++ nat_dk ++ or_n_dk ++ or_wrong)).
Proof. example_rejects. Qed.

(** ** The rules of nat.dk *)
Definition nat_events : list event := Eval vm_compute in
  match run_results (lazy_next scope_atom junk0) big (lazy_new (text_lines nat_dk)) with Some items => flat_map (fun i => match i with Ok c => [EvCommand c] | _ => [] end) items | None => [] end.
Lemma nat_larger : exists sg, built sg /\ structural sg /\ ~ orthogonal sg.
Proof.
  exists (rec_sig nat_events). split.
  - apply (main_built structural structural_class (fun _ => sometimes) unit false nat_events).
    + apply (main_classb structural structural_class structuralb structuralb_ok) with (uniq := sometimes) (n := fuel). vm_compute. reflexivity.
    + exists fuel. vm_compute. reflexivity.
  - split; [apply structuralb_ok; vm_compute; reflexivity|]. intros H.
    assert (Hr : exists r1 r2 r3, sg_rules (rec_sig nat_events) 15 = Some [r1; r2; r3] /\ usable r2 /\ usable r3 /\ r2 <> r3 /\
      Forall2 (inst Var) (sr_args r2) [App (Const 1) (Const 2)] /\ Forall2 (inst (fun _ => Const 2)) (sr_args r3) [App (Const 1) (Const 2)] /\
      sub Var (strip (sr_rhs r2)) <> sub (fun _ => Const 2) (strip (sr_rhs r3))).
    { do 3 eexists. split; [vm_compute; reflexivity|]. split; [intros m; cbn; lia|]. split; [intros m; cbn; lia|]. split; [discriminate|].
      assert (I2 : inst Var (PatSymb 2 []) (Const 2)) by (apply (inst_symb Var 2 [] []); constructor).
      split; [constructor; [|constructor]; apply (inst_symb Var 1 [PatSymb 2 []] [Const 2]); constructor; [exact I2|constructor]|].
      split; [constructor; [|constructor]; apply (inst_symb _ 1 [PatVar 0] [Const 2]); constructor; [exact (inst_var (fun _ => Const 2) 0)|constructor]|]. discriminate. }
    destruct Hr as (r1 & r2 & r3 & E & U2 & U3 & Hne & I2 & I3 & Hd).
    assert (R2 : rule_of (rec_sig nat_events) 15 r2) by (eexists; split; [exact E|]; split; [right; left; reflexivity|exact U2]).
    assert (R3 : rule_of (rec_sig nat_events) 15 r3) by (eexists; split; [exact E|]; split; [right; right; left; reflexivity|exact U3]).
    destruct (H _ _ R2) as (_ & _ & H'). destruct (H' _ _ R3) as [_ H'']. destruct (H'' eq_refl Hne) as [D|[_ D]].
    + assert (L : length (sr_args r3) = length (sr_args r2)) by (apply Forall2_len in I2, I3; congruence).
      refine (D ltac:(rewrite L; apply le_n) _ _ _ _ I3). rewrite L, firstn_all. exact I2.
    + exact (Hd (D _ _ _ I2 I3)).
Qed.

(** ** Unchecked rules that are not typed: a function that applies terms of a base type, and one that gives functions *)
Definition unchecked_rec : list event := text_events ($"A : Type. a : A. def app : A -> A -> A. [x, y] app x y --> x y. def c : A -> A. [z] c z --> x => app x x.").
Lemma unchecked_diverges : ~ normalising (rec_sig unchecked_rec).
Proof.
  set (sg := rec_sig unchecked_rec). set (w := ULam (App (App (Const 2) (Var 0)) (Var 0))). set (W := App (Const 3) (Const 1)).
  intros H. assert (Hself : forall t, well_typed sg [] t (Const 0) -> well_typed sg [] (App (App (Const 2) t) t) (Const 0)).
  { intros t Ht. change (Const 0) with (subst1 t (Const 0)). apply (wt_app _ _ _ _ (Const 0)); [|exact Ht].
    change (Pi (Const 0) (Const 0)) with (subst1 t (Pi (Const 0) (Const 0))). apply (wt_app _ _ _ _ (Const 0)); [|exact Ht]. rec_const. }
  assert (HW : well_typed sg [] W (Const 0)) by (change (Const 0) with (subst1 (Const 1) (Const 0)); apply (wt_app _ _ _ _ (Const 0)); rec_const).
  assert (X : sn sg (App (App (Const 2) W) W)) by (apply (H [] _ (Const 0)); [constructor|apply Hself, HW]).
  assert (R : red sg (App (App (Const 2) W) W) (App W W)).
  { refine (red_rule _ 2 [MkSRule 2 [PatVar 1; PatVar 0] (App (Var 1) (Var 0))] (MkSRule 2 [PatVar 1; PatVar 0] (App (Var 1) (Var 0))) (fun _ => W) [W; W] _ (or_introl eq_refl) _ _).
    - vm_compute. reflexivity.
    - intros m. cbn. lia.
    - constructor; [exact (inst_var (fun _ => W) 1)|]. constructor; [exact (inst_var (fun _ => W) 0)|constructor]. }
  assert (R2 : red sg (App W W) (App w W)).
  { apply red_appl. refine (red_rule _ 3 [MkSRule 1 [PatVar 0] w] (MkSRule 1 [PatVar 0] w) (fun _ => Const 1) [Const 1] _ (or_introl eq_refl) _ _).
    - vm_compute. reflexivity.
    - intros m. cbn. lia.
    - constructor; [exact (inst_var (fun _ => Const 1) 0)|constructor]. }
  assert (R3 : red sg (App w W) (App (App (Const 2) W) W)) by apply red_beta.
  revert R R2 R3. generalize (App w W), (App W W). intros u v. revert u v. induction X as [t _ IH]. intros u v R R2 R3. apply (IH v R t u R2 R3 R).
Qed.
Lemma unchecked_refuted : exists evs st, accepted (fun _ => sometimes) unit (Opts false None false) evs st /\
  structural (er_gctx (ps_gc st)) /\ ~ normalising (er_gctx (ps_gc st)).
Proof.
  exists unchecked_rec, (fst (fst (rec_seq unchecked_rec))). split; [exists fuel; vm_compute; reflexivity|].
  split; [apply structuralb_ok; vm_compute; reflexivity|exact unchecked_diverges].
Qed.
(** Jokers and missing types do not matter if the rules are typed. *)
Definition joker_rec : list event := text_events ($"A : Type. P : A -> Type. a : A. b : A. p : x : A -> P x. f : A -> A -> A. def g : A -> A. [x] g (f x _) --> x. thm t : P (g (f a b)) := p a.").
Lemma joker_program : structural_program (fun _ => sometimes) unit (Opts false None false) joker_rec.
Proof. apply main_programb with (uniq := sometimes) (n := fuel). vm_compute. reflexivity. Qed.
Lemma all_accepts text : In text [bool_dk; fo_imp_dk; magic_dk; nat_dk; nat_dk ++ fib8; bool_dk ++ nat_dk ++ or_n_dk ++ or8] -> accepts (stdin text).
Proof. intros [<-|[<-|[<-|[<-|[<-|[<-|[]]]]]]]; [exact bool_accepts|exact fo_imp_accepts|exact magic_accepts|exact nat_accepts|exact fib_accepts|exact or_accepts]. Qed.
Lemma all_rejects text : In text [magic_dk ++ magic_fails; nat_dk ++ fib8_wrong; bool_dk ++ nat_dk ++ or_n_dk ++ or_wrong] -> rejects (stdin text).
Proof. intros [<-|[<-|[<-|[]]]]; [exact magic_rejects|exact fib_rejects|exact or_rejects]. Qed.
