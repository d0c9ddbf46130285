(** * Sample programs with recursive functions over inductive types *)

From Verif Require Import Base ModelTerm ModelGctx ModelCommand ModelSubst ModelInfer ModelSyntax ModelLex ModelParse ModelProcess ModelMain
  SpecTerm SpecConv SpecRed SpecSN SpecType SpecProcess SpecDomain SpecTotal SpecRec SpecInd SpecRecProg SpecProgram SpecWhole SpecWholeRec RedConfl Erase RedCheck RedEnum
  Samples SamplesProcess SamplesParse SamplesProgram SamplesProg SamplesWhole SamplesRec MainVerify MainWhole MainRec MainWholeRec RecCheck RecTest IndCheck.

(** examples/fo_imp.dk *)
Definition fo_imp_text : str := $"prop: Type.
imp: prop -> prop -> prop.
def prf: prop -> Type.
[x: prop, y: prop] prf (imp x y) --> prf x -> prf y.
thm imp_refl (x: prop) : prf (imp x x) := p: prf x => p.
".
Definition fo_imp_source : str * option str := ($"fo_imp.dk", Some fo_imp_text).
(** a file that uses it; the proofs contain terms whose types have to be computed *)
Definition imp_source : str * option str := ($"imp.dk", Some ($"def i : fo_imp.prop -> fo_imp.prop -> fo_imp.prop := fo_imp.imp.
thm k (x : fo_imp.prop) (y : fo_imp.prop) : fo_imp.prf (i x (i y x)) := p : fo_imp.prf x => q : fo_imp.prf y => p.
thm s (x : fo_imp.prop) (y : fo_imp.prop) (z : fo_imp.prop) : fo_imp.prf (i (i x (i y z)) (i (i x y) (i x z))) :=
  p : fo_imp.prf (i x (i y z)) => q : fo_imp.prf (i x y) => r : fo_imp.prf x => p r (q r).
thm skk (x : fo_imp.prop) : fo_imp.prf (i x x) := s x (i x x) x (k x (i x x)) (k x x).")).
(** its converse cannot be proved like this *)
Definition conv_source : str * option str := ($"conv.dk", Some ($"thm c (x : fo_imp.prop) (y : fo_imp.prop) (p : fo_imp.prf (fo_imp.imp x y)) : fo_imp.prf (fo_imp.imp y x) := p.")).

(** quantifiers, codes of types with a recursor for all of them, and ordinal numbers *)
Definition ind_source : str * option str := ($"ind.dk", Some ($"term : Type. prop : Type. imp : prop -> prop -> prop. all : (term -> prop) -> prop. def prf : prop -> Type.
[x : prop, y : prop] prf (imp x y) --> prf x -> prf y [p : term -> prop] prf (all p) --> t : term -> prf (p t).
thm drop (x : prop) (p : term -> prop) : prf (imp (all (t : term => imp x (p t))) (imp x (all p))) :=
  f : (t : term -> prf x -> prf (p t)) => a : prf x => t : term => f t a.
Nat : Type. Z : Nat. S : Nat -> Nat. Ty : Type. nat : Ty. arr : Ty -> Ty -> Ty. def El : Ty -> Type.
[] El nat --> Nat [a : Ty, b : Ty] El (arr a b) --> El a -> El b.
def rec : a : Ty -> El a -> (Nat -> El a -> El a) -> Nat -> El a.
[a : Ty, x : El a, f : Nat -> El a -> El a] rec a x f Z --> x
[a : Ty, x : El a, f : Nat -> El a -> El a, n : Nat] rec a x f (S n) --> f n (rec a x f n).
def ack : Nat -> Nat -> Nat := rec (arr nat nat) S (m : Nat => g : (Nat -> Nat) => rec nat (g (S Z)) (n : Nat => r : Nat => g r)).
Is : Nat -> Type. is : n : Nat -> Is n. def two : Nat := S (S Z).
thm seven : Is (ack two two) := is (S (S (S (S (S two))))).
Ord : Type. zero : Ord. succ : Ord -> Ord. lim : (Nat -> Ord) -> Ord. def add : Ord -> Ord -> Ord.
[x : Ord] add x zero --> x [x : Ord, y : Ord] add x (succ y) --> succ (add x y)
[x : Ord, f : Nat -> Ord] add x (lim f) --> lim (n : Nat => add x (f n)).
def fin : Nat -> Ord. [] fin Z --> zero [n : Nat] fin (S n) --> succ (fin n). def omega : Ord := lim fin.
Eq : Ord -> Ord -> Type. refl : x : Ord -> Eq x x.
thm sum : Eq (add omega (succ omega)) (succ (lim (n : Nat => add omega (fin n)))) := refl (succ (add omega omega)).")).
(** [ack 2 2] is not [6]. *)
Definition six_source : str * option str := ($"six.dk", Some ($"thm six : ind.Is (ind.ack ind.two ind.two) := ind.is (ind.S (ind.S (ind.S (ind.S ind.two)))).")).

Ltac ind_opens := repeat (first [apply Forall2_nil | apply Forall2_cons]);
  (eapply opens_text; [reflexivity|]; apply run_results_ok with (n := 60); vm_compute; reflexivity).
Notation ind_class_sources := (class_sources recursive_sig recursive_class same_recursive recursiveb recursiveb_ok).
Lemma imp_whole : exists srcs, Forall2 (source_of junk0) [fo_imp_source; imp_source] srcs /\ sources_in recursive_sig srcs.
Proof. eapply (ind_class_sources junk0 (fun _ => sometimes) sometimes fuel); [ind_opens|vm_compute; reflexivity|vm_compute; reflexivity]. Qed.
Lemma conv_whole : exists srcs, Forall2 (source_of junk0) [fo_imp_source; conv_source] srcs /\ sources_in recursive_sig srcs.
Proof. eapply (ind_class_sources junk0 (fun _ => sometimes) sometimes fuel); [ind_opens|vm_compute; reflexivity|vm_compute; reflexivity]. Qed.
Lemma ind_whole : exists srcs, Forall2 (source_of junk0) [ind_source] srcs /\ sources_in recursive_sig srcs.
Proof. eapply (ind_class_sources junk0 (fun _ => sometimes) sometimes fuel); [ind_opens|vm_compute; reflexivity|vm_compute; reflexivity]. Qed.
Lemma six_whole : exists srcs, Forall2 (source_of junk0) [ind_source; six_source] srcs /\ sources_in recursive_sig srcs.
Proof. eapply (ind_class_sources junk0 (fun _ => sometimes) sometimes fuel); [ind_opens|vm_compute; reflexivity|vm_compute; reflexivity]. Qed.

Notation ind_kernel := (real_kernel (fun _ => sometimes) fuel).
Ltac ind_run := eexists; split; [ind_opens|];
  repeat (eapply run_ok; [unfold infer_checks; cbn [o_jobs]; eexists; vm_compute; reflexivity|]);
  try (eapply run_err; [unfold infer_checks; cbn [o_jobs]; eexists; vm_compute; reflexivity|reflexivity]); try constructor.
Lemma imp_kocheck : kocheck junk0 ind_kernel (Opts false None false) false [fo_imp_source; imp_source] (Ok tt).
Proof. ind_run. Qed.
Lemma conv_kocheck : kocheck junk0 ind_kernel (Opts false None false) false [fo_imp_source; conv_source] (Err (PKo (KoTyping Unconvertible))).
Proof. ind_run. Qed.
Lemma ind_kocheck : kocheck junk0 ind_kernel (Opts false None false) false [ind_source] (Ok tt).
Proof. ind_run. Qed.
Lemma six_kocheck : kocheck junk0 ind_kernel (Opts false None false) false [ind_source; six_source] (Err (PKo (KoTyping Unconvertible))).
Proof. ind_run. Qed.

(** ** Events *)
Definition ind_events : list event := text_events (match snd ind_source with Some t => t | None => [] end).
Lemma ind_events_in : program_in recursive_sig (fun _ => sometimes) unit (Opts false None false) ind_events.
Proof. apply (main_classb recursive_sig recursive_class recursiveb recursiveb_ok) with (uniq := sometimes) (n := fuel). vm_compute. reflexivity. Qed.
(** the signature of [ind_source] *)
Lemma ind_built : built (rec_sig ind_events).
Proof. apply (main_built recursive_sig recursive_class (fun _ => sometimes) unit false ind_events _ ind_events_in). exists fuel. vm_compute. reflexivity. Qed.
Lemma ind_larger : exists sg, built sg /\ inductive_sig sg /\ ~ structural sg.
Proof.
  exists (rec_sig ind_events). split; [exact ind_built|]. split; [apply inductiveb_ok; vm_compute; reflexivity|].
  intros (_ & _ & n & k & H). assert (Hr : exists r rs A, sg_rules (rec_sig ind_events) 4 = Some (r :: rs) /\ sr_args r <> [] /\ sg_type (rec_sig ind_events) 4 = Some A /\ target (strip A) = Typ /\ forall m, m < sr_vars r <-> In m (flat_map pat_vars (sr_args r))).
  { do 3 eexists. split; [vm_compute; reflexivity|]. split; [discriminate|]. split; [vm_compute; reflexivity|]. split; [reflexivity|]. intros m. cbn. lia. }
  destruct Hr as (r & rs & A & H1 & H2 & H3 & H4 & H5). assert (Hr : rule_of (rec_sig ind_events) 4 r) by (exists (r :: rs); split; [exact H1|]; split; [left; reflexivity|exact H5]).
  destruct (H 4) as [E|E]; [destruct (H2 (E _ Hr))|]. destruct (E _ Hr) as ((A' & E' & B) & _).
  rewrite H3 in E'. injection E' as <-. rewrite H4 in B. destruct B as (c & Hc & _). discriminate.
Qed.
(** functions as arguments of the symbols in patterns, with arguments that are not of a flat type *)
Lemma positive_refuted : exists sg, built sg /\ left_linear sg /\ orthogonal sg /\
  (forall c r, rule_of sg c r -> rhs_ok c 0 (fun _ _ => False) (strip (sr_rhs r))) /\ ~ normalising sg.
Proof.
  exists (rec_sig untyped_rec). split; [exact untyped_built|]. split; [apply gctx_left_linear; vm_compute; reflexivity|]. split; [apply gctx_orthogonal; vm_compute; reflexivity|].
  split; [|exact untyped_diverges]. intros c r H. apply rec_rule in H. vm_compute in H. destruct H as [[= <- <-]|[]]. cbn. repeat constructor.
Qed.
(** types that are computed from themselves *)
Definition type_rec : list event := text_events ($"prop : Type. not : prop -> prop. def prf : prop -> Type. [x : prop] prf (not x) --> prf (not x) -> prf x.").
Lemma type_built : built (rec_sig type_rec).
Proof.
  apply (main_built recursive_sig recursive_class (fun _ => sometimes) unit false type_rec); [|exists fuel; vm_compute; reflexivity].
  apply (main_classb recursive_sig recursive_class recursiveb recursiveb_ok) with (uniq := sometimes) (n := fuel). vm_compute. reflexivity.
Qed.
Lemma type_diverges : ~ normalising (rec_sig type_rec).
Proof.
  set (sg := rec_sig type_rec). set (t := App (Const 2) (App (Const 1) (Var 0))). intros H.
  assert (X : sn sg t).
  { apply (H [Const 0] t Typ).
    - apply tc_cons; [apply tc_nil|rec_const].
    - change Typ with (subst1 (App (Const 1) (Var 0)) Typ). apply (wt_app _ _ _ _ (Const 0)); [rec_const|]. change (Const 0) with (subst1 (Var 0) (Const 0)).
      apply (wt_app _ _ _ _ (Const 0)); [rec_const|]. exact (wt_var _ [Const 0] 0 (Const 0) eq_refl). }
  assert (R : red sg t (Pi t (App (Const 2) (Var 1)))).
  { set (s := fun _ : nat => Var 0). refine (red_rule _ 2 [MkSRule 1 [PatSymb 1 [PatVar 0]] (Pi t (App (Const 2) (Var 1)))] (MkSRule 1 [PatSymb 1 [PatVar 0]] (Pi t (App (Const 2) (Var 1))))
      s [App (Const 1) (Var 0)] _ (or_introl eq_refl) _ _).
    - vm_compute. reflexivity.
    - intros m. cbn. lia.
    - constructor; [|constructor]. apply (inst_symb s 1 [PatVar 0] [Var 0]). constructor; [exact (inst_var s 0)|constructor]. }
  revert R. generalize (App (Const 2) (Var 1)). intros u R.
  assert (St : forall n, red sg (Nat.iter n (fun v => Pi v u) t) (Nat.iter (S n) (fun v => Pi v u) t)) by (induction n as [|n IH]; [exact R|apply red_pil; exact IH]).
  assert (Y : forall v, sn sg v -> forall n, v <> Nat.iter n (fun v => Pi v u) t).
  { induction 1 as [v _ IH]. intros n ->. exact (IH _ (St n) (S n) eq_refl). }
  exact (Y t X 0 eq_refl).
Qed.
Lemma type_refuted : exists sg, built sg /\ left_linear sg /\ orthogonal sg /\
  (exists fl rank, (forall c, rank c <> [] -> constructor sg fl rank c) /\ forall c r, rule_of sg c r -> Forall (idata sg fl rank) (sr_args r)) /\ ~ normalising sg.
Proof.
  exists (rec_sig type_rec). split; [exact type_built|]. split; [apply gctx_left_linear; vm_compute; reflexivity|]. split; [apply gctx_orthogonal; vm_compute; reflexivity|].
  split; [|exact type_diverges]. set (gc := ps_gc (fst (fst (rec_seq type_rec)))).
  assert (Hc : forall c, ranks gc [] c <> [] -> constructor (rec_sig type_rec) (flat_types []) (ranks gc []) c).
  { intros c H. apply constructorb_ok. unfold ranks in H. replace (symbs gc) with [1] in H by (vm_compute; reflexivity). destruct c as [|[|c]]; cbn in H; try (destruct H; reflexivity). vm_compute. reflexivity. }
  exists (flat_types []), (ranks gc []). split; [exact Hc|].
  intros c r H. apply rec_rule in H. vm_compute in H. destruct H as [[= <- <-]|[]]. cbn [sr_args]. constructor; [|constructor]. apply id_symb; [apply Hc; vm_compute; discriminate|vm_compute; reflexivity|repeat constructor].
Qed.
