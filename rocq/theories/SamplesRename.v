(** * Sample programs that differ in names of symbols and modules (C80) *)

From Verif Require Import Base LibMono ModelTerm ModelGctx ModelCommand ModelSyntax ModelSymbols ModelShare ModelLex ModelParse ModelMake ModelProcess ModelMain
  SpecSyntax SpecProcess SpecMake SpecParse SpecProgram SpecWhole SpecAlpha SpecRename
  Samples SamplesProcess SamplesParse SamplesProgram SamplesExamples TestExamples SamplesAlpha MainAlphaSyn MainAlphaProg MainRename.

(** ** Exchanging two names *)
Definition exchange (x y z : str) : str := if str_eqb z x then y else if str_eqb z y then x else z.
Lemma exchange_inj x y a b : exchange x y a = exchange x y b -> a = b.
Proof.
  unfold exchange. destruct (str_eqb a x) eqn:E1, (str_eqb b x) eqn:E2, (str_eqb a y) eqn:E3, (str_eqb b y) eqn:E4;
    repeat match goal with H : str_eqb _ _ = true |- _ => apply str_eqb_eq in H | H : str_eqb _ _ = false |- _ => apply str_eqb_neq in H end; congruence.
Qed.

(** ** Renaming includes keeping the names of bound variables *)
Definition dup (e : env) : env2 := map (fun x => (x, x)) e.
Lemma alpha_name_refl x e : alpha_name (dup e) x x.
Proof.
  induction e as [|o e IH]; cbn [dup map]; [constructor|]. destruct o as [y|].
  - destruct (str_eqb y x) eqn:E; [apply str_eqb_eq in E as ->; apply an_here|]. apply str_eqb_neq in E. apply an_there; [congruence|congruence|exact IH].
  - apply an_there; [discriminate|discriminate|exact IH].
Qed.
Lemma alpha_refl t : forall e, alpha (dup e) t t.
Proof.
  induction t as [h args Hh Ha] using pterm_ind'. intros e. constructor.
  - destruct h as [[[|p path] x]|x [A|] t|x A t]; cbn [apph_all] in Hh; constructor; try (apply Hh; fail).
    + constructor. apply alpha_name_refl.
    + constructor.
    + destruct Hh as [_ Ht]. apply (Ht (Some x :: e)).
    + destruct Hh as [_ Ht]. apply (Ht (Some x :: e)).
    + destruct Hh as [_ Ht]. apply (Ht (x :: e)).
  - clear Hh. induction Ha as [|a args H _ IH]; constructor; auto.
Qed.
Lemma alpha_opt_refl t e : alpha_opt (dup e) t t.
Proof. destruct t; constructor. apply alpha_refl. Qed.
Lemma alpha_args_refl args : forall e, exists e', alpha_args (dup e) args args (dup e').
Proof. induction args as [|[x A] args IH]; intros e; [exists e; constructor|]. destruct (IH (Some x :: e)) as [e' H]. exists e'. constructor; [apply alpha_refl|exact H]. Qed.
Lemma alpha_vars_refl vars : forall e, exists e', alpha_vars (dup e) vars vars (dup e').
Proof. induction vars as [|[x A] vars IH]; intros e; [exists e; constructor|]. destruct (IH (Some x :: e)) as [e' H]. exists e'. constructor; [apply alpha_opt_refl|exact H]. Qed.
Lemma alpha_sources_refl srcs : alpha_sources srcs srcs.
Proof.
  induction srcs as [|[m cs] srcs IH]; constructor; [|exact IH]. split; [reflexivity|]. cbn [snd]. clear. induction cs as [|c cs IH]; constructor; [|exact IH]. destruct c as [x args it|rules].
  - destruct (alpha_args_refl args []) as [e H]. eapply al_intro; [exact H|]. destruct it; constructor; auto using alpha_refl, alpha_opt_refl.
  - constructor. induction rules as [|[vars lhs rhs] rules IHr]; constructor; [|exact IHr]. destruct (alpha_vars_refl vars []) as [e H]. eapply al_rule; [exact H| |apply alpha_refl].
    replace (dup e ++ joker_env) with (dup (e ++ [Some ($"_")])) by (unfold dup; rewrite map_app; reflexivity). apply alpha_refl.
Qed.

(** ** Two files *)
Definition ren_in : list (str * option str) :=
  [($"lib/nat.dk", Some ($"nat : Type.
s : nat -> nat.
def twice (f : nat -> nat) (x : nat) : nat := f (f x).
def plus : nat -> nat -> nat.
[m, n] plus (s m) n --> s (plus m n).
")); ($"lib/use.dk", Some ($"vec : nat.nat -> Type.
def dep : x : nat.nat -> vec (nat.twice nat.s x) -> vec (nat.s (nat.s x)) := x : nat.nat => v : vec (nat.twice nat.s x) => v.
"))].
Definition ren_out : list (str * option str) :=
  [($"pkg/number.dk", Some ($"N : Type. s : N -> N.
def f (twice : N -> N) (x : N) : N := twice (twice x).
def add : N -> N -> N.
[m, n] add (s m) n --> s (add m n).
")); ($"pkg/use.dk", Some ($"vec : number.N -> Type.
def dep : x : number.N -> vec (number.f number.s x) -> vec (number.s (number.s x)) := y : number.N => v : vec (number.f number.s y) => v.
"))].
Definition ren_mu (x : str) : str := exchange ($"nat") ($"number") (exchange ($"lib") ($"pkg") x).
Definition ren_rho (x : str) : str := exchange ($"nat") ($"N") (exchange ($"twice") ($"f") (exchange ($"plus") ($"add") x)).
Lemma ren_renaming : renaming ren_mu ren_rho.
Proof.
  split; [intros x y H; apply exchange_inj in H; exact (exchange_inj _ _ _ _ H)|]. split; [|split; vm_compute; reflexivity]. intros x y H. apply exchange_inj in H. apply exchange_inj in H. exact (exchange_inj _ _ _ _ H).
Qed.
Definition inputs_srcs (inputs : list (str * option str)) : list source :=
  map (fun i => (match ModelPath.module_path (fst i) with Some m => m | None => [] end, cmds_of (match snd i with Some t => t | None => [] end))) inputs.
Definition ren_in_srcs : list source := Eval vm_compute in inputs_srcs ren_in.
Definition ren_out_srcs : list source := Eval vm_compute in inputs_srcs ren_out.
Ltac sources_go := repeat (apply Forall2_cons; [apply source_by; vm_compute; reflexivity|]); apply Forall2_nil.
Lemma ren_in_source : Forall2 (source_of junk0) ren_in ren_in_srcs.
Proof. sources_go. Qed.
Lemma ren_out_source : Forall2 (source_of junk0) ren_out ren_out_srcs.
Proof. sources_go. Qed.
Definition ren_mid : list source := Eval vm_compute in rn_sources ren_mu ren_rho ren_in_srcs.
Lemma ren_alpha : alpha_sources (rn_sources ren_mu ren_rho ren_in_srcs) ren_out_srcs.
Proof.
  replace (rn_sources ren_mu ren_rho ren_in_srcs) with ren_mid by (vm_compute; reflexivity). unfold ren_mid, ren_out_srcs.
  repeat (apply Forall2_cons; [split; [reflexivity|]; cbn [snd]; alpha_go|]). apply Forall2_nil.
Qed.
Lemma ren_in_accepted : kocheck junk0 (real_kernel (fun _ => sometimes) fuel) (Opts false None false) false ren_in (Ok tt).
Proof. apply (kocheck_seq _ _ _ _ _ _ ren_in_source). vm_compute. reflexivity. Qed.
Lemma ren_out_accepted : kocheck junk0 (real_kernel (fun _ => sometimes) fuel) (Opts false None false) false ren_out (Ok tt).
Proof. apply (kocheck_seq _ _ _ _ _ _ ren_out_source). vm_compute. reflexivity. Qed.

(** ** An error with a name *)
Definition ren_err_in : list (str * option str) := [($"lib/nat.dk", Some ($"a : nat.plus."))].
Definition ren_err_out : list (str * option str) := [($"pkg/number.dk", Some ($"a : number.add."))].
Definition ren_err_in_srcs : list source := Eval vm_compute in inputs_srcs ren_err_in.
Definition ren_err_out_srcs : list source := Eval vm_compute in inputs_srcs ren_err_out.
Lemma ren_err_sources : Forall2 (source_of junk0) ren_err_in ren_err_in_srcs /\ Forall2 (source_of junk0) ren_err_out ren_err_out_srcs /\ rn_sources ren_mu ren_rho ren_err_in_srcs = ren_err_out_srcs.
Proof. split; [sources_go|]. split; [sources_go|]. vm_compute. reflexivity. Qed.
Lemma ren_err_runs :
  kocheck junk0 (real_kernel (fun _ => sometimes) fuel) (Opts false None false) false ren_err_in (Err (PKo (KoShare (UndeclaredSymbol ($"nat.plus"))))) /\
  kocheck junk0 (real_kernel (fun _ => sometimes) fuel) (Opts false None false) false ren_err_out (Err (PKo (KoShare (UndeclaredSymbol ($"number.add"))))).
Proof. split; [apply (kocheck_seq _ _ _ _ _ _ (proj1 ren_err_sources))|apply (kocheck_seq _ _ _ _ _ _ (proj1 (proj2 ren_err_sources)))]; vm_compute; reflexivity. Qed.

(** ** Names must stay different *)
Definition merge_in : str := $"a : Type. b : Type.".
Definition merge_out : str := $"a : Type. a : Type.".
Definition merge_rho (x : str) : str := if str_eqb x ($"b") then $"a" else x.
Definition merge_in_srcs : list source := Eval vm_compute in inputs_srcs (stdin merge_in).
Definition merge_out_srcs : list source := Eval vm_compute in inputs_srcs (stdin merge_out).
Lemma merge_refutes : Forall2 (source_of junk0) (stdin merge_in) merge_in_srcs /\ Forall2 (source_of junk0) (stdin merge_out) merge_out_srcs /\
  rn_sources (fun x => x) merge_rho merge_in_srcs = merge_out_srcs /\
  kocheck junk0 (real_kernel (fun _ => sometimes) fuel) (Opts false None false) false (stdin merge_in) (Ok tt) /\
  kocheck junk0 (real_kernel (fun _ => sometimes) fuel) (Opts false None false) false (stdin merge_out) (Err (PKo (KoSymbols Reinsertion))).
Proof.
  assert (H1 : Forall2 (source_of junk0) (stdin merge_in) merge_in_srcs) by sources_go. assert (H2 : Forall2 (source_of junk0) (stdin merge_out) merge_out_srcs) by sources_go.
  split; [exact H1|]. split; [exact H2|]. split; [vm_compute; reflexivity|].
  split; [apply (kocheck_seq _ _ _ _ _ _ H1)|apply (kocheck_seq _ _ _ _ _ _ H2)]; vm_compute; reflexivity.
Qed.
