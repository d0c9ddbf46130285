(** * Sample programs that differ in names of bound variables (C79) *)

From Verif Require Import Base LibMono ModelTerm ModelGctx ModelCommand ModelSubst ModelReduce ModelInfer ModelSyntax ModelSymbols ModelShare ModelLex ModelParse ModelMake ModelProcess ModelMain
  SpecTerm SpecConv SpecQuery SpecSyntax SpecProcess SpecMake SpecParse SpecProgram SpecWhole SpecAlpha
  Samples SamplesProcess SamplesParse SamplesProgram SamplesRec SamplesExamples SamplesProg TestExamples SamplesInf
  RefMachine Erase SimReduce Inv RefInfer ModelMono MainKernel MainProcess MainRun MainProgram MainWhole MainAlpha MainAlphaProg.

Fixpoint run_cmds (n : nat) s : option (list (pcommand (pterm symb))) :=
  match n with
  | 0 => None
  | S n =>
    match lazy_next scope_symb junk0 s with
    | (Ok None, _) => Some []
    | (Ok (Some i), s) => option_map (cons i) (run_cmds n s)
    | _ => None
    end
  end.
Lemma run_cmds_ok n : forall s l, run_cmds n s = Some l -> outcome (lazy_next scope_symb junk0) s l None.
Proof.
  induction n as [|n IH]; intros s l; cbn [run_cmds]; [discriminate|]. destruct (lazy_next scope_symb junk0 s) as [[[i|]|e| |] s'] eqn:E; try discriminate.
  - destruct (run_cmds n s') as [l'|] eqn:E'; [|discriminate]. intros [= <-]. eapply outcome_ok; [exact E|]. apply IH. exact E'.
  - intros [= <-]. apply outcome_end. rewrite E. reflexivity.
Qed.
Definition cmds_of (text : str) : list (pcommand (pterm symb)) := match run_cmds big (lazy_new (text_lines text)) with Some l => l | None => [] end.
Lemma source_by path text m cs : ModelPath.module_path path = Some m -> run_cmds big (lazy_new (text_lines text)) = Some cs -> source_of junk0 (path, Some text) (m, cs).
Proof.
  intros Hm Hr. apply run_cmds_ok in Hr. apply main_source in Hr as (toks & H1 & H2). exists text, toks. split; [reflexivity|]. split; [apply MainPath.main_module_path; exact Hm|].
  split; [|exact H2]. exists (text_lines text). split; [apply text_splits|exact H1].
Qed.

(** ** Renaming can make checking run forever *)
Definition loop_start : str := $"nat : Type.
def w : (nat -> nat) -> Type.
[] w --> w.
def a : w (x : nat => x).
".
Definition loop_x : str := loop_start ++ $"def b : w (x : nat => x) := a.
".
Definition loop_y : str := loop_start ++ $"def b : w (y : nat => y) := a.
".
Definition loop_cmds_x := Eval vm_compute in cmds_of loop_x.
Definition loop_cmds_y := Eval vm_compute in cmds_of loop_y.
Lemma loop_x_source : Forall2 (source_of junk0) (stdin loop_x) [([$"-"], loop_cmds_x)].
Proof. constructor; [|constructor]. apply source_by; vm_compute; reflexivity. Qed.
Lemma loop_y_source : Forall2 (source_of junk0) (stdin loop_y) [([$"-"], loop_cmds_y)].
Proof. constructor; [|constructor]. apply source_by; vm_compute; reflexivity. Qed.
Ltac alpha_name_go := first [apply an_free|apply an_here|apply an_there; [discriminate|discriminate|alpha_name_go]].
Ltac alpha_go := repeat first [
  match goal with |- alpha_symb _ (Symb [] _) _ => apply as_name; alpha_name_go end | apply as_path | apply al_app | apply al_atom | apply al_abst | apply al_abst_of | apply al_prod |
  apply alo_none | apply alo_some | apply ala_nil | apply ala_cons | apply alv_nil | apply alv_cons | apply al_definition | apply al_theorem | apply al_declaration |
  eapply al_intro | apply al_rules | eapply al_rule | apply Forall2_nil | apply Forall2_cons ].
Lemma loop_alpha : alpha_sources [([$"-"], loop_cmds_x)] [([$"-"], loop_cmds_y)].
Proof. constructor; [|constructor]. split; [reflexivity|]. unfold loop_cmds_x, loop_cmds_y. cbn [snd]. alpha_go. Qed.

(** ** Names of parameters, of bound variables and of variables of rules *)
Definition names_one : str := $"nat : Type.
s : nat -> nat.
def twice (f : nat -> nat) (x : nat) : nat := f (f x).
def plus : nat -> nat -> nat.
[m, n] plus (s m) n --> s (plus m n).
vec : nat -> Type.
def dep : x : nat -> vec (twice s x) -> vec (s (s x)) := x : nat => v : vec (twice s x) => v.
".
Definition names_two : str := $"nat : Type.
s : nat -> nat.
def twice (x : nat -> nat) (s : nat) : nat := x (x s).
def plus : nat -> nat -> nat.
[n, m] plus (s n) m --> s (plus n m).
vec : nat -> Type.
def dep : plus : nat -> s' : vec (twice s plus) -> vec (s (s plus)) := n : nat => n : vec (twice s n) => n.
".
Definition names_cmds_one := Eval vm_compute in cmds_of names_one.
Definition names_cmds_two := Eval vm_compute in cmds_of names_two.
Lemma names_one_source : Forall2 (source_of junk0) (stdin names_one) [([$"-"], names_cmds_one)].
Proof. constructor; [|constructor]. apply source_by; vm_compute; reflexivity. Qed.
Lemma names_two_source : Forall2 (source_of junk0) (stdin names_two) [([$"-"], names_cmds_two)].
Proof. constructor; [|constructor]. apply source_by; vm_compute; reflexivity. Qed.
Lemma names_alpha : alpha_sources [([$"-"], names_cmds_one)] [([$"-"], names_cmds_two)].
Proof. constructor; [|constructor]. split; [reflexivity|]. unfold names_cmds_one, names_cmds_two. cbn [snd]. alpha_go. Qed.
Definition names_events_one : list event := Eval vm_compute in EvModule [$"-"] :: commands_of names_one.
Definition names_events_two : list event := Eval vm_compute in EvModule [$"-"] :: commands_of names_two.
Lemma names_one_accepted : kocheck junk0 (real_kernel (fun _ => sometimes) fuel) o false (stdin names_one) (Ok tt).
Proof.
  assert (X : exists items, run_results (lazy_next scope_atom junk0) big (lazy_new (text_lines names_one)) = Some items /\
    files_events parse_error [(Ok [$"-"], items)] = Some names_events_one).
  { eexists. split; vm_compute; reflexivity. }
  destruct X as (items & X & Y). apply (stdin_run (fun _ => sometimes) fuel _ items _ (Ok tt) X Y). vm_compute. reflexivity.
Qed.
Lemma names_two_accepted : kocheck junk0 (real_kernel (fun _ => sometimes) fuel) o false (stdin names_two) (Ok tt).
Proof.
  assert (X : exists items, run_results (lazy_next scope_atom junk0) big (lazy_new (text_lines names_two)) = Some items /\
    files_events parse_error [(Ok [$"-"], items)] = Some names_events_two).
  { eexists. split; vm_compute; reflexivity. }
  destruct X as (items & X & Y). apply (stdin_run (fun _ => sometimes) fuel _ items _ (Ok tt) X Y). vm_compute. reflexivity.
Qed.

(** ** Checking one program ends, checking the other does not *)
Definition loop_prefix : list event := Eval vm_compute in EvModule [$"-"] :: commands_of loop_start.
Definition loop_last (text : str) : list event := skipn (length loop_prefix - 1) (commands_of text).
Definition loop_state : pst := Eval vm_compute in fst (fst (seq (fun _ => sometimes) fuel (map Ok loop_prefix) (pst_new o))).
Lemma loop_prefix_ok O : seq O fuel (map Ok loop_prefix) (pst_new o) = (loop_state, [], Ok tt).
Proof. vm_compute. reflexivity. Qed.
Definition loop_gc : gctx := ps_gc loop_state.
Definition loop_sig : sig := er_gctx loop_gc.
Lemma loop_proper : proper_gctx loop_gc.
Proof.
  split.
  - intros c A. do 3 (destruct c as [|c]; [vm_compute; intros [= <-]; cbn; intuition auto; fail|]). discriminate.
  - intros c rs r. do 3 (destruct c as [|c]; [vm_compute; try discriminate; intros [= <-] H; repeat (destruct H as [<-|H]; [cbn; intuition auto; fail|]); destruct H|]). discriminate.
Qed.
Lemma loop_spin n : forall ctx stack h, r_state_whnf loop_sig n (RState ctx (Const 1) stack) h = Fuel.
Proof.
  induction n as [|n IH]; intros ctx stack h; [reflexivity|].
  change (r_state_whnf loop_sig (S n) (RState ctx (Const 1) stack) h) with (r_head loop_sig n (r_state_whnf loop_sig n) (fun t1 t2 => r_conv_loop loop_sig n [(t1, t2)]) ctx (Const 1) stack h).
  unfold r_head. change (sg_rules loop_sig 1) with (Some [MkSRule 0 [] (Const 1)]).
  destruct stack as [|l stack]; apply (IH [] _ h).
Qed.
Definition loop_ty (x : str) : lterm := LComb (Appl (LConst 1) [LComb (Abst x (Some (LConst 0)) (LVar 0))]).
Lemma loop_whnf n x : r_whnf loop_sig n (erl (loop_ty x)) [] = Fuel.
Proof.
  destruct n as [|n]; [reflexivity|]. unfold r_whnf, r_whnf_, r_fresh. change (erl (loop_ty x)) with (App (Const 1) (Lam (Const 0) (Var 0))). unfold bind.
  match goal with |- context [r_state_whnf loop_sig (S n) ?st ?h] => assert (E : r_state_whnf loop_sig (S n) st h = Fuel) end; [|rewrite E; reflexivity].
  match goal with |- r_state_whnf _ _ (RState [] (App _ ?u) []) ?h = _ =>
    pose proof (loop_spin (S n) [] [length h] (h ++ [RCState (RState [] u []) false false])) as X end. exact X.
Qed.
Lemma loop_k_whnf uniq n x : whnf uniq loop_gc n (sterm_of_lterm (loop_ty x)) (MSt [] 0) = Fuel.
Proof.
  assert (P : proper_l (loop_ty x)) by (cbn; intuition auto).
  pose proof (run_sim0' _ _ _ _ (whnf_sim0 uniq loop_gc (proper_gctx_nf _ loop_proper) n _ (nf_lterm _ (proper_nfl _ P)))) as X. rewrite ers_sterm_of_lterm in X.
  change (er_gctx loop_gc) with loop_sig in X. rewrite (loop_whnf n x) in X. unfold ModelInfer.run in X.
  destruct (whnf uniq loop_gc n (sterm_of_lterm (loop_ty x)) (MSt [] 0)) as [[t s]|e| |]; cbn in X; [destruct X; discriminate|discriminate|discriminate|reflexivity].
Qed.
Definition loop_y_ty : lterm := loop_ty ($"y").
Lemma loop_k_check uniq n : ModelInfer.run (check_check uniq loop_gc n (typing_new loop_y_ty (LConst 2))) = Fuel.
Proof.
  assert (E : ModelInfer.check uniq loop_gc n [] (SConst 2) (sterm_of_lterm loop_y_ty) (MSt [] 0) = Fuel).
  { destruct n as [|[|n]]; [reflexivity|reflexivity|].
    change (ModelInfer.check uniq loop_gc (S (S n)) [] (SConst 2) (sterm_of_lterm loop_y_ty) (MSt [] 0)) with (convertible uniq loop_gc (S n) (sterm_of_lterm (loop_ty ($"x"))) (sterm_of_lterm loop_y_ty) (MSt [] 0)).
    unfold convertible. cbn [convertible_loop]. replace (sterm_eqb _ _) with false by (vm_compute; reflexivity).
    unfold bind.
    match goal with |- match ?a with _ => _ end = Fuel => assert (X : a = Fuel) by exact (loop_k_whnf uniq n ($"x")); rewrite X end. reflexivity. }
  unfold ModelInfer.run, check_check, bind. cbn [lctx_of typing_new t_lc t_tm t_ty map rev]. change (sterm_of_lterm (LConst 2)) with (SConst 2). rewrite E. reflexivity.
Qed.
Definition loop_it : intro := IDefinition (Some loop_y_ty) (Some (LConst 2)).
Lemma loop_k_intro uniq n : ModelInfer.run (kintro uniq loop_gc n loop_it) = Ok (typing_new loop_y_ty (Some (LConst 2)), Some (typing_new loop_y_ty (LConst 2))) \/
  ModelInfer.run (kintro uniq loop_gc n loop_it) = Fuel.
Proof.
  assert (E : exists s, kintro uniq loop_gc fuel loop_it (MSt [] 0) = Ok (typing_new loop_y_ty (Some (LConst 2)), Some (typing_new loop_y_ty (LConst 2)), s)).
  { eexists. vm_compute. reflexivity. }
  destruct E as [s E]. unfold ModelInfer.run. destruct (Nat.le_ge_cases n fuel) as [L|L].
  - destruct (ModelMono.kintro_mono uniq loop_gc n fuel loop_it L (MSt [] 0)) as [F|F]; rewrite F; [right; reflexivity|rewrite E; left; reflexivity].
  - left. destruct (ModelMono.kintro_mono uniq loop_gc fuel n loop_it L (MSt [] 0)) as [F|F]; [congruence|]. rewrite <- F, E. reflexivity.
Qed.
Definition loop_y_last : list event := Eval vm_compute in skipn (length loop_prefix - 1) (commands_of loop_y).
Definition loop_x_last : list event := Eval vm_compute in skipn (length loop_prefix - 1) (commands_of loop_x).
Lemma loop_last_fuel O n : snd (seq O n (map Ok loop_y_last) loop_state) = Fuel.
Proof.
  unfold loop_y_last. cbn [map infer_checks_seq].
  match goal with |- context [consume_item ?a ?b ?c ?d] => let r := eval vm_compute in (consume_item a b c d) in change (consume_item a b c d) with r end.
  cbv beta iota zeta. cbn [filter_infer omits o_omit ps_gc].
  match goal with |- context [infer_check ?K ?o ?c ?g] => change (infer_check K o c g) with (infer_check K o (CIntro 3 loop_it) loop_gc) end.
  assert (E : snd (infer_check (real_kernel O n) o (CIntro 3 loop_it) loop_gc) = Fuel).
  { unfold infer_check, infer_with.
    change (k_intro (real_kernel O n) loop_gc loop_it) with (ModelInfer.run (kintro (O (QIntro loop_gc loop_it)) loop_gc n loop_it)).
    destruct (loop_k_intro (O (QIntro loop_gc loop_it)) n) as [E|E]; rewrite E; cbn [ko_typing res_err]; [|reflexivity].
    cbn [omits o_omit]. match goal with |- context [k_check ?K ?g ?c] => change (k_check K g c) with (ModelInfer.run (check_check (O (QCheck g c)) loop_gc n (typing_new loop_y_ty (LConst 2)))) end.
    rewrite loop_k_check. reflexivity. }
  destruct (infer_check _ _ _ _) as [g r]. cbn in E. subst r. reflexivity.
Qed.
Lemma loop_prefix_seq O n : fuel <= n -> seq O n (map Ok loop_prefix) (pst_new o) = (loop_state, [], Ok tt).
Proof. intros L. rewrite (seq_mono O fuel n L); rewrite loop_prefix_ok; [reflexivity|discriminate]. Qed.
Lemma loop_y_seq O n : snd (seq O n (map Ok (loop_prefix ++ loop_y_last)) (pst_new o)) = Fuel.
Proof.
  assert (H : forall n, fuel <= n -> snd (seq O n (map Ok (loop_prefix ++ loop_y_last)) (pst_new o)) = Fuel).
  { intros m L. rewrite map_app, MainProcess.seq_app, (loop_prefix_seq O m L). apply loop_last_fuel. }
  destruct (snd (seq O n (map Ok (loop_prefix ++ loop_y_last)) (pst_new o))) as [u|e| |] eqn:E; [exfalso|exfalso|exfalso|reflexivity];
    specialize (H (n + fuel) ltac:(lia)); rewrite (seq_mono O n (n + fuel)) in H by (try lia; rewrite E; discriminate); congruence.
Qed.
Lemma loop_y_never O n jobs channel : ~ kocheck junk0 (real_kernel O n) (Opts false None jobs) channel (stdin loop_y) (Ok tt).
Proof.
  assert (X : exists items, run_results (lazy_next scope_atom junk0) big (lazy_new (text_lines loop_y)) = Some items /\
    files_events parse_error [(Ok [$"-"], items)] = Some (loop_prefix ++ loop_y_last)).
  { eexists. split; vm_compute; reflexivity. }
  destruct X as (items & X & Y). apply (stdin_never O n jobs channel _ items _ X Y). apply loop_y_seq.
Qed.
Lemma loop_x_accepts O n r : fuel <= n -> kocheck junk0 (real_kernel O n) o false (stdin loop_x) r <-> r = Ok tt.
Proof.
  intros L. assert (X : exists items, run_results (lazy_next scope_atom junk0) big (lazy_new (text_lines loop_x)) = Some items /\
    files_events parse_error [(Ok [$"-"], items)] = Some (loop_prefix ++ loop_x_last)).
  { eexists. split; vm_compute; reflexivity. }
  assert (E : snd (seq O fuel (map Ok (loop_prefix ++ loop_x_last)) (pst_new o)) = Ok tt) by (vm_compute; reflexivity).
  destruct X as (items & X & Y). rewrite (stdin_run O n _ items _ r X Y), (seq_mono O fuel n L) by (rewrite E; discriminate). rewrite E. split; congruence.
Qed.
