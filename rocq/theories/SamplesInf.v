(** * The example inf.dk of the repository (C74) *)

From Verif Require Import Base LibMono ModelTerm ModelGctx ModelCommand ModelSubst ModelReduce ModelInfer ModelSyntax ModelLex ModelParse ModelMake ModelProcess ModelMain
  SpecTerm SpecConv SpecConvFacts SpecRed SpecSN SpecType SpecQuery SpecDomain SpecDerive SpecProgram SpecWhole
  Samples SamplesProcess SamplesParse SamplesProgram SamplesRec SamplesExamples SamplesProg TestExamples
  RedConfl RedEnum EtaConfl Erase ModelMono SpecProcess MainRun CompCheck RecCheck RefMachine RefMono RefInfer MainKernel MainTerm MainProgram MainWhole MainInf.

(** examples/bench/inf.dk, without the last definition *)
Definition inf_rules : str := $"(; depends on nat.ko ;)

def inf : Nat.
[] inf --> succ inf.

def to_zero : Nat -> Nat.
[X] to_zero (succ X) --> to_zero X.

".
(** examples/bench/inf.dk *)
Definition inf_dk : str := inf_rules ++ $"def does_not_terminate :
  Dep (to_zero inf) :=
  dep (to_zero (succ inf)).
".
Definition commands_of (text : str) : list event := match run_results (lazy_next scope_atom junk0) big (lazy_new (text_lines text)) with Some is => flat_map (fun i => match i with Ok c => [EvCommand c] | _ => [] end) is | None => [] end.
Definition inf_prefix : list event := Eval vm_compute in EvModule [$"-"] :: commands_of (nat_dk ++ inf_rules).
Definition inf_last : list event := Eval vm_compute in skipn (length inf_prefix - 1) (commands_of (nat_dk ++ inf_dk)).
Notation o := (Opts false None false).
Notation seq O n := (infer_checks_seq parse_error (real_kernel O n) o _ (consume_item parse_error o)).
Definition inf_state : pst := Eval vm_compute in fst (fst (seq (fun _ => sometimes) fuel (map Ok inf_prefix) (pst_new o))).
Lemma inf_prefix_ok O : seq O fuel (map Ok inf_prefix) (pst_new o) = (inf_state, [], Ok tt).
Proof. vm_compute. reflexivity. Qed.
Definition inf_gc : gctx := ps_gc inf_state.
Lemma inf_proper : proper_gctx inf_gc.
Proof.
  split.
  - intros c A. do 21 (destruct c as [|c]; [vm_compute; intros [= <-]; cbn; intuition auto; fail|]). discriminate.
  - intros c rs r. do 21 (destruct c as [|c]; [vm_compute; intros [= <-] H; repeat (destruct H as [<-|H]; [cbn; intuition auto; fail|]); destruct H|]). discriminate.
Qed.
Definition inf_sig : sig := er_gctx inf_gc.
Lemma inf_complete : complete inf_sig.
Proof. apply completeb_ok. vm_compute. reflexivity. Qed.
Lemma inf_linear : left_linear inf_sig.
Proof. apply RedEnum.gctx_left_linear. vm_compute. reflexivity. Qed.

Definition inf_type : lterm := LComb (Appl (LConst 17) [LComb (Appl (LConst 20) [LConst 19])]).
Definition inf_term : lterm := LComb (Appl (LConst 18) [LComb (Appl (LConst 20) [LComb (Appl (LConst 1) [LConst 19])])]).
Lemma inf_infer n h : r_infer inf_sig n [] (erl inf_term) h = Ok (App (Const 17) (App (Const 20) (tower 1 19 1)), h) \/ r_infer inf_sig n [] (erl inf_term) h = Fuel.
Proof.
  assert (E : r_infer inf_sig 20 [] (erl inf_term) h = Ok (App (Const 17) (App (Const 20) (tower 1 19 1)), h)).
  { vm_compute. reflexivity. }
  destruct (Nat.le_ge_cases n 20) as [L|L].
  - destruct (r_infer_mono inf_sig n 20 [] (erl inf_term) L h) as [F|F]; [right; exact F|left; congruence].
  - left. destruct (r_infer_mono inf_sig 20 n [] (erl inf_term) L h) as [F|F]; congruence.
Qed.
Lemma inf_check n h : r_check inf_sig n [] (erl inf_term) (erl inf_type) h = Fuel.
Proof.
  destruct n as [|n]; [reflexivity|].
  change (r_check inf_sig (S n) [] (erl inf_term) (erl inf_type)) with (bind (r_infer inf_sig n [] (erl inf_term)) (fun ty => r_convertible inf_sig n ty (erl inf_type))).
  unfold bind. destruct (inf_infer n h) as [E|E]; rewrite E; [|reflexivity].
  apply (dep_conv inf_sig 1 19 20) with (d := 17) (k := 1) (l := 0); [vm_compute; reflexivity|vm_compute; reflexivity|vm_compute; reflexivity|exact inf_linear|
    apply complete_church_rosser; [exact inf_complete|reflexivity]|reflexivity|vm_compute; reflexivity|discriminate].
Qed.
Definition inf_it : intro := IDefinition (Some inf_type) (Some inf_term).
Lemma inf_k_check uniq n : ModelInfer.run (check_check uniq inf_gc n (typing_new inf_type inf_term)) = Fuel.
Proof.
  assert (E : ModelInfer.run (ModelInfer.check uniq inf_gc n [] (sterm_of_lterm inf_term) (sterm_of_lterm inf_type)) = Fuel).
  { pose proof (run_sim0 _ _ _ _ (proj2 (infer_sim uniq inf_gc (proper_gctx_nf _ inf_proper) n) [] (sterm_of_lterm inf_term) (sterm_of_lterm inf_type) (Forall_nil _)
      (nf_lterm _ (proper_nfl inf_term ltac:(cbn; intuition auto))) (nf_lterm _ (proper_nfl inf_type ltac:(cbn; intuition auto))))) as X.
    cbn [map] in X. rewrite !ers_sterm_of_lterm in X. pose proof (inf_check n []) as F.
    change (r_check (er_gctx inf_gc) n [] (erl inf_term) (erl inf_type) []) with (r_check inf_sig n [] (erl inf_term) (erl inf_type) []) in X.
    rewrite F in X. destruct (ModelInfer.run _) as [b|e| |]; [discriminate X|discriminate X|discriminate X|reflexivity]. }
  unfold ModelInfer.run, check_check, bind in *. cbn [lctx_of typing_new t_lc t_tm t_ty map rev]. destruct (ModelInfer.check _ _ _ _ _ _ _) as [[b s]| | |]; try discriminate. reflexivity.
Qed.
Lemma inf_k_intro uniq n : ModelInfer.run (kintro uniq inf_gc n inf_it) = Ok (typing_new inf_type (Some inf_term), Some (typing_new inf_type inf_term)) \/
  ModelInfer.run (kintro uniq inf_gc n inf_it) = Fuel.
Proof.
  assert (E : kintro uniq inf_gc fuel inf_it (MSt [] 0) = Ok (typing_new inf_type (Some inf_term), Some (typing_new inf_type inf_term), MSt [] 0)).
  { vm_compute. reflexivity. }
  unfold ModelInfer.run. destruct (Nat.le_ge_cases n fuel) as [L|L].
  - destruct (ModelMono.kintro_mono uniq inf_gc n fuel inf_it L (MSt [] 0)) as [F|F]; rewrite F; [right; reflexivity|rewrite E; left; reflexivity].
  - left. destruct (ModelMono.kintro_mono uniq inf_gc fuel n inf_it L (MSt [] 0)) as [F|F]; [congruence|]. rewrite <- F, E. reflexivity.
Qed.
Lemma inf_last_fuel O n : snd (seq O n (map Ok inf_last) inf_state) = Fuel.
Proof.
  unfold inf_last. cbn [map infer_checks_seq].
  match goal with |- context [consume_item ?a ?b ?c ?d] => let r := eval vm_compute in (consume_item a b c d) in change (consume_item a b c d) with r end.
  cbv beta iota zeta. cbn [filter_infer omits o_omit ps_gc]. fold inf_type inf_term inf_it.
  match goal with |- context [infer_check ?K ?o ?c ?g] => change (infer_check K o c g) with (infer_check K o (CIntro 21 inf_it) inf_gc) end.
  assert (E : snd (infer_check (real_kernel O n) o (CIntro 21 inf_it) inf_gc) = Fuel).
  { unfold infer_check, infer_with.
    change (k_intro (real_kernel O n) inf_gc inf_it) with (ModelInfer.run (kintro (O (QIntro inf_gc inf_it)) inf_gc n inf_it)).
    destruct (inf_k_intro (O (QIntro inf_gc inf_it)) n) as [E|E]; rewrite E; cbn [ko_typing res_err]; [|reflexivity].
    cbn [omits o_omit]. match goal with |- context [k_check ?K ?g ?c] => change (k_check K g c) with (ModelInfer.run (check_check (O (QCheck g c)) inf_gc n (typing_new inf_type inf_term))) end.
    rewrite inf_k_check. reflexivity. }
  destruct (infer_check _ _ _ _) as [g r]. cbn in E. subst r. reflexivity.
Qed.
Lemma stdin_run O n text items evs r : run_results (lazy_next scope_atom junk0) big (lazy_new (text_lines text)) = Some items ->
  files_events parse_error [(Ok [$"-"], items)] = Some evs ->
  (kocheck junk0 (real_kernel O n) o false (stdin text) r <-> snd (seq O n (map Ok evs) (pst_new o)) = r).
Proof.
  intros Hi He. apply events_all in He.
  assert (Ho : Forall2 (opens junk0) (stdin text) [(Ok [$"-"], items)]).
  { constructor; [eapply opens_text; [reflexivity|]; eapply run_results_ok; exact Hi|constructor]. }
  pose proof (run_seq (real_kernel O n) false [(Ok [$"-"], items)] _ (pst_new o) r He) as X. rewrite <- X. split.
  - intros (files' & Ho' & Hr). rewrite <- (opens_det_all _ _ _ Ho _ Ho') in Hr. exact Hr.
  - intros Hr. exists [(Ok [$"-"], items)]. split; [exact Ho|exact Hr].
Qed.
Lemma inf_prefix_seq O n : fuel <= n -> seq O n (map Ok inf_prefix) (pst_new o) = (inf_state, [], Ok tt).
Proof. intros L. rewrite (seq_mono O fuel n L); rewrite inf_prefix_ok; [reflexivity|discriminate]. Qed.
Lemma inf_prefix_accepts O n r : fuel <= n -> kocheck junk0 (real_kernel O n) o false (stdin (nat_dk ++ inf_rules)) r <-> r = Ok tt.
Proof.
  intros L. assert (X : exists items, run_results (lazy_next scope_atom junk0) big (lazy_new (text_lines (nat_dk ++ inf_rules))) = Some items /\
    files_events parse_error [(Ok [$"-"], items)] = Some inf_prefix).
  { eexists. split; vm_compute; reflexivity. }
  destruct X as (items & X & Y). rewrite (stdin_run O n _ items inf_prefix r X Y), (inf_prefix_seq O n L). cbn. split; congruence.
Qed.
Lemma inf_seq O n : snd (seq O n (map Ok (inf_prefix ++ inf_last)) (pst_new o)) = Fuel.
Proof.
  assert (H : forall n, fuel <= n -> snd (seq O n (map Ok (inf_prefix ++ inf_last)) (pst_new o)) = Fuel).
  { intros m L. rewrite map_app, MainProcess.seq_app, (inf_prefix_seq O m L). apply inf_last_fuel. }
  destruct (snd (seq O n (map Ok (inf_prefix ++ inf_last)) (pst_new o))) as [u|e| |] eqn:E; [exfalso|exfalso|exfalso|reflexivity];
    specialize (H (n + fuel) ltac:(lia)); rewrite (seq_mono O n (n + fuel)) in H by (try lia; rewrite E; discriminate); congruence.
Qed.
Lemma inf_diverges O n r : kocheck junk0 (real_kernel O n) o false (stdin (nat_dk ++ inf_dk)) r <-> r = Fuel.
Proof.
  assert (X : exists items, run_results (lazy_next scope_atom junk0) big (lazy_new (text_lines (nat_dk ++ inf_dk))) = Some items /\
    files_events parse_error [(Ok [$"-"], items)] = Some (inf_prefix ++ inf_last)).
  { eexists. split; vm_compute; reflexivity. }
  destruct X as (items & X & Y). rewrite (stdin_run O n _ items _ r X Y), inf_seq. split; congruence.
Qed.
Lemma seq_jobs O n jobs items st : infer_checks_seq parse_error (real_kernel O n) (Opts false None jobs) _ (consume_item parse_error (Opts false None jobs)) items st = seq O n items st.
Proof. reflexivity. Qed.
Lemma stdin_never O n jobs channel text items evs : run_results (lazy_next scope_atom junk0) big (lazy_new (text_lines text)) = Some items ->
  files_events parse_error [(Ok [$"-"], items)] = Some evs -> snd (seq O n (map Ok evs) (pst_new o)) = Fuel ->
  ~ kocheck junk0 (real_kernel O n) (Opts false None jobs) channel (stdin text) (Ok tt).
Proof.
  intros X Y F H. apply kocheck_run in H as (files & Ho & Hr). apply run_events in Hr as (evs' & E & Hr). apply consume_ok_iff in Hr as (st & Hr).
  assert (Ho' : Forall2 (opens junk0) (stdin text) [(Ok [$"-"], items)]).
  { constructor; [eapply opens_text; [reflexivity|]; eapply run_results_ok; exact X|constructor]. }
  rewrite (opens_det_all _ _ _ Ho _ Ho') in E. rewrite Y in E. injection E as <-. rewrite seq_jobs in Hr. change (pst_new (Opts false None jobs)) with (pst_new o) in Hr. rewrite Hr in F. discriminate.
Qed.
Lemma inf_never O n jobs channel : ~ kocheck junk0 (real_kernel O n) (Opts false None jobs) channel (stdin (nat_dk ++ inf_dk)) (Ok tt).
Proof.
  assert (X : exists items, run_results (lazy_next scope_atom junk0) big (lazy_new (text_lines (nat_dk ++ inf_dk))) = Some items /\
    files_events parse_error [(Ok [$"-"], items)] = Some (inf_prefix ++ inf_last)).
  { eexists. split; vm_compute; reflexivity. }
  destruct X as (items & X & Y). apply (stdin_never O n jobs channel _ items _ X Y). apply inf_seq.
Qed.
Lemma inf_type_wt : well_typed inf_sig [] (erl inf_type) Typ.
Proof.
  change (well_typed inf_sig [] (erl inf_type) (subst1 (App (Const 20) (Const 19)) Typ)). apply (wt_app _ _ _ _ (Const 0)).
  - exact (wt_const inf_sig [] 17 (Pi (Const 0) Typ) eq_refl).
  - change (Const 0) with (subst1 (Const 19) (Const 0)). apply (wt_app _ _ _ _ (Const 0)); [exact (wt_const inf_sig [] 20 (Pi (Const 0) (Const 0)) eq_refl)|exact (wt_const inf_sig [] 19 (Const 0) eq_refl)].
Qed.
Lemma inf_typable : type_or_kind inf_sig (erl inf_type) /\ SpecWhole.checks inf_sig (erl inf_term) (erl inf_type).
Proof.
  split.
  - split; [cbn; auto|]. exists Typ. split; [left; reflexivity|].
    change (derives inf_sig [] (erl inf_type) (subst1 (strip (App (Const 20) (Const 19))) Typ)). apply (d_app _ _ _ _ (Const 0)).
    + exact (d_const inf_sig [] 17 (Pi (Const 0) Typ) eq_refl).
    + change (Const 0) with (subst1 (strip (Const 19)) (Const 0)). apply (d_app _ _ _ _ (Const 0)); [exact (d_const inf_sig [] 20 (Pi (Const 0) (Const 0)) eq_refl)|exact (d_const inf_sig [] 19 (Const 0) eq_refl)].
  - split; [cbn; auto|]. apply (d_conv _ _ _ (App (Const 17) (App (Const 20) (App (Const 1) (Const 19)))) _ Typ); [| |exact inf_type_wt|left; reflexivity].
    + change (App (Const 17) (App (Const 20) (App (Const 1) (Const 19)))) with (subst1 (strip (App (Const 20) (App (Const 1) (Const 19)))) (App (Const 17) (Var 0))).
      apply (d_app _ _ _ _ (Const 0)).
      * exact (d_const inf_sig [] 18 (Pi (Const 0) (App (Const 17) (Var 0))) eq_refl).
      * change (Const 0) with (subst1 (strip (App (Const 1) (Const 19))) (Const 0)). apply (d_app _ _ _ _ (Const 0)); [exact (d_const inf_sig [] 20 (Pi (Const 0) (Const 0)) eq_refl)|].
        change (Const 0) with (subst1 (strip (Const 19)) (Const 0)). apply (d_app _ _ _ _ (Const 0)); [exact (d_const inf_sig [] 1 (Pi (Const 0) (Const 0)) eq_refl)|exact (d_const inf_sig [] 19 (Const 0) eq_refl)].
    + apply conv_sym. change (strip (erl inf_type)) with (App (Const 17) (App (Const 20) (Const 19))).
      apply conv_app; [apply conv_refl|]. apply conv_app; [apply conv_refl|].
      apply (conv_rule inf_sig 19 [MkSRule 0 [] (App (Const 1) (Const 19))] (MkSRule 0 [] (App (Const 1) (Const 19))) (fun _ => Typ) []); [reflexivity|left; reflexivity|intros m; cbn; lia|constructor].
Qed.
Lemma inf_before O n : fuel <= n ->
  (forall r, kocheck junk0 (real_kernel O n) o false (stdin (nat_dk ++ inf_rules)) r <-> r = Ok tt) /\
  seq O n (map Ok inf_prefix) (pst_new o) = (inf_state, [], Ok tt) /\ inf_gc = ps_gc inf_state.
Proof. intros L. split; [intros r; apply inf_prefix_accepts; exact L|]. split; [apply inf_prefix_seq; exact L|reflexivity]. Qed.
Lemma inf_all : complete inf_sig /\ church_rosser inf_sig /\ type_or_kind inf_sig (erl inf_type) /\ SpecWhole.checks inf_sig (erl inf_term) (erl inf_type).
Proof. split; [exact inf_complete|]. split; [apply complete_church_rosser; [exact inf_complete|reflexivity]|]. exact inf_typable. Qed.
Definition inf_same : str := inf_rules ++ $"def terminates :
  Dep (to_zero (succ inf)) :=
  dep (to_zero (succ inf)).
".
Definition inf_same_last : list event := Eval vm_compute in skipn (length inf_prefix - 1) (commands_of (nat_dk ++ inf_same)).
Lemma inf_same_seq : snd (seq (fun _ => sometimes) fuel (map Ok (inf_prefix ++ inf_same_last)) (pst_new o)) = Ok tt.
Proof. vm_compute. reflexivity. Qed.
Lemma inf_same_accepted : kocheck junk0 (real_kernel (fun _ => sometimes) fuel) o false (stdin (nat_dk ++ inf_same)) (Ok tt).
Proof.
  assert (X : exists items, run_results (lazy_next scope_atom junk0) big (lazy_new (text_lines (nat_dk ++ inf_same))) = Some items /\
    files_events parse_error [(Ok [$"-"], items)] = Some (inf_prefix ++ inf_same_last)).
  { eexists. split; vm_compute; reflexivity. }
  destruct X as (items & X & Y). apply (stdin_run (fun _ => sometimes) fuel _ items _ (Ok tt) X Y). apply inf_same_seq.
Qed.
