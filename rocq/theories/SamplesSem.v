(** * Sample texts for models *)

From Verif Require Import Base ModelTerm ModelGctx ModelCommand ModelSubst ModelInfer ModelSyntax ModelLex ModelParse ModelProcess ModelMain
  SpecTerm SpecConv SpecRed SpecDef SpecProgram SpecWhole SpecRec SpecWholeRec SpecProcess SpecSem Samples SamplesProcess SamplesParse SamplesProgram MainVerify MainProgram MainWhole SamplesWhole SamplesWholeRec
  RecCheck RecTest MainSem.

(** equality, with an empty type *)
Definition eq_source : str * option str := ($"eq.dk", Some ($"nat : Type. zero : nat. succ : nat -> nat. bot : Type. eq : nat -> nat -> Type.
refl : n : nat -> eq n n. def one := succ zero. def not_zero : nat -> Type := n : nat => (eq n zero -> bot).
thm self : eq one (succ zero) := refl one.
thm absurd : not_zero zero -> bot := h => h (refl zero).")).
Definition eq_vs : list vcmd :=
  [VIntro 0 (IDeclaration false Typ); VIntro 1 (IDeclaration false (Const 0)); VIntro 2 (IDeclaration false (Pi (Const 0) (Const 0)));
   VIntro 3 (IDeclaration false Typ); VIntro 4 (IDeclaration false (Pi (Const 0) (Pi (Const 0) Typ)));
   VIntro 5 (IDeclaration false (Pi (Const 0) (App (App (Const 4) (Var 0)) (Var 0))));
   VIntro 6 (IDefinition None (Some (App (Const 2) (Const 1))));
   VIntro 7 (IDefinition (Some (Pi (Const 0) Typ)) (Some (Lam (Const 0) (Pi (App (App (Const 4) (Var 0)) (Const 1)) (Const 3)))));
   VIntro 8 (ITheorem (App (App (Const 4) (Const 6)) (App (Const 2) (Const 1))) (App (Const 5) (Const 6)));
   VIntro 9 (ITheorem (Pi (App (Const 7) (Const 1)) (Const 3)) (ULam (App (Var 0) (App (Const 5) (Const 1)))))].
Ltac sem_free := intros rs H; repeat destruct H as [H|H]; try discriminate; contradiction.
Lemma eq_sem : exists srcs, Forall2 (source_of junk0) [eq_source] srcs /\ without_rules srcs /\ elaborates srcs eq_vs.
Proof. eapply sem_sources; [whole_opens|vm_compute; reflexivity|sem_free|vm_compute; reflexivity|vm_compute; reflexivity]. Qed.
Lemma eq_kocheck : kocheck junk0 sample_kernel (Opts false None false) false [eq_source] (Ok tt).
Proof. eexists. split; [whole_opens|]. eapply run_ok; [unfold infer_checks; cbn [o_jobs]; eexists; vm_compute; reflexivity|]. constructor. Qed.

(** implications: the law itself is not provable, but it cannot be refuted either *)
Definition imp_source : str * option str := ($"imp.dk", Some ($"a : Type. b : Type. def premise : Type := (a -> b) -> a.
thm k : a -> b -> a := x => y => x. thm weak : ((premise -> a) -> b) -> b := f => f (g => g (x => f (h => x))).")).
Definition imp_vs : list vcmd :=
  [VIntro 0 (IDeclaration false Typ); VIntro 1 (IDeclaration false Typ); VIntro 2 (IDefinition (Some Typ) (Some (Pi (Pi (Const 0) (Const 1)) (Const 0))));
   VIntro 3 (ITheorem (Pi (Const 0) (Pi (Const 1) (Const 0))) (ULam (ULam (Var 1))));
   VIntro 4 (ITheorem (Pi (Pi (Pi (Const 2) (Const 0)) (Const 1)) (Const 1)) (ULam (App (Var 0) (ULam (App (Var 0) (ULam (App (Var 2) (ULam (Var 1)))))))))].
Lemma imp_sem : exists srcs, Forall2 (source_of junk0) [imp_source] srcs /\ without_rules srcs /\ elaborates srcs imp_vs.
Proof. eapply sem_sources; [whole_opens|vm_compute; reflexivity|sem_free|vm_compute; reflexivity|vm_compute; reflexivity]. Qed.
Lemma imp_kocheck : kocheck junk0 sample_kernel (Opts false None false) false [imp_source] (Ok tt).
Proof. eexists. split; [whole_opens|]. eapply run_ok; [unfold infer_checks; cbn [o_jobs]; eexists; vm_compute; reflexivity|]. constructor. Qed.
(** a wrong proof *)
Definition classical_source : str * option str := ($"imp.dk", Some ($"a : Type. b : Type. thm law : ((a -> b) -> a) -> a := g => g (x => x).")).
Lemma classical_kocheck : kocheck junk0 sample_kernel (Opts false None false) false [classical_source] (Err (PKo (KoTyping Unconvertible))).
Proof.
  eexists. split; [whole_opens|]. eapply run_err; [unfold infer_checks; cbn [o_jobs]; eexists; vm_compute; reflexivity|]. reflexivity.
Qed.

(** rules: the functions of [fun.dk], and an empty type *)
Definition bot_source : str * option str := ($"bot.dk", Some ($"bot : Type. eq : fun.Nat -> fun.Nat -> Type. refl : n : fun.Nat -> eq n n.
thm sum : eq (fun.plus fun.two fun.two) (fun.pow fun.two fun.two) := refl (fun.times fun.two fun.two).
thm any : bot -> eq fun.two fun.Z -> bot := x => y => x.")).
Lemma sem_rec_sources junk O uniq n inputs files evs vs : Forall2 (opens junk) inputs files -> files_events parse_error files = Some evs ->
  eventsb structuralb O uniq n evs = true ->
  forallb is_ok (results evs) && true = true -> map er_cmd (oks (results evs)) = vs ->
  exists srcs, Forall2 (source_of junk) inputs srcs /\ recursive_sources srcs /\ elaborates srcs vs.
Proof.
  intros H1 H2 H3 H4 H5. destruct (opens_sources _ _ _ H1 _ H2) as (srcs & H6 & ->). exists srcs. split; [exact H6|].
  split; [eapply main_eventsb; eassumption|]. eapply sem_elaborates; [exact H6|reflexivity|exact H4|exact H5].
Qed.
Definition bot_vs : list vcmd :=
  let nat2 := Pi (Const 0) (Pi (Const 0) (Const 0)) in
  [VIntro 0 (IDeclaration false Typ); VIntro 1 (IDeclaration false (Const 0)); VIntro 2 (IDeclaration false (Pi (Const 0) (Const 0)));
   VIntro 3 (IDefinition (Some nat2) None); VIntro 4 (IDefinition (Some nat2) None);
   VRules [VRule [Some (Const 0)] 3 [PatSymb 1 []; PatVar 0] (Var 0);
     VRule [Some (Const 0); Some (Const 0)] 3 [PatSymb 2 [PatVar 1]; PatVar 0] (App (Const 2) (App (App (Const 3) (Var 1)) (Var 0)))];
   VRules [VRule [Some (Const 0)] 4 [PatSymb 1 []; PatVar 0] (Const 1);
     VRule [Some (Const 0); Some (Const 0)] 4 [PatSymb 2 [PatVar 1]; PatVar 0] (App (App (Const 3) (Var 0)) (App (App (Const 4) (Var 1)) (Var 0)))];
   VIntro 5 (IDefinition (Some (Pi (Pi (Const 0) (Const 0)) nat2)) None);
   VRules [VRule [Some (Pi (Const 0) (Const 0)); Some (Const 0)] 5 [PatVar 1; PatSymb 1 []; PatVar 0] (Var 0);
     VRule [Some (Pi (Const 0) (Const 0)); Some (Const 0); Some (Const 0)] 5 [PatVar 2; PatSymb 2 [PatVar 1]; PatVar 0]
       (App (Var 2) (App (App (App (Const 5) (Var 2)) (Var 1)) (Var 0)))];
   VIntro 6 (IDefinition (Some nat2) (Some (Lam (Const 0) (Lam (Const 0) (App (App (App (Const 5) (App (Const 4) (Var 1))) (Var 0)) (App (Const 2) (Const 1)))))));
   VIntro 7 (IDefinition (Some (Const 0)) (Some (App (Const 2) (App (Const 2) (Const 1)))));
   VIntro 8 (IDeclaration false (Pi (Const 0) Typ)); VIntro 9 (IDeclaration false (Pi (Const 0) (App (Const 8) (Var 0))));
   VIntro 10 (IDeclaration false Typ); VIntro 11 (IDeclaration false (Pi (Const 0) (Pi (Const 0) Typ)));
   VIntro 12 (IDeclaration false (Pi (Const 0) (App (App (Const 11) (Var 0)) (Var 0))));
   VIntro 13 (ITheorem (App (App (Const 11) (App (App (Const 3) (Const 7)) (Const 7))) (App (App (Const 6) (Const 7)) (Const 7)))
     (App (Const 12) (App (App (Const 4) (Const 7)) (Const 7))));
   VIntro 14 (ITheorem (Pi (Const 10) (Pi (App (App (Const 11) (Const 7)) (Const 1)) (Const 10))) (ULam (ULam (Var 1))))].
Lemma bot_sem : exists srcs, Forall2 (source_of junk0) [fun_source; bot_source] srcs /\ recursive_sources srcs /\ elaborates srcs bot_vs.
Proof.
  eapply (sem_rec_sources junk0 (fun _ => sometimes) sometimes fuel); [whole_opens|vm_compute; reflexivity..].
Qed.
Lemma bot_avoids : Forall (avoids 10) bot_vs.
Proof. repeat (constructor; [cbn; try exact I; try discriminate; try (split; discriminate); intros r Hr; repeat destruct Hr as [<-|Hr]; try destruct Hr; split; discriminate|]). constructor. Qed.
Lemma bot_kocheck : kocheck junk0 rec_kernel (Opts false None false) false [fun_source; bot_source] (Ok tt).
Proof.
  eexists. split; [whole_opens|].
  do 2 (eapply run_ok; [unfold infer_checks; cbn [o_jobs]; eexists; vm_compute; reflexivity|]). constructor.
Qed.

(** Conditions on [eq_vs] and [imp_vs] *)
Lemma eq_not_defined : forall cmd, In cmd eq_vs -> ~ defines cmd 3.
Proof. intros cmd Hin Hd. repeat destruct Hin as [<-|Hin]; try destruct Hin; inversion Hd. Qed.
Lemma eq_assumes : forall cmd d A e, In cmd eq_vs -> assumes cmd d A -> tip A = Some e -> e <> 3 /\ forall cmd', In cmd' eq_vs -> ~ defines cmd' e.
Proof.
  intros cmd d A e Hin Ha He.
  assert (X : e = 0 \/ e = 4) by (repeat destruct Hin as [<-|Hin]; try destruct Hin; inversion Ha; subst; cbn in He; try discriminate; injection He as <-; auto).
  split; [destruct X; subst; discriminate|]. intros cmd' Hin' Hd. repeat destruct Hin' as [<-|Hin']; try destruct Hin'; inversion Hd; subst; destruct X; discriminate.
Qed.
Lemma imp_assumes : forall cmd d A, In cmd imp_vs -> assumes cmd d A -> A = Typ.
Proof. intros cmd d A Hin Ha. repeat destruct Hin as [<-|Hin]; try destruct Hin; inversion Ha; reflexivity. Qed.
Lemma imp_not_defined : forall cmd, In cmd imp_vs -> ~ defines cmd 0 /\ ~ defines cmd 1.
Proof. intros cmd Hin. split; intros Hd; repeat destruct Hin as [<-|Hin]; try destruct Hin; inversion Hd. Qed.

(** Rules that are not checked, because they contain jokers or variables without types *)
Definition unchecked_source : str * option str := ($"unchecked.dk", Some ($"nat : Type. zero : nat. bot : Type. def g : nat -> nat. [] g _ --> bot.
def F : nat -> Type. [x] F x --> x. f : F (g zero). thm t : bot := f.")).
Definition unchecked_vs : list vcmd :=
  [VIntro 0 (IDeclaration false Typ); VIntro 1 (IDeclaration false (Const 0)); VIntro 2 (IDeclaration false Typ);
   VIntro 3 (IDefinition (Some (Pi (Const 0) (Const 0))) None); VRules [VRule [] 3 [PatJoker] (Const 2)];
   VIntro 4 (IDefinition (Some (Pi (Const 0) Typ)) None); VRules [VRule [None] 4 [PatVar 0] (Var 0)];
   VIntro 5 (IDeclaration false (App (Const 4) (App (Const 3) (Const 1)))); VIntro 6 (ITheorem (Const 2) (Const 5))].
Lemma unchecked_sem : exists srcs, Forall2 (source_of junk0) [unchecked_source] srcs /\ elaborates srcs unchecked_vs.
Proof.
  assert (X : exists files evs, Forall2 (opens junk0) [unchecked_source] files /\ files_events parse_error files = Some evs /\
    forallb is_ok (results evs) && true = true /\ map er_cmd (oks (results evs)) = unchecked_vs).
  { eexists. eexists. split; [whole_opens|]. split; [vm_compute; reflexivity|]. split; vm_compute; reflexivity. }
  destruct X as (files & evs & H1 & H2 & H3 & H4). destruct (opens_sources _ _ _ H1 _ H2) as (srcs & H5 & ->).
  exists srcs. split; [exact H5|]. eapply sem_elaborates; [exact H5|reflexivity|exact H3|exact H4].
Qed.
Lemma unchecked_kocheck : kocheck junk0 sample_kernel (Opts false None false) false [unchecked_source] (Ok tt).
Proof. eexists. split; [whole_opens|]. eapply run_ok; [unfold infer_checks; cbn [o_jobs]; eexists; vm_compute; reflexivity|]. constructor. Qed.
Lemma unchecked_refuted : exists junk O n inputs srcs vs W le v, Forall2 (source_of junk) inputs srcs /\ elaborates srcs vs /\
  kocheck junk (real_kernel O n) (Opts false None false) false inputs (Ok tt) /\ kripke W le v /\ Forall (models W le v) vs /\
  exists cmd A, In cmd vs /\ proves cmd A /\ ~ valid W le v A.
Proof.
  destruct unchecked_sem as (srcs & H1 & H2).
  exists junk0, (fun _ => shared), fuel, [unchecked_source], srcs, unchecked_vs, unit, (fun _ _ => True), (fun d _ => d <> 2 /\ d <> 3).
  split; [exact H1|]. split; [exact H2|]. split; [exact unchecked_kocheck|]. split; [unfold kripke; split; [intros; exact I|split; [intros; exact I|intros c w w' _ X; exact X]]|]. split.
  - unfold unchecked_vs. repeat apply Forall_cons; try apply Forall_nil; cbn; try (intros ?; exact I); try exact I.
    + intros w. split; discriminate.
    + intros w w' _ _. split; discriminate.
    + intros r [<-|[]] w. cbn. split; intros [X Y]; [destruct (Y eq_refl)|destruct (X eq_refl)].
    + intros w w' _ _. exact I.
    + intros r [<-|[]] w. cbn. split; [tauto|]. intros _. split; discriminate.
    + intros w. split; discriminate.
  - exists (VIntro 6 (ITheorem (Const 2) (Const 5))), (Const 2). split; [cbn; tauto|]. split; [constructor|]. intros H. destruct (H tt) as [X _]. apply X. reflexivity.
Qed.
